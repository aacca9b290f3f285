(** Noisy circuits as analytic channels and inside codes (C149, C150). *)
From Verif Require Import Py Scalar PauliModel KrausSpec KrausModel CircuitModel CircuitSpec OptimModel DeviceModel DeviceSpec TwirlSpec.
From Coq Require Import Reals.
Open Scope nat_scope.
Open Scope K_scope.
(** the Kraus operators sqrt(q[i]) U[i] of "U[i] with probability q[i]" *)
Definition noisy_ops (q : list R) (Us : list (marr CC)) : list (marr CC) :=
  map (fun xU => MA (mr (snd xU)) (mc (snd xU)) (fun i j => smul ((sqrt (fst xU), 0%R) : CC) (me (snd xU) i j))) (combine q Us).
(** the circuit uses no random numbers *)
Definition no_draws (g : list nat -> world -> res world) : Prop :=
  forall register w l, g register (set_draws w l) = (do w' <- g register w; Ok (set_draws w' l)).
(** the matrix C B A: first A, then B, then C *)
Definition one_after_other (n : nat) (A B C : list bool -> list bool -> CC) : list bool -> list bool -> CC :=
  fun y x => isum n (fun z => C y z * isum n (fun u => B z u * A u x)).
