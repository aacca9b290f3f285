(** Noisy circuits on the device (C148). *)
From Verif Require Import Py Scalar PauliModel CircuitModel CircuitSpec OptimModel DeviceModel DeviceSpec TwirlSpec TwirlSpec3.
From Coq Require Import Reals.
Open Scope nat_scope.

(** a circuit that draws a random number and runs one of several circuits, like bit_flip in PyQCodes/README.md L183-187
    and PyQCodes/tests/test_find_codes.py L212-216.  Simplified: the number drawn is already the index of the circuit,
    reduced modulo their number as for np.random.choice (DeviceModel.v) *)
Definition noisy (circuits : list (list nat -> world -> res world)) (register : list nat) (w : world) : res world :=
  nth (hd 0 (w_draws w) mod length circuits) circuits (fun _ w => Ok w) register (set_draws w (tl (w_draws w))).
(** the mean of h when i has probability q[i] *)
Fixpoint weighted (q : list R) (h : nat -> R) : R :=
  match q with [] => 0%R | x :: q => (x * h O + weighted q (fun i => h (S i)))%R end.
Definition distribution (q : list R) : Prop := Forall (fun x => 0 <= x)%R q /\ sum_of q = 1%R.
(** the expected value over draws in these ranges and one more that is i with probability q[i] *)
Definition noisy_expected (ranges : list nat) (q : list R) (h : list nat -> R) : R := expected ranges (fun d => weighted q (fun i => h (d ++ [i]))).
Open Scope K_scope.
(** the average fidelity of the channel with Kraus operators K[i] = sqrt(q[i]) A[i]: (d + sum_i |tr K[i]|^2) / (d (d + 1)) *)
Definition noisy_fidelity (n : nat) (q : list R) (As : list (list bool -> list bool -> CC)) : R :=
  let trace_squared i := (Cmod (isum n (fun x => nth i As (fun _ _ => s0) x x)) ^ 2)%R in
  let d := (2 ^ n)%R in ((d + weighted q trace_squared) / (d * (d + 1)))%R.
