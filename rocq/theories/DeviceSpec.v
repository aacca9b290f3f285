(** Vocabulary for statements about the device adaptor. *)
From Verif Require Import Py Scalar PauliModel CircuitModel CircuitSpec OptimModel DeviceModel.
From Coq Require Import Reals Permutation.
Open Scope nat_scope.

(** the register consists of different allocated qubits *)
Definition registered (register : list nat) (w : world) : Prop := NoDup register /\ NoDup (w_qubits w) /\ incl register (w_qubits w).
Definition qubits (w : world) : nat := length (w_qubits w).

(** psi is |x>, up to a phase *)
Definition is_ket (n : nat) (x : list bool) (psi : @state CC) : Prop :=
  length x = n /\ exists z : CC, Cmod z = 1%R /\ eqs n psi (sscale z (ket x)).
Definition zeros (n : nat) : list bool := repeat false n.
(** the register has exactly the qubits of the engine, and these are in |0...0> *)
Definition all_zero (a : adaptor) (w : world) : Prop :=
  Permutation (a_register a) (w_qubits w) /\ NoDup (a_register a) /\ a_numb a = length (a_register a) /\ is_ket (qubits w) (zeros (qubits w)) (w_wave w).
(** what set_register_to_zero needs: a simulator in a basis state (as after measuring all
    qubits), or, with cheat, the register having all qubits; a real device must be in
    |0...0> already *)
Definition can_start (a : adaptor) (cheat : bool) (w : world) : Prop :=
  if a_real a then all_zero a w
  else if cheat then Permutation (a_register a) (w_qubits w) /\ NoDup (a_register a) /\ a_numb a = length (a_register a)
  else exists x, is_ket (qubits w) x (w_wave w).

(** the two worlds differ in the quantum state and in the random numbers left only *)
Definition same_engine (w w' : world) : Prop :=
  w_qubits w' = w_qubits w /\ w_next w' = w_next w /\ w_prob w' = w_prob w /\ w_outcomes w' = w_outcomes w.

(** position ps[i] of the engine holds qubit register[i] *)
Definition placed (ps register : list nat) (w : world) : Prop := Forall2 (fun p q => nth_error (w_qubits w) p = Some q) ps register.
(** a channel without measurements: on a register with all n qubits, at positions ps of the
    engine, it applies V ps to the state *)
Definition acts_as (n : nat) (g : list nat -> world -> res world) (V : list nat -> @state CC -> @state CC) : Prop :=
  (forall ps psi phi, eqs n psi phi -> eqs n (V ps psi) (V ps phi)) /\
  forall ps register w, qubits w = n -> NoDup register -> Permutation register (w_qubits w) -> placed ps register w -> exists w', g register w = Ok w' /\ same_engine w w' /\ eqs n (w_wave w') (V ps (w_wave w)).
Definition keeps_norm (n : nat) (V : list nat -> @state CC -> @state CC) : Prop := forall ps psi, inner n (V ps psi) (V ps psi) = inner n psi psi.

(** ** scipy's differential_evolution *)
Fixpoint dev_called (f : dev_objective) (s : adaptor * world) (points : list (list R)) : adaptor * world :=
  match points with
  | [] => s
  | x :: r => dev_called f (match f x s with Ok (a, w, _) => (a, w) | Err _ => s end) r
  end.
(** it calls f, lets exceptions out (perhaps others), and reports as fun a value f
    returned at x *)
Definition dev_reports (diffev : dev_diffev) : Prop := forall f bounds maxiter s a w r,
  diffev f bounds maxiter s = Ok (a, w, r) ->
  (exists points, (a, w) = dev_called f s points) /\
  exists points a' w', f (r_x r) (dev_called f s points) = Ok (a', w', r_fun r).

(** phases of one round on n qubits: 0, 2pi/3 or 4pi/3 for each qubit, then 0 or pi for each
    ordered pair of different qubits *)
Definition design_phases (n : nat) (l : list R) : Prop :=
  length l = n * n /\ Forall (fun x => x = 0 \/ x = 2 * PI / 3 \/ x = 4 * PI / 3)%R (firstn n l) /\ Forall (fun x => x = 0 \/ x = PI)%R (skipn n l).
