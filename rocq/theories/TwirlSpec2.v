(** Vocabulary for the fidelity estimate of a code (C146). *)
From Verif Require Import Py Scalar PauliModel CircuitModel CircuitSpec OptimModel DeviceModel DeviceSpec TwirlSpec.
Open Scope nat_scope.
Open Scope K_scope.
(** k qubits in the state msg followed by qubits in the state rest *)
Definition message_and (k : nat) (msg rest : @state CC) : @state CC := fun y => msg (firstn k y) * rest (skipn k y).
(** the first k of n qubits, whatever their state, come out as they went in when the others start in |0...0> *)
Definition keeps_message (n k : nat) (V : @state CC -> @state CC) : Prop :=
  exists rest, inner (n - k) rest rest = 1 /\ forall msg, eqs n (V (message_and k msg (zero_ket (n - k)))) (message_and k msg rest).
(** V and W undo each other on n qubits *)
Definition inverses (n : nat) (V W : list nat -> @state CC -> @state CC) : Prop := forall ps psi, eqs n (W ps (V ps psi)) psi /\ eqs n (V ps (W ps psi)) psi.
