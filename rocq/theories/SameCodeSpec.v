(** Notions for comparing the encoding circuit with the encoder matrix (C111). *)
From Verif Require Import Py Scalar CodesSpec CircuitSpec.
Open Scope nat_scope.
Open Scope K_scope.

Section Spec.
Context {K : StarRing}.
(** the same state with its qubits renamed: qubit j of [psi] is qubit [p j] of the result *)
Definition move_qubits (n : nat) (p : nat -> nat) (psi : @state K) : @state K :=
  fun y => psi (map (fun j => nth (p j) y false) (seq 0 n)).
(** [psi] is a linear combination of the m columns of E *)
Definition in_columns (n m : nat) (E : array K) (psi : @state K) : Prop :=
  exists a : nat -> K, forall i, i < 2 ^ n -> psi (bits_of n i) = bsum m (fun t => E i t * a t).
(** [psi] is a linear combination of the states [F st], st a message of k bits *)
Definition encoded_by (n k : nat) (F : list Z -> @state K) (psi : @state K) : Prop :=
  exists l : list (K * list Z), Forall (fun p => length (snd p) = k /\ binary (snd p)) l /\ eqs n psi (superpose l F).
(** [psi] is orthogonal to every column of E *)
Definition off_columns (n m : nat) (E : array K) (psi : @state K) : Prop :=
  forall t, t < m -> bsum (2 ^ n) (fun i => (E i t)^* * psi (bits_of n i)) = 0.
End Spec.
