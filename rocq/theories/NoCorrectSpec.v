(** Vocabulary for statements about what the corrected errors do to encoded states. *)
From Verif Require Import Py ZMat CodesModel CodesSpec Scalar PauliModel PauliSpec KrausSpec.
Open Scope nat_scope.

(** a times a tensor product of n Pauli matrices; b is the row of the latter *)
Definition pauli_multiple_of (n : nat) (a : CC) (b : list Z) (A : marr CC) : Prop :=
  mr A = 2 ^ n /\ mc A = 2 ^ n /\ length b = 2 * n /\ binary b /\
  exists B, binary_rep_to_pauli_mat (ZM 1 (2 * n) [b]) = Ok [MA (2 ^ n) (2 ^ n) B] /\ eqm (2 ^ n) (2 ^ n) (me A) (scale a B).
Definition pauli_multiple (n : nat) (A : marr CC) : Prop := exists a b, pauli_multiple_of n a b A.
(** B or -B *)
Definition up_to_sign (A B : marr CC) : Prop :=
  mr A = mr B /\ mc A = mc B /\ (eqm (mr A) (mc A) (me A) (me B) \/ eqm (mr A) (mc A) (me A) (scale (sopp s1) (me B))).
(** some generator reports the error with row b *)
Definition detected (rows : list (list Z)) (b : list Z) : Prop := exists r, In r rows /\ inner_prod r b = 1%Z.
(** A^dagger B = 0: every column of A is orthogonal to every column of B *)
Definition orthogonal_to (A B : marr CC) : Prop := mr A = mr B /\ eqm (mc A) (mc B) (mm (mr A) (adj (me A)) (me B)) (fun _ _ => s0).
