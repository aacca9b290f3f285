(** Vocabulary for statements about effective_channel_with_stabilizers. *)
From Verif Require Import Py Scalar PauliModel KrausSpec.
Open Scope nat_scope.

(** the product of matrices whose inner dimensions agree *)
Definition product {K : StarRing} (A B : marr K) : marr K := MA (mr A) (mc B) (mm (mc A) (me A) (me B)).
Definition identity {K : StarRing} (d : nat) : marr K := MA d d eye.

(** A is the error W followed by a correction from Ss (or by none) *)
Definition corrected {K : StarRing} (d : nat) (Ss : list (marr K)) (W A : marr K) : Prop :=
  exists U, (U = identity d \/ In U Ss) /\ same_mat A (product U W).
(** A is the encoder E, followed by the error W, followed by a correction from Ss *)
Definition encoded {K : StarRing} (d : nat) (Ss : list (marr K)) (E W A : marr K) : Prop :=
  exists U, (U = identity d \/ In U Ss) /\ same_mat A (product (product U W) E).
