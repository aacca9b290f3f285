(** Vocabulary for statements about sparse matrices. *)
From Verif Require Import Py Scalar PauliModel KrausSpec CsrModel.
Open Scope nat_scope.

(** both calls raise the same exception, or both return and the results are related *)
Definition same_outcome {A B : Type} (Q : A -> B -> Prop) (x : res A) (y : res B) : Prop :=
  match x, y with Ok a, Ok b => Q a b | Err e, Err f => e = f | _, _ => False end.
(** every row stores one entry, in one of the columns of the matrix, and it is 1 or -1 *)
Definition one_entry {K : StarRing} (A : csr K) : Prop :=
  forall i, i < sr A -> exists j v, srow A i = [(j, v)] /\ j < sc A /\ (v = s1 \/ v = sopp s1).
(** the sparse matrix S has the shape and the entries of A and stores one entry a row *)
Definition represents {K : StarRing} (S : csr K) (A : marr K) : Prop := same_mat (todense S) A /\ one_entry S.
