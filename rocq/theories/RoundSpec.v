(** Eigenvalues with rounding errors (C140). *)
From Verif Require Import Py Scalar PauliModel PauliSpec KrausModel KrausSpec ChoiSpec.
From Coq Require Import Reals.
Open Scope nat_scope.
(** eigvalsh returns, in some order, the eigenvalues of a Hermitian matrix, each up to eps; eps covers
    the rounding of the entries of the matrix as far as it moves the eigenvalues *)
Definition eigvalsh_within (eps : R) (eigvalsh : marr CC -> list R) : Prop :=
  forall d A, is_square d A -> hermitian d (me A) -> exists l, spectrum d (me A) l /\ Forall2 (fun x y => (Rabs (x - y) <= eps)%R) l (eigvalsh A).
