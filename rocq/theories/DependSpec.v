(** Textbook notions for codes with dependent generators or an odd number of Ys. *)
From Verif Require Import Py Scalar PauliModel PauliSpec.
From Coq Require Import Reals.
Open Scope nat_scope.

(** The product of a list of d x d matrices, in order. *)
Definition matrix_product {K : StarRing} (d : nat) (l : list (array K)) : array K := fold_right (mm d) eye l.

(** What numpy.linalg.eigh decomposes (UPLO='L'): the Hermitian matrix formed from
    the entries on and below the diagonal; whatever stands above the diagonal and the
    imaginary parts on it are ignored. *)
Definition lower_hermitian (A : array CC) : array CC := fun i j =>
  if Nat.ltb j i then A i j else if Nat.ltb i j then sconj (A j i) else ((fst (A i i), 0%R) : CC).

(** The contract of numpy.linalg.eigh on an arbitrary square matrix. *)
Definition eigh_lower_ok (eigh : marr CC -> (nat -> R) * marr CC) : Prop :=
  forall d A, mr (snd (eigh (MA d d A))) = d /\ mc (snd (eigh (MA d d A))) = d /\
    eigen_decomposition d (lower_hermitian A) (fst (eigh (MA d d A))) (me (snd (eigh (MA d d A)))).

(** The Pauli string in which the first letter that is X or Y is exchanged, X for Y
    and Y for X: the Z bit at the first position whose X bit is set is toggled. *)
Definition exchange_first (n : nat) (row : list Z) : list Z :=
  match find (fun j => Z.eqb (nth j row 0%Z) 1) (seq 0 n) with
  | None => row
  | Some t => map (fun j => if Nat.eqb j (n + t) then (1 - nth j row 0)%Z else nth j row 0%Z) (seq 0 (2 * n))
  end.
