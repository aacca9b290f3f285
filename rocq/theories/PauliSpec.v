(** Textbook notions for the matrix-level properties of stabilizer codes. *)
From Verif Require Import Py CodesSpec Scalar PauliModel.
From Coq Require Import Reals.
Open Scope nat_scope.

(** Number of Y letters of a row: positions where both halves hold 1. *)
Definition y_count (n : nat) (row : list Z) : nat :=
  length (filter (fun j => Z.eqb (nth j row 0%Z) 1 && Z.eqb (nth (n + j) row 0%Z) 1)%bool (seq 0 n)).

(** z_a . x_b, an integer *)
Definition zx_dot (n : nat) (a b : list Z) : Z :=
  fold_right Z.add 0%Z (map (fun j => nth (n + j) a 0 * nth j b 0)%Z (seq 0 n)).

(** (-1)^m *)
Definition pm1 {K : StarRing} (m : Z) : K := if Z.even m then s1 else sopp s1.

(** Scalar multiple and sum of matrices. *)
Definition scale {K : StarRing} (a : K) (A : array K) : array K := fun i j => smul a (A i j).
Definition hermitian {K : StarRing} (d : nat) (A : array K) : Prop := eqm d d (adj A) A.
Definition unitary {K : StarRing} (d : nat) (A : array K) : Prop :=
  eqm d d (mm d (adj A) A) eye /\ eqm d d (mm d A (adj A)) eye.

(** The contract of numpy.linalg.eigh on a Hermitian matrix: real eigenvalues [e]
    and a unitary [V] whose columns are eigenvectors. *)
Definition eigen_decomposition (d : nat) (A : array CC) (e : nat -> R) (V : array CC) : Prop :=
  unitary d V /\ forall i t, i < d -> t < d -> mm d A V i t = smul (V i t) ((e t, 0%R) : CC).

(** What is required of eigh: an eigendecomposition of every Hermitian involution
    it is given (numpy's contract covers every Hermitian matrix).  The first
    component is the vector of eigenvalues, the second the d x d matrix of
    eigenvectors with its shape. *)
Definition is_involution {K : StarRing} (d : nat) (A : array K) : Prop := eqm d d (mm d A A) eye.

Definition eigh_ok (eigh : marr CC -> (nat -> R) * marr CC) : Prop :=
  forall d A, hermitian d A -> is_involution d A ->
    mr (snd (eigh (MA d d A))) = d /\ mc (snd (eigh (MA d d A))) = d /\
    eigen_decomposition d A (fst (eigh (MA d d A))) (me (snd (eigh (MA d d A)))).

(** sum of K^dagger K over a list of d x d matrices *)
Definition gram_sum {K : StarRing} (d : nat) (Ks : list (array K)) : array K :=
  fun i j => fold_right (fun A s => sadd (mm d (adj A) A i j) s) s0 Ks.
