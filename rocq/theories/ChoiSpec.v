(** Specification vocabulary for Choi matrices. *)
From Verif Require Import Py Scalar PauliModel PauliSpec KrausSpec.
From Coq Require Import Reals.
Open Scope nat_scope.

(** |i><j| *)
Definition ketbra {K : StarRing} (i j : nat) : array K := fun a b => if (Nat.eqb a i && Nat.eqb b j)%bool then s1 else s0.
(** (I x Phi)(sum_ij |i><j| x |i><j|): the block (i, j) is Phi(|i><j|) *)
Definition choi_of {K : StarRing} (Phi : array K -> array K) (dout : nat) : array K :=
  fun x y => Phi (ketbra (x / dout) (y / dout)) (x mod dout) (y mod dout).
Definition choi_matrix {K : StarRing} (ops : list (marr K)) (dout : nat) : array K := choi_of (channel_map ops) dout.

(** A = V diag(e) V^dagger for a unitary V *)
Definition spectrum (d : nat) (A : array CC) (e : list R) : Prop :=
  length e = d /\ exists V, eigen_decomposition d A (fun t => nth t e 0%R) V.
(** what is required of numpy.linalg.eigvalsh, of numpy.linalg.eigh and of scipy.linalg.sqrtm *)
Definition eigvalsh_ok (eigvalsh : marr CC -> list R) : Prop :=
  forall d A, is_square d A -> hermitian d (me A) -> spectrum d (me A) (eigvalsh A).
Definition eigh_all_ok (eigh : marr CC -> (nat -> R) * marr CC) : Prop :=
  forall d A, is_square d A -> hermitian d (me A) ->
    is_square d (snd (eigh A)) /\ eigen_decomposition d (me A) (fst (eigh A)) (me (snd (eigh A))).
Definition square_root (d : nat) (A S : array CC) : Prop := hermitian d S /\ psd d S /\ eqm d d (mm d S S) A.
Definition sqrtm_ok (sqrtm : marr CC -> marr CC) : Prop :=
  forall d A, is_square d A -> hermitian d (me A) -> psd d (me A) -> is_square d (sqrtm A) /\ square_root d (me A) (me (sqrtm A)).

(** matrix powers *)
Fixpoint mpow {K : StarRing} (d : nat) (A : array K) (p : nat) : array K := match p with O => eye | S q => mm d A (mpow d A q) end.
Definition transpose {K : StarRing} (A : array K) : array K := fun i j => A j i.

(** entropy in bits of a list of eigenvalues, leaving out those of modulus at most cut *)
Definition entropy_of (cut : R) (l : list R) : R :=
  (- fold_right Rplus 0 (map (fun x => if Rlt_dec cut (Rabs x) then x * (ln x / ln 2) else 0) l))%R.
(** the von Neumann entropy of a Hermitian matrix, leaving out eigenvalues of modulus at most 1e-10 *)
Definition vn_entropy (d : nat) (A : array CC) (s : R) : Prop := exists l, spectrum d A l /\ s = entropy_of (/ 10000000000)%R l.
(** |v><v| *)
Definition pure (v : nat -> CC) : array CC := fun i j => smul (v i) (sconj (v j)).
Definition unit_vector (d : nat) (v : nat -> CC) : Prop := bsum d (fun i => smul (sconj (v i)) (v i)) = s1.
(** <v| A |v> *)
Definition expectation (d : nat) (A : array CC) (v : nat -> CC) : CC :=
  bsum d (fun i => bsum d (fun j => smul (smul (sconj (v i)) (A i j)) (v j))).
