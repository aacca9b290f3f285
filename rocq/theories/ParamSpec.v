(** Specification vocabulary for the parameterisations: plain linear algebra. *)
From Verif Require Import Py Scalar PauliModel PauliSpec.
From Coq Require Import Reals.
Open Scope nat_scope.

(** A factors through dimension r *)
Definition rank_at_most (n r : nat) (A : array CC) : Prop :=
  exists B C : array CC, eqm n n A (mm r B C).
(** the entries (i, j) of an n x m matrix with j < i *)
Definition strictly_lower (n m : nat) : list (nat * nat) :=
  filter (fun p => Nat.ltb (snd p) (fst p)) (list_prod (seq 0 n) (seq 0 m)).
(** numpy.linalg.eigh: eigenvalues in increasing order with an orthonormal basis of
    eigenvectors, for Hermitian matrices *)
Definition sorted_eigh (eigh : marr CC -> (nat -> R) * marr CC) : Prop :=
  forall d A, mr A = d -> mc A = d -> hermitian d (me A) ->
    mr (snd (eigh A)) = d /\ mc (snd (eigh A)) = d /\
    eigen_decomposition d (me A) (fst (eigh A)) (me (snd (eigh A))) /\
    forall s t, s <= t -> t < d -> (fst (eigh A) s <= fst (eigh A) t)%R.
(** L is the Cholesky factor of A: lower triangular, positive diagonal, L L^dagger = A *)
Definition cholesky_factor (d : nat) (A L : array CC) : Prop :=
  eqm d d A (mm d L (adj L)) /\
  (forall i j, i < j -> j < d -> L i j = s0) /\
  (forall i, i < d -> snd (L i i) = 0%R /\ (0 < fst (L i i))%R).
(** positive definite *)
Definition positive_definite (d : nat) (A : array CC) : Prop :=
  hermitian d A /\
  forall v : nat -> CC, (exists i, i < d /\ v i <> s0) ->
    (0 < fst (bsum d (fun i => bsum d (fun j => smul (smul (sconj (v i)) (A i j)) (v j)))))%R.
(** numpy.linalg.cholesky: the factor of a positive definite matrix *)
Definition cholesky_contract (cholesky : marr CC -> res (marr CC)) : Prop :=
  forall d A, mr A = d -> mc A = d -> positive_definite d (me A) ->
    exists L, cholesky A = Ok L /\ mr L = d /\ mc L = d /\ cholesky_factor d (me A) (me L).
(** x is an eigenvalue of A *)
Definition eigenvalue (n : nat) (A : array CC) (x : R) : Prop :=
  exists v : nat -> CC, (exists i, i < n /\ v i <> s0) /\
    forall i, i < n -> bsum n (fun j => smul (A i j) (v j)) = smul ((x, 0%R) : CC) (v i).
(** the n x r matrix whose entries, row by row, are the pairs of consecutive reals of vec *)
Definition matrix_of_pairs (r : nat) (vec : list R) : array CC :=
  fun i j => (nth (2 * (i * r + j)) vec 0%R, nth (2 * (i * r + j) + 1) vec 0%R).
(** A A^dagger scaled to trace one is rho *)
Definition normalises (n r : nat) (A rho : array CC) : Prop :=
  exists t : R, (0 < t)%R /\ tr n (mm r A (adj A)) = ((t, 0%R) : CC) /\
    eqm n n (fun i j => smul (rho i j) ((t, 0%R) : CC)) (mm r A (adj A)).
(** The lower triangular n x r matrix described by vec: first the r real diagonal entries,
    then the strictly lower entries row by row, each as a real and an imaginary part.  The
    number of entries of the rows above row i is the number of strictly lower entries of an
    i x r matrix. *)
Definition lower_matrix (r : nat) (vec : list R) : array CC :=
  fun i j => if Nat.eqb i j then (nth i vec 0%R, 0%R)
             else if Nat.ltb j i then let p := length (strictly_lower i r) + j in
                                      (nth (r + 2 * p) vec 0%R, nth (r + 2 * p + 1) vec 0%R)
             else (0%R, 0%R).
(** numpy.random.normal and numpy.random.uniform return as many numbers as asked, the
    latter between the two bounds *)
Definition draws (f : R -> R -> nat -> list R) : Prop := forall a b k, length (f a b k) = k.
Definition uniform_draws (f : R -> R -> nat -> list R) : Prop := forall a b k, length (f a b k) = k /\ ((a <= b)%R -> Forall (fun x => (a <= x <= b)%R) (f a b k)).
(** the rank argument: no rank means full rank *)
Definition rank_of (rank : option nat) (n : nat) : nat := match rank with None => n | Some r => r end.
