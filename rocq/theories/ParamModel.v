(** Model of PyQCodes/chan/param.py: the three parameterisations of density
    matrices by real vectors.  A numpy vector of floats is a [list R], a matrix a
    [marr CC].  numpy.linalg.eigh, numpy.linalg.cholesky and the numpy.random
    draws are arguments; the theorems assume their documented contracts.  Sizes and
    ranks are natural numbers (the code never checks for negative ones).
    A division 0/0 gives nan in numpy; that case is [Err Unmodelled]. *)
From Verif Require Import Py Scalar PauliModel.
From Coq Require Import Reals.
From Coq Require String.
Import String.StringSyntax.
Delimit Scope string_scope with string.
Open Scope nat_scope.

(** vec[i] and vec[i] = x on a one-dimensional array, 0 <= i. *)
Definition vget (v : list R) (i : nat) : res R :=
  match nth_error v i with Some x => Ok x | None => Err IndexError end.
Definition vset (v : list R) (i : nat) (x : R) : res (list R) :=
  if Nat.ltb i (length v) then Ok (firstn i v ++ x :: skipn (S i) v) else Err IndexError.
(** A[i, j] = z for indices inside the array. *)
Definition aset (A : array CC) (i j : nat) (z : CC) : array CC :=
  fun a b => if Nat.eqb a i && Nat.eqb b j then z else A a b.
Definition azeros : array CC := fun _ _ => (0%R, 0%R) : CC.

(** ** StandardBasis *)
(** param.py L114-116 *)
Definition std_numb_variables (d : nat) : nat := d ^ 2.
(** param.py L119-121 *)
Definition std_bounds (d : nat) : list (R * R) := repeat ((-1)%R, 1%R) (std_numb_variables d).

(** param.py L145-146 and L184-185: the pairs (i, j) visited by the two loops, in order. *)
Definition upper_pairs (nrows : nat) : list (nat * nat) :=
  flat_map (fun i => map (fun j => (i, j)) (seq i (nrows - i))) (seq 0 nrows).

(** param.py L147-159: body of the double loop; the state is (rho, counter). *)
Definition std_rho_step (vec : list R) (st : array CC * nat) (p : nat * nat) : res (array CC * nat) :=
  let '(rho, counter) := st in
  let '(i, j) := p in
  do x <- vget vec counter;
  let rho := aset rho i j (sadd (rho i j) ((x, 0%R) : CC)) in
  if Nat.eqb i j then Ok (rho, counter + 1)
  else
    do y <- vget vec (counter + 1);
    let rho := aset rho i j (sadd (rho i j) ((0%R, y) : CC)) in
    let rho := aset rho j i (sadd (rho j i) ((x, 0%R) : CC)) in
    let rho := aset rho j i (sadd (rho j i) ((0%R, (- y)%R) : CC)) in
    Ok (rho, counter + 2).

(** param.py L124-161 *)
Definition std_rho_from_vec (vec : list R) (nrows : nat) : res (marr CC) :=
  do _ <- assert_ (Nat.eqb (length vec) (nrows * nrows));
  do st <- foldM (std_rho_step vec) (upper_pairs nrows) (azeros, 0);
  Ok (MA nrows nrows (fst st)).

(** param.py L186-190: body of the double loop; the state is (vec, counter). *)
Definition std_vec_step (rho : array CC) (st : list R * nat) (p : nat * nat) : res (list R * nat) :=
  let '(vec, counter) := st in
  let '(i, j) := p in
  do vec <- vset vec counter (fst (rho i j));
  let counter := counter + 1 in
  if Nat.eqb i j then Ok (vec, counter)
  else do vec <- vset vec counter (snd (rho i j)); Ok (vec, counter + 1).

(** param.py L164-191 *)
Definition std_vec_from_rho (rho : marr CC) (nrows : nat) : res (list R) :=
  do _ <- assert_ (Nat.eqb (mr rho) nrows && Nat.eqb (mc rho) nrows);
  do st <- foldM (std_vec_step (me rho)) (upper_pairs nrows) (repeat 0%R (nrows ^ 2), 0);
  Ok (fst st).

(** ** Shared pieces of OverParam and CholeskyParam *)
(** param.py L324 and L538: [complex(vec[x], vec[x + 1]) for x in range(start, len(vec), 2)] *)
Definition complex_pairs (vec : list R) (start : nat) : res (list CC) :=
  mapM (fun k => let x := start + 2 * k in
                 do a <- vget vec x; do b <- vget vec (x + 1); Ok ((a, b) : CC))
       (seq 0 ((length vec - start + 1) / 2)).

(** Complex division; the denominator is not zero. *)
Definition cdiv (z w : CC) : CC :=
  let n := (fst w * fst w + snd w * snd w)%R in
  smul z (((fst w / n)%R, (- snd w / n)%R) : CC).

(** param.py L326-328 and L543-544: rho = a a^dagger; rho / np.trace(rho) *)
Definition normalised_product (a : marr CC) : res (marr CC) :=
  do rho <- np_dot a (np_dagger a);
  let t := tr (mr rho) (me rho) in
  if Req_EM_T (Cmod t) 0 then Err Unmodelled
  else Ok (MA (mr rho) (mc rho) (fun i j => cdiv (me rho i j) t)).

(** ** OverParam *)
(** param.py L261-264 *)
Definition over_numb_variables (nsize rank : nat) : nat := 2 * rank * nsize.
(** param.py L267-288 *)
Definition over_bounds (nsize rank : nat) : list (R * R) := repeat ((-1)%R, 1%R) (over_numb_variables nsize rank).
(** param.py L227-258: [normal mu sigma k] and [uniform lo hi k] are the k numbers
    drawn by np.random.normal and np.random.uniform. *)
Definition over_random_vectors (normal uniform : R -> R -> nat -> list R) (nsize rank : nat) (dist : String.string) : res (list R) :=
  if String.eqb dist "normal"%string then Ok (normal 0%R 1%R (over_numb_variables nsize rank))
  else if String.eqb dist "uniform"%string then Ok (uniform (-1)%R 1%R (over_numb_variables nsize rank))
  else Err TypeError.

(** param.py L317-321 *)
Definition over_rank (vec : list R) (nsize : nat) (rank : option nat) : res nat :=
  match rank with
  | Some r => do _ <- assert_ (Nat.leb r nsize); do _ <- assert_ (Nat.eqb (length vec) (2 * r * nsize)); Ok r
  | None => if Nat.eqb nsize 0 then Err ZeroDivisionError else Ok (length vec / (2 * nsize))
  end.
(** param.py L325: np.reshape(complex_vec, (nsize, rank)), row by row. *)
Definition np_reshape (v : list CC) (r c : nat) : res (marr CC) :=
  if Nat.eqb (length v) (r * c) then Ok (MA r c (fun i j => nth (i * c + j) v ((0%R, 0%R) : CC))) else Err ValueError.
(** param.py L291-328 *)
Definition over_rho_from_vec (vec : list R) (nsize : nat) (rank : option nat) : res (marr CC) :=
  do rank <- over_rank vec nsize rank;
  do complex_vec <- complex_pairs vec 0;
  do a <- np_reshape complex_vec nsize rank;
  normalised_product a.

(** param.py L355: eigs[np.abs(eigs) < 1e-5] = 0 *)
Definition clip_eig (x : R) : R := if below (Rabs x) tol5 then 0%R else x.
(** The first index kept by the slice [k:] of an axis of length n. *)
Definition slice_from (k : Z) (n : nat) : nat :=
  if (k <? 0)%Z then Z.to_nat (Z.of_nat n + k) else Nat.min (Z.to_nat k) n.
(** param.py L363-366: body of the loop; the state is (vec, counter). *)
Definition over_vec_step (st : list R * nat) (z : CC) : res (list R * nat) :=
  let '(vec, counter) := st in
  do vec <- vset vec counter (fst z);
  do vec <- vset vec (counter + 1) (snd z);
  Ok (vec, counter + 2).
(** param.py L331-367.  The square root of a negative eigenvalue is nan in numpy and
    0 here; the theorems are about positive semidefinite matrices. *)
Definition over_vec_from_rho (eigh : marr CC -> (nat -> R) * marr CC) (rho : marr CC) (nsize rank : nat) : res (list R) :=
  do _ <- guard (Nat.eqb (mr rho) (mc rho)) LinAlgError;
  let n := mr rho in
  let '(eigs, evecs) := eigh rho in
  let eigs := fun t => clip_eig (eigs t) in
  let k := slice_from (Z.of_nat nsize - Z.of_nat rank) n in
  let a := flat_map (fun i => map (fun t => smul (me evecs i (k + t)) ((sqrt (eigs (k + t)), 0%R) : CC)) (seq 0 (n - k))) (seq 0 n) in
  do st <- foldM over_vec_step a (repeat 0%R (2 * nsize * rank), 0);
  Ok (fst st).

(** ** CholeskyParam *)
(** param.py L455-457 (Python integers: the difference may be negative). *)
Definition chol_numb_variables (nsize rank : nat) : Z :=
  (Z.of_nat rank * (Z.of_nat rank + 1) + 2 * (Z.of_nat nsize - Z.of_nat rank) * Z.of_nat rank - Z.of_nat rank)%Z.
(** param.py L460-492 *)
Definition chol_bounds (nsize rank : nat) (l_bnd u_bnd : R) : list (R * R) :=
  repeat (0%R, u_bnd) rank ++ repeat (l_bnd, u_bnd) (Z.to_nat (chol_numb_variables nsize rank - Z.of_nat rank)).
(** np.max(l) *)
Definition np_max (l : list R) : res R :=
  match l with [] => Err ValueError | x :: r => Ok (fold_left Rmax r x) end.
(** param.py L411-452; a negative size raises ValueError in numpy.random. *)
Definition chol_random_vectors (normal uniform : R -> R -> nat -> list R) (nsize rank : nat) (dist : String.string) (l_bnd u_bnd : R) : res (list R) :=
  do _ <- assert_ (if Rle_dec 0 u_bnd then true else false);
  let numb_vars := chol_numb_variables nsize rank in
  let rest := (numb_vars - Z.of_nat rank)%Z in
  if String.eqb dist "normal"%string then
    let rank_eigs := map Rabs (normal (u_bnd / 2)%R (u_bnd / 4)%R rank) in
    do m <- np_max rank_eigs;
    do _ <- guard (0 <=? rest)%Z ValueError;
    if Req_EM_T m 0 then Err Unmodelled
    else Ok (map (fun x => (x / m)%R) rank_eigs ++ normal ((u_bnd - l_bnd) / 2)%R ((u_bnd - l_bnd) / 4)%R (Z.to_nat rest))
  else if String.eqb dist "uniform"%string then
    do _ <- guard (0 <=? rest)%Z ValueError;
    Ok (uniform 0%R u_bnd rank ++ uniform l_bnd u_bnd (Z.to_nat rest))
  else Err TypeError.

(** np.tril_indices(nsize, k=-1, m=rank): the pairs (i, j) with j < i < nsize and
    j < rank, row by row. *)
Definition tril_indices (nsize rank : nat) : list (nat * nat) :=
  flat_map (fun i => map (fun j => (i, j)) (seq 0 (Nat.min i rank))) (seq 0 nsize).
(** L[idx] = values: the values are broadcast when there is one, and must be as many as
    the indices otherwise. *)
Definition fancy_set (A : array CC) (idx : list (nat * nat)) (v : list CC) : res (array CC) :=
  if Nat.eqb (length v) (length idx)
  then Ok (fold_left (fun A p => aset A (fst (fst p)) (snd (fst p)) (snd p)) (combine idx v) A)
  else match v with
       | [z] => Ok (fold_left (fun A p => aset A (fst p) (snd p) z) idx A)
       | _ => Err ValueError
       end.
(** param.py L495-544 *)
Definition chol_rho_from_vec (vec : list R) (nsize : nat) (rank : option nat) : res (marr CC) :=
  let rank := match rank with None => nsize | Some r => r end in
  do _ <- assert_ (Nat.leb 1 rank && Nat.leb rank nsize);
  do _ <- assert_ (Z.of_nat (length vec) =? chol_numb_variables nsize rank)%Z;
  do complex_vec <- complex_pairs vec rank;
  do L <- fancy_set azeros (tril_indices nsize rank) complex_vec;
  do L <- fancy_set L (map (fun i => (i, i)) (seq 0 rank)) (map (fun x => (x, 0%R) : CC) (firstn rank vec));
  normalised_product (MA nsize rank L).

(** A[idx] for a two-dimensional array. *)
Definition fancy_get (A : marr CC) (idx : list (nat * nat)) : res (list CC) :=
  mapM (fun p => if Nat.ltb (fst p) (mr A) && Nat.ltb (snd p) (mc A) then Ok (me A (fst p) (snd p)) else Err IndexError) idx.
(** param.py L547-590 *)
Definition chol_vec_from_rho (cholesky : marr CC -> res (marr CC)) (rho : marr CC) (nsize : nat) (rank : option nat) : res (list R) :=
  let rank := match rank with None => nsize | Some r => r end in
  do _ <- assert_ (Nat.leb 1 rank && Nat.leb rank nsize);
  do L <- cholesky rho;
  let vec := map (fun i => fst (me L i i)) (seq 0 (Nat.min (mr L) (mc L))) in
  do low <- fancy_get L (tril_indices nsize rank);
  let vec := vec ++ map fst low in
  do low <- fancy_get L (tril_indices nsize rank);
  Ok (vec ++ map snd low).
