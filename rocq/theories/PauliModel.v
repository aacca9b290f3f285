(** Model of PyQCodes/codes.py, the part that builds Pauli matrices.  Sparse and
    dense matrices are not distinguished: scipy's csr kron/dot compute the same
    entries. *)
From Verif Require Import Py ZMat CodesModel Scalar.
Open Scope nat_scope.

(** A two-dimensional numpy array with its shape. *)
Record marr (K : StarRing) := MA { mr : nat; mc : nat; me : array K }.
Arguments MA {K}. Arguments mr {K}. Arguments mc {K}. Arguments me {K}.

Section PauliModel.
Context {K : StarRing}.
Open Scope K_scope.

(** codes.py L42-45: the constants X, Y, Z, I.  Y carries the factor -i, so its
    entries are 0, -1, 1, 0. *)
Definition lit (a b c d : K) : marr K :=
  MA 2 2 (fun i j => match i, j with 0%nat, 0%nat => a | 0%nat, 1%nat => b | 1%nat, 0%nat => c | 1%nat, 1%nat => d | _, _ => 0 end).
Definition mX := lit 0 1 1 0.
Definition mY := lit 0 (- (1)) 1 0.
Definition mZ := lit 1 0 0 (- (1)).
Definition mI := lit 1 0 0 1.

(** codes.py L1222-1253: index_to_qubit_pauli *)
Definition index_to_qubit_pauli (x1 x2 : Z) : res (marr K) :=
  if ((x1 =? 1) && (x2 =? 0))%Z then Ok mX
  else if ((x1 =? 1) && (x2 =? 1))%Z then Ok mY
  else if ((x1 =? 0) && (x2 =? 1))%Z then Ok mZ
  else if ((x1 =? 0) && (x2 =? 0))%Z then Ok mI
  else Err ValueError.

(** np.kron on two-dimensional arrays *)
Definition np_kron (A B : marr K) : marr K :=
  MA (mr A * mr B) (mc A * mc B)
     (fun i j => me A (i / mr B)%nat (j / mc B)%nat * me B (i mod mr B)%nat (j mod mc B)%nat).

(** ndarray.dot on two-dimensional arrays *)
Definition np_dot (A B : marr K) : res (marr K) :=
  if Nat.eqb (mc A) (mr B) then Ok (MA (mr A) (mc B) (mm (mc A) (me A) (me B))) else Err ValueError.
(** ndarray.conjugate().T *)
Definition np_dagger (A : marr K) : marr K := MA (mc A) (mr A) (adj (me A)).

(** codes.py L1171-1185: the body of the loop of binary_rep_to_pauli_mat *)
Definition pauli_row_mat (n : nat) (row : list Z) : res (marr K) :=
  do x0 <- match nth_error row 0 with Some x => Ok x | None => Err IndexError end;
  do z0 <- match nth_error row n with Some x => Ok x | None => Err IndexError end;
  do p0 <- index_to_qubit_pauli x0 z0;
  foldM (fun acc j => do q <- index_to_qubit_pauli (nth j row 0%Z) (nth (j + n) row 0%Z); Ok (np_kron acc q))
        (seq 1 (n - 1)) p0.
(** codes.py L1146-1186: binary_rep_to_pauli_mat.  [zmat]s are two-dimensional, so
    the TypeError branch is not reachable. *)
Definition binary_rep_to_pauli_mat (M : zmat) : res (list (marr K)) :=
  mapM (pauli_row_mat (Nat.div (zc M) 2)) (zd M).
End PauliModel.

(** ** Encoder isometry and error-correcting Kraus operators, over the complex numbers *)
From Coq Require Import Reals.
Open Scope R_scope.

(** abs on complex numbers; the comparison [<] of floats is exact here *)
Definition Cmod (z : CC) : R := sqrt (fst z * fst z + snd z * snd z).
Definition below (x tol : R) : bool := if Rlt_dec x tol then true else false.
Definition tol5 : R := / 100000.

(** codes.py L286-287: _obtain_eigenspace_one: the columns whose eigenvalue is
    within 1e-5 of 1. *)
Definition obtain_eigenspace_one (eigen : nat -> R) (vecs : marr CC) : marr CC :=
  let sel := filter (fun t => below (Rabs (eigen t - 1)) tol5) (seq 0 (mc vecs)) in
  MA (mr vecs) (length sel) (fun i t => me vecs i (nth t sel 0%nat)).

(** codes.py L263-304: encode_krauss_operators, for an arbitrary [eigh].  The
    sparse flag only changes the storage of the result. *)
Definition encode_krauss_operators (eigh : marr CC -> (nat -> R) * marr CC) (c : code) : res (marr CC) :=
  do stabilizers <- binary_rep_to_pauli_mat (stab c);
  match stabilizers with
  | [] => Err IndexError
  | stab1 :: rest =>
      let '(eigs, evecs) := eigh stab1 in
      foldM (fun evecs S =>
               do se <- np_dot S evecs;
               do conju <- np_dot (np_dagger evecs) se;
               let '(e1, ev1) := eigh conju in
               np_dot evecs (obtain_eigenspace_one e1 ev1))
            rest (obtain_eigenspace_one eigs evecs)
  end.

(** np.all(abs(A + B) < 1e-5) for arrays of equal shape *)
Definition all_sum_small (A B : marr CC) : bool :=
  forallb (fun i => forallb (fun j => below (Cmod (sadd (me A i j) (me B i j))) tol5) (seq 0 (mc A))) (seq 0 (mr A)).
(** codes.py L340-357: the loop body for one error.  For arrays of different
    shapes the code would broadcast or raise; only square errors of the size of the
    stabilizers are modelled. *)
Fixpoint correct_error (stabilizers : list (marr CC)) (error : marr CC) : res (marr CC) :=
  match stabilizers with
  | [] => Ok error
  | p :: rest =>
      do p_error <- np_dot p error;
      do error_p <- np_dot error p;
      if Nat.eqb (mr p_error) (mr error_p) && Nat.eqb (mc p_error) (mc error_p)
      then if all_sum_small error_p p_error then np_dot p error else correct_error rest error
      else Err Unmodelled
  end.
(** codes.py L306-357: kraus_operators_correcting_errors *)
Definition kraus_operators_correcting_errors (c : code) (pauli_errors : list (marr CC)) : res (list (marr CC)) :=
  do stabilizers <- binary_rep_to_pauli_mat (stab c);
  mapM (correct_error stabilizers) pauli_errors.
