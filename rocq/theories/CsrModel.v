(** Sparse matrices: binary_rep_to_pauli_mat(sparse=True) and encode_krauss_operators(sparse=True). *)
From Verif Require Import Py ZMat CodesModel Scalar PauliModel.
Open Scope nat_scope.

(** scipy.sparse.csr_matrix: the shape and, for each row, the stored pairs (column, value).
    Simplified: the three arrays indptr, indices and data are kept as one list per row. *)
Record csr (K : StarRing) := CSR { sr : nat; sc : nat; srow : nat -> list (nat * K) }.
Arguments CSR {K} sr sc srow.
Arguments sr {K} c.
Arguments sc {K} c.
Arguments srow {K} c i.

Section Csr.
Context {K : StarRing}.
Open Scope K_scope.

(** codes.py L47-50: XS, YS, ZS are made with csr_matrix from X, Y, Z of L43-45, IS with
    identity(2, format="csr"); csr_matrix stores the non-zero entries.  Y is written
    [[0, -i], [i, 0]] * (-i), that is [[0, -1], [1, 0]]. *)
Definition two_rows (a b : nat * K) : csr K := CSR 2 2 (fun i => match i with 0%nat => [a] | 1%nat => [b] | _ => [] end).
Definition mXS := two_rows (1%nat, 1) (0%nat, 1).
Definition mYS := two_rows (1%nat, - (1)) (0%nat, 1).
Definition mZS := two_rows (0%nat, 1) (1%nat, - (1)).
Definition mIS := two_rows (0%nat, 1) (1%nat, 1).
(** codes.py L1222-1253: index_to_qubit_pauli with sparse=True *)
Definition index_to_qubit_pauli_sparse (x1 x2 : Z) : res (csr K) :=
  if ((x1 =? 1) && (x2 =? 0))%Z then Ok mXS
  else if ((x1 =? 1) && (x2 =? 1))%Z then Ok mYS
  else if ((x1 =? 0) && (x2 =? 1))%Z then Ok mZS
  else if ((x1 =? 0) && (x2 =? 0))%Z then Ok mIS
  else Err ValueError.
(** scipy.sparse.kron(A, B, format="csr"): every stored entry of A with every stored entry of B *)
Definition csr_kron (A B : csr K) : csr K :=
  CSR (sr A * sr B) (sc A * sc B)
      (fun i => flat_map (fun p => map (fun q => ((fst p * sc B + fst q)%nat, snd p * snd q)) (srow B (i mod sr B)%nat)) (srow A (i / sr B)%nat)).
(** codes.py L1171-1185 with sparse=True *)
Definition pauli_row_csr (n : nat) (row : list Z) : res (csr K) :=
  do x0 <- match nth_error row 0 with Some x => Ok x | None => Err IndexError end;
  do z0 <- match nth_error row n with Some x => Ok x | None => Err IndexError end;
  do p0 <- index_to_qubit_pauli_sparse x0 z0;
  foldM (fun acc j => do q <- index_to_qubit_pauli_sparse (nth j row 0%Z) (nth (j + n) row 0%Z); Ok (csr_kron acc q))
        (seq 1 (n - 1)) p0.
(** codes.py L1146-1186: binary_rep_to_pauli_mat(binary_rep, sparse=True) *)
Definition binary_rep_to_pauli_csr (M : zmat) : res (list (csr K)) :=
  mapM (pauli_row_csr (Nat.div (zc M) 2)) (zd M).
(** spmatrix.todense: entry (i, j) is the sum of the values stored for it *)
Definition todense (A : csr K) : marr K :=
  MA (sr A) (sc A) (fun i j => fold_right sadd 0 (map (fun p => if Nat.eqb (fst p) j then snd p else 0) (srow A i))).
End Csr.

From Coq Require Import Reals.
(** csr_matrix(A) for a two-dimensional array: the non-zero entries of each row, in order *)
Definition csr_matrix (A : marr CC) : csr CC :=
  CSR (mr A) (mc A) (fun i => flat_map (fun j => if Req_EM_T (fst (me A i j)) 0 then (if Req_EM_T (snd (me A i j)) 0 then [] else [(j, me A i j)]) else [(j, me A i j)]) (seq 0 (mc A))).
(** codes.py L263-304: encode_krauss_operators(sparse=True) *)
Definition encode_krauss_operators_sparse (eigh : marr CC -> (nat -> R) * marr CC) (c : code) : res (csr CC) :=
  do E <- encode_krauss_operators eigh c; Ok (csr_matrix E).
