(** The branches for scipy.sparse matrices: StabilizerCode.kraus_operators_correcting_errors and
    avg_fidelity.optimize_decoder_stabilizers with sparse=True.  Sparse matrices are as in CsrModel.v.
    What scipy and numpy do with them, as read here: [p.dot(q)] and [p * q] are the matrix product, [p + q] the sum,
    both raise ValueError when the shapes do not fit; a sparse matrix has no method [all] and is no array, so
    [np.all] hands it back (or asks for its truth value at once), and its truth value raises ValueError unless
    it is 1 x 1; [np.outer] makes of each argument an array holding one Python object and multiplies the objects. *)
From Verif Require Import Py ZMat CodesModel Scalar PauliModel CsrModel KrausModel ChoiModel ChannelModel FindModel AvgFidModel.
From Coq Require Import Reals.
Open Scope nat_scope.

Section SparseBranch.
Context {K : StarRing}.
Open Scope K_scope.
(** p.dot(q), p * q.  Simplified: products for the same position are stored side by side, scipy adds them up *)
Definition csr_dot (A B : csr K) : res (csr K) :=
  if Nat.eqb (sc A) (sr B)
  then Ok (CSR (sr A) (sc B) (fun i => flat_map (fun p => map (fun q => (fst q, snd p * snd q)) (srow B (fst p))) (srow A i)))
  else Err ValueError.
(** p + q *)
Definition csr_add (A B : csr K) : res (csr K) :=
  if (Nat.eqb (sr A) (sr B) && Nat.eqb (sc A) (sc B))%bool then Ok (CSR (sr A) (sc A) (fun i => srow A i ++ srow B i)) else Err ValueError.
(** k.conj().reshape((np.prod(k.shape), 1), order="F"): entry (i, j) moves to row j * rows + i *)
Definition conj_column (k : csr K) : csr K :=
  CSR (sr k * sc k) 1 (fun p => map (fun q => (O, (snd q)^*)) (filter (fun q => Nat.eqb (fst q) (p / sr k)%nat) (srow k (p mod sr k)%nat))).
End SparseBranch.

(** [if np.all(abs(s) < 1e-5)]: the truth value of a sparse matrix of the shape of s *)
Definition all_below (s : csr CC) : res bool :=
  if (Nat.eqb (sr s) 1 && Nat.eqb (sc s) 1)%bool then Ok (below (Cmod (me (todense s) 0 0)) tol5) else Err ValueError.
(** codes.py L339-356 with csr matrices, for an arbitrary outcome [test] of np.all(abs(s) < 1e-5) *)
Fixpoint correct_error_with (test : csr CC -> res bool) (stabilizers : list (csr CC)) (error : csr CC) : res (csr CC) :=
  match stabilizers with
  | [] => Ok error
  | p :: rest =>
      do p_error <- csr_dot p error;
      do error_p <- csr_dot error p;
      do s <- csr_add error_p p_error;
      do b <- test s;
      if b : bool then csr_dot p error else correct_error_with test rest error
  end.
(** codes.py L306-357 with csr matrices, for an arbitrary [test] *)
Definition correcting_errors_with (test : csr CC -> res bool) (c : code) (pauli_errors : list (csr CC)) : res (list (csr CC)) :=
  do stabilizers <- binary_rep_to_pauli_csr (stab c);
  mapM (correct_error_with test stabilizers) pauli_errors.
(** codes.py L306-357: kraus_operators_correcting_errors(pauli_errors, sparse=True) for a list of csr matrices.
    With another kind of sparse array the result depends on the library that made it and is not modelled. *)
Definition kraus_operators_correcting_errors_sparse (c : code) (pauli_errors : list (csr CC)) : res (list (csr CC)) :=
  correcting_errors_with all_below c pauli_errors.

(** avg_fidelity.py L86-87 with sparse=True *)
Definition error_channel_sparse (errors : kraus_arg CC) (n k : nat) : res (kraus CC) :=
  do c <- chan_init errors (1, 1) 2 2 [] true;
  do m <- floor_div n k;
  match c with
  | KrausType o => let '(o', r) := update_kraus_operators o m in do _ <- r; Ok o'
  | ChoiType _ _ => Err AttributeError
  end.
(** avg_fidelity.py L84-95 with sparse=True *)
Definition encoded_operators_sparse (eigh : marr CC -> (nat -> R) * marr CC) (stabilizer : gens) (n k : nat) (kraus_chan : kraus_arg CC) : res (list (csr CC)) :=
  do c <- init stabilizer n k None;
  do errors <- error_channel_sparse kraus_chan n k;
  do encoder <- encode_krauss_operators_sparse eigh c;
  mapM (fun x => csr_dot (csr_matrix x) encoder) (slices (nth_ops errors)).
(** avg_fidelity.py L206-220, the branch for sparse operators: the outer product of a column with itself.
    Should all products exist, the sum is an array, which has no method tocoo (L106). *)
Definition sparse_objective (kraus : list (csr CC)) : res programme :=
  match kraus with
  | [] => Err IndexError
  | _ => do _ <- mapM (fun k => csr_dot (conj_column k) (conj_column k)) kraus; Err AttributeError
  end.
(** avg_fidelity.py L44-102 with sparse=True *)
Definition optimize_decoder_stabilizers_sparse (eigh : marr CC -> (nat -> R) * marr CC) (solve : programme -> res decoder)
           (stabilizer : gens) (n k : nat) (kraus_chan : kraus_arg CC) : res decoder :=
  do kraus <- encoded_operators_sparse eigh stabilizer n k kraus_chan;
  do P <- sparse_objective kraus; solve P.
