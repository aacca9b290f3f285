(** Model of PyQCodes/chan/_kraus.py: the classes Kraus, DenseKraus and SparseKraus.
    Arrays are a shape and a function of the indices; COO arrays hold the same
    entries as dense ones, so both classes share the array operations and differ in
    the code around them.  Integer arguments are natural numbers; wrongly typed
    arguments (the isinstance checks) cannot be written.  numpy's broadcasting of axes
    of length one against longer ones is not modelled: unequal lengths raise. *)
From Verif Require Import Py Scalar PauliModel.
Open Scope nat_scope.

Record ten3 (K : StarRing) := T3 { t0 : nat; t1 : nat; t2 : nat; te : nat -> nat -> nat -> K }.
Record ten4 (K : StarRing) := T4 { u0 : nat; u1 : nat; u2 : nat; u3 : nat; ue : nat -> nat -> nat -> nat -> K }.
Arguments T3 {K}. Arguments t0 {K}. Arguments t1 {K}. Arguments t2 {K}. Arguments te {K}.
Arguments T4 {K}. Arguments u0 {K}. Arguments u1 {K}. Arguments u2 {K}. Arguments u3 {K}. Arguments ue {K}.

Section Kraus.
Context {K : StarRing}.
Open Scope K_scope.

(** ** numpy *)
(** np.kron on three-dimensional arrays (sparse.kron computes the same) *)
Definition np_kron3 (A B : ten3 K) : ten3 K :=
  T3 (t0 A * t0 B) (t1 A * t1 B) (t2 A * t2 B)
     (fun i j k => te A (i / t0 B)%nat (j / t1 B)%nat (k / t2 B)%nat * te B (i mod t0 B)%nat (j mod t1 B)%nat (k mod t2 B)%nat).
(** np.conj(np.transpose(A, (0, 2, 1))) *)
Definition ctrans (A : ten3 K) : ten3 K := T3 (t0 A) (t2 A) (t1 A) (fun i j k => (te A i k j)^*).
(** tensordot(A, B, axes=((2), (1))) *)
Definition tensordot21 (A B : ten3 K) : res (ten4 K) :=
  if Nat.eqb (t2 A) (t1 B)
  then Ok (T4 (t0 A) (t1 A) (t0 B) (t2 B) (fun i k j l => bsum (t2 A) (fun m => te A i k m * te B j m l)))
  else Err ValueError.
(** .swapaxes(1, 2), .transpose(axes=(0, 2, 1, 3)) *)
Definition swap12 (A : ten4 K) : ten4 K := T4 (u0 A) (u2 A) (u1 A) (u3 A) (fun i j k l => ue A i k j l).
(** np.matmul(A, rho), A three-dimensional and rho a matrix *)
Definition matmul32 (A : ten3 K) (rho : marr K) : res (ten3 K) :=
  if Nat.eqb (t2 A) (mr rho)
  then Ok (T3 (t0 A) (t1 A) (mc rho) (fun i j p => bsum (t2 A) (fun k => te A i j k * me rho k p)))
  else Err ValueError.
(** np.matmul(A, B), both three-dimensional *)
Definition matmul33 (A B : ten3 K) : res (ten3 K) :=
  if (Nat.eqb (t2 A) (t1 B) && Nat.eqb (t0 A) (t0 B))%bool
  then Ok (T3 (t0 A) (t1 A) (t2 B) (fun i j p => bsum (t2 A) (fun k => te A i j k * te B i k p)))
  else Err ValueError.
(** np.einsum("ijk->jk", A), np.sum(A, axis=0) *)
Definition sum0 (A : ten3 K) : marr K := MA (t1 A) (t2 A) (fun j k => bsum (t0 A) (fun i => te A i j k)).
(** A[i] *)
Definition slice0 (A : ten3 K) (i : nat) : marr K := MA (t1 A) (t2 A) (te A i).
(** iterating over the first axis *)
Definition slices (A : ten3 K) : list (marr K) := map (slice0 A) (seq 0 (t0 A)).
(** np.array(list of matrices, dtype=complex): unequal shapes raise ValueError.  The
    empty list gives a one-dimensional array, on which the transpose in the
    constructor raises ValueError; both are raised here. *)
Definition np_array (l : list (marr K)) : res (ten3 K) :=
  match l with
  | [] => Err ValueError
  | a :: r => if forallb (fun b => Nat.eqb (mr b) (mr a) && Nat.eqb (mc b) (mc a))%bool r
              then Ok (T3 (length l) (mr a) (mc a) (fun i => me (nth i l a))) else Err ValueError
  end.
(** np.reshape(A, (x1*x2, y, z)) of a four-dimensional array, C order *)
Definition reshape3 (A : ten4 K) : ten3 K :=
  T3 (u0 A * u1 A) (u2 A) (u3 A) (fun i => ue A (i / u1 A)%nat (i mod u1 A)%nat).

(** ** L51-117: the objects.  [sparse] tells SparseKraus from DenseKraus;
    [nth_conj] is only used by the former, [orth] only by the latter. *)
Record kraus := KR {
  sparse : bool;
  kraus_ops : ten3 K;
  numb_kraus : nat;
  numb_qubits : nat * nat;
  dim_in : nat;
  dim_out : nat;
  orth : list nat;
  current_n : nat;
  nth_ops : ten3 K;
  nth_conj : ten3 K;
  nth_exch : ten4 K }.
Definition set_nth (o : kraus) (a : ten3 K) : kraus :=
  KR (sparse o) (kraus_ops o) (numb_kraus o) (numb_qubits o) (dim_in o) (dim_out o) (orth o) (current_n o) a (nth_conj o) (nth_exch o).
Definition set_conj (o : kraus) (a : ten3 K) : kraus :=
  KR (sparse o) (kraus_ops o) (numb_kraus o) (numb_qubits o) (dim_in o) (dim_out o) (orth o) (current_n o) (nth_ops o) a (nth_exch o).
Definition set_n (o : kraus) (n : nat) : kraus :=
  KR (sparse o) (kraus_ops o) (numb_kraus o) (numb_qubits o) (dim_in o) (dim_out o) (orth o) n (nth_ops o) (nth_conj o) (nth_exch o).
Definition set_exch (o : kraus) (a : ten4 K) : kraus :=
  KR (sparse o) (kraus_ops o) (numb_kraus o) (numb_qubits o) (dim_in o) (dim_out o) (orth o) (current_n o) (nth_ops o) (nth_conj o) a.

(** L446-448, L745-748: _kraus_operators_exchange *)
Definition kraus_operators_exchange (o : kraus) : res (ten4 K) :=
  do t <- tensordot21 (if sparse o then nth_conj o else ctrans (nth_ops o)) (nth_ops o); Ok (swap12 t).
(** L438-444, L741-743: _tensor_kraus_operators, followed by the assignment of
    its result to nth_kraus_ops *)
Definition tensor_step (a b : ten3 K) (o : kraus) : kraus :=
  let out := np_kron3 a b in
  set_nth (if sparse o then set_conj o (ctrans out) else o) out.
(** L238-281: update_kraus_operators.  The object is changed even when the last line
    raises. *)
Definition update_kraus_operators (o : kraus) (n : nat) : kraus * res unit :=
  let o1 :=
    if Nat.ltb (current_n o) n
    then fold_left (fun o _ => tensor_step (kraus_ops o) (nth_ops o) o) (seq (current_n o) (n - current_n o)) o
    else if Nat.ltb n (current_n o)
    then if Nat.eqb n 1 then set_nth o (kraus_ops o)
         else fold_left (fun o _ => tensor_step (kraus_ops o) (nth_ops o) o) (seq 0 (n - 2))
                        (tensor_step (kraus_ops o) (kraus_ops o) o)
    else o in
  let o2 := set_n o1 n in
  match kraus_operators_exchange o2 with
  | Ok e => (set_exch o2 e, Ok tt)
  | Err e => (o2, Err e)
  end.

(** The operators argument: a list of matrices or a three-dimensional array. *)
Inductive kraus_arg := OpList (l : list (marr K)) | OpArray (t : ten3 K).
Definition arg_matrices (a : kraus_arg) : list (marr K) := match a with OpList l => l | OpArray t => slices t end.
Definition arg_array (a : kraus_arg) : res (ten3 K) := match a with OpList l => np_array l | OpArray t => Ok t end.

(** L54-117 with L378-401, L423-428 and L679-707, L750-754: the constructors *)
Definition kraus_init (sp : bool) (a : kraus_arg) (nq : nat * nat) (din dout : nat) (orthogonal : list nat) : res kraus :=
  do ops <- arg_array a;
  do _ <- foldM (fun _ k => do _ <- assert_ (Nat.eqb (mc k) (din ^ fst nq)); assert_ (Nat.eqb (mr k) (dout ^ snd nq)))
                (arg_matrices a) tt;
  let o := KR sp ops (length (arg_matrices a)) nq din dout orthogonal 1 ops (ctrans ops) (T4 0 0 0 0 (fun _ _ _ _ => 0)) in
  do e <- kraus_operators_exchange o;
  Ok (set_exch o e).

(** L93-105: the input_dim and output_dim attributes *)
Definition input_dim (o : kraus) : nat := dim_in o ^ fst (numb_qubits o).
Definition output_dim (o : kraus) : nat := dim_out o ^ snd (numb_qubits o).

(** ** L756-797 and L483-505: channel, on one matrix *)
Definition channel (o : kraus) (rho : marr K) (adjoint : bool) : res (marr K) :=
  let conj := if sparse o then nth_conj o else ctrans (nth_ops o) in
  let left := if adjoint then conj else nth_ops o in
  let right := if adjoint then nth_ops o else conj in
  do m <- matmul32 left rho;
  do c <- matmul33 m right;
  Ok (sum0 c).
(** L788-797: the einsum branch for a stack of matrices (DenseKraus only) *)
Definition channel_batch (o : kraus) (rho : ten3 K) (adjoint : bool) : res (ten3 K) :=
  let left := if adjoint then ctrans (nth_ops o) else nth_ops o in
  let right := if adjoint then nth_ops o else ctrans (nth_ops o) in
  if (Nat.eqb (t2 left) (t1 rho) && Nat.eqb (t2 rho) (t1 right))%bool
  then let m := fun l i j p => bsum (t2 left) (fun k => te left i j k * te rho l k p) in
       let c := fun l i j q => bsum (t2 rho) (fun p => m l i j p * te right i p q) in
       Ok (T3 (t0 rho) (t1 left) (t2 right) (fun l j q => bsum (t0 left) (fun i => c l i j q)))
  else Err ValueError.

(** ** Entropy exchange *)
(** np.einsum("ijkl,lk->ij", E, rho).T; sparse: the trace of matmul(E, rho), transposed *)
Definition exchange_matrix (E : ten4 K) (rho : marr K) : res (marr K) :=
  if (Nat.eqb (u3 E) (mr rho) && Nat.eqb (u2 E) (mc rho))%bool
  then Ok (MA (u1 E) (u0 E) (fun j i => bsum (u2 E) (fun k => bsum (u3 E) (fun l => ue E i j k l * me rho l k))))
  else Err ValueError.
(** E[a:b, a:b, :, :] for naturals; bounds beyond the end are cut *)
Definition slice_block (E : ten4 K) (a b : nat) : ten4 K :=
  let cut n := (Nat.min b n - a)%nat in
  T4 (cut (u0 E)) (cut (u1 E)) (u2 E) (u3 E) (fun i j => ue E (a + i)%nat (a + j)%nat).
(** E[d:, d:, :, :], where d may be negative *)
Definition slice_from (E : ten4 K) (d : Z) : ten4 K :=
  let start n := if (d <? 0)%Z then Z.to_nat (Z.max 0 (Z.of_nat n + d)) else Z.to_nat d in
  T4 (u0 E - start (u0 E)) (u1 E - start (u1 E)) (u2 E) (u3 E) (fun i j => ue E (start (u0 E) + i)%nat (start (u1 E) + j)%nat).
(** L846-869 and L476-481: entropy_exchange(rho, n), adjoint=False; n >= 1 *)
Definition entropy_exchange (o : kraus) (rho : marr K) (n : nat) : res (list (marr K)) :=
  if (sparse o || Nat.eqb (length (orth o)) 0)%bool
  then do W <- exchange_matrix (nth_exch o) rho; Ok [W]
  else
    do r <- foldM (fun (s : list (marr K) * nat) i =>
                     let '(output, count) := s in
                     let split := (i * numb_kraus o ^ (n - 1))%nat in
                     do W <- exchange_matrix (slice_block (nth_exch o) count split) rho;
                     Ok (output ++ [W], (count + split)%nat))
                  (orth o) ([], 0%nat);
    let '(output, count) := r in
    let diff := (Z.of_nat (numb_kraus o ^ n) - Z.of_nat count)%Z in
    do W <- exchange_matrix (slice_from (nth_exch o) diff) rho;
    Ok (output ++ [W]).
(** L847-849 and L476-478: entropy_exchange(rho, n, adjoint=True).  The sparse class
    reshapes rho to numb_kraus**n rows. *)
Definition entropy_exchange_adjoint (o : kraus) (A : marr K) (n : nat) : res (marr K) :=
  let E := nth_exch o in
  let rows := if sparse o then (numb_kraus o ^ n)%nat else mr A in
  let cols := if sparse o then (numb_kraus o ^ n)%nat else mc A in
  if (Nat.eqb (mr A) rows && Nat.eqb (mc A) cols && Nat.eqb (u0 E) rows && Nat.eqb (u1 E) cols)%bool
  then Ok (MA (u2 E) (u3 E) (fun k l => bsum (u0 E) (fun i => bsum (u1 E) (fun j => ue E i j k l * me A i j))))
  else Err ValueError.

(** ** Concatenation *)
(** L901-941, L537-568: parallel_concatenate *)
Definition parallel_concatenate (a b : ten3 K) : ten3 K := np_kron3 a b.
(** L944-997: DenseKraus.serial_concatenate; L571-613: the sparse one, a list
    comprehension over the pairs.  The dimension test runs over all pairs; with no
    operators it is vacuous, and then einsum (or np.array of nothing) fails.  The
    sparse one ends with np.array of a list of COO arrays; versions of the sparse
    package that refuse this conversion are not modelled. *)
Definition serial_concatenate (a b : ten3 K) : res (ten3 K) :=
  do _ <- foldM (fun _ k2 => foldM (fun _ k1 => guard (Nat.eqb (mr k2) (mc k1)) TypeError) (slices a) tt) (slices b) tt;
  if Nat.eqb (t2 a) (t1 b)
  then Ok (reshape3 (T4 (t0 a) (t0 b) (t1 a) (t2 b) (fun i m j l => bsum (t2 a) (fun k => te a i j k * te b m k l))))
  else Err ValueError.
(** L713-721, L403-411: __add__.  SparseKraus checks that the other object is one as
    well; DenseKraus does not, and np.einsum on a COO array is not modelled. *)
Definition kraus_add (a b : kraus) : res kraus :=
  do _ <- assert_ (negb (sparse a) || sparse b);
  do _ <- guard (Nat.eqb (dim_in a ^ fst (numb_qubits a)) (dim_out b ^ snd (numb_qubits b))) TypeError;
  do _ <- guard (sparse a || negb (sparse b)) Unmodelled;
  do ops <- serial_concatenate (kraus_ops a) (kraus_ops b);
  kraus_init (sparse a) (OpArray ops) (fst (numb_qubits a), snd (numb_qubits b)) (dim_in b) (dim_out a) [].
(** L723-731, L413-421: __mul__; both classes check that the other object is one as well *)
Definition kraus_mul (a b : kraus) : res kraus :=
  do _ <- assert_ (Bool.eqb (sparse a) (sparse b));
  kraus_init (sparse a) (OpArray (parallel_concatenate (kraus_ops a) (kraus_ops b))) (1%nat, 1%nat)
             (dim_in b * dim_in a) (dim_out b * dim_out a) [].

(** L733-739: np.einsum("ikj, ijm-> km", conj transpose, kraus_ops); L430-435 adds the
    products k.conj().T.dot(k) *)
Definition trace_cond (o : kraus) : marr K :=
  let ops := kraus_ops o in
  MA (t2 ops) (t2 ops) (fun k m => bsum (t0 ops) (fun i => bsum (t1 ops) (fun j => te (ctrans ops) i k j * te ops i j m))).
End Kraus.
Arguments kraus : clear implicits.
Arguments kraus_arg : clear implicits.

(** ** The parts with real numbers *)
From Coq Require Import Reals.
(** L739, L436: np.all(np.abs(trace_cond - np.eye(length)) < 1e-5) *)
Definition is_trace_perserving (o : kraus CC) : bool :=
  let T := trace_cond o in
  forallb (fun i => forallb (fun j => below (Cmod (ssub (me T i j) (eye i j))) tol5) (seq 0 (mc T))) (seq 0 (mr T)).
(** L895-898: DenseKraus.average_entanglement_fidelity, np.einsum("ijk,kp->i", ..);
    L531-534: SparseKraus, np.trace(matmul(kraus_ops, state), axis1=0), which
    takes the diagonal of the first two axes.  Ensembles whose lists are too short
    raise IndexError. *)
Definition kraus_overlaps (o : kraus CC) (rho : marr CC) : res (list CC) :=
  let ops := kraus_ops o in
  if sparse o
  then do m <- matmul32 ops rho;
       Ok (map (fun p => bsum (Nat.min (t0 m) (t1 m)) (fun d => te m d d p)) (seq 0 (t2 m)))
  else if Nat.eqb (t2 ops) (mr rho)
  then Ok (map (fun i => bsum (t1 ops) (fun j => bsum (t2 ops) (fun k => bsum (mc rho) (fun p => smul (te ops i j k) (me rho k p)))))
               (seq 0 (t0 ops)))
  else Err ValueError.
Definition Rsum (l : list R) : R := fold_right Rplus 0%R l.
Fixpoint kraus_fidelity (o : kraus CC) (probs : list R) (states : list (marr CC)) : res R :=
  match probs with
  | [] => Ok 0%R
  | p :: ps =>
      match states with
      | [] => Err IndexError
      | s :: ss => do v <- kraus_overlaps o s;
                   do r <- kraus_fidelity o ps ss;
                   Ok (p * Rsum (map (fun z => Cmod z ^ 2) v) + r)%R
      end
  end.
