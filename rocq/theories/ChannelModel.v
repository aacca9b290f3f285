(** Model of PyQCodes/chan/channel.py: AnalyticQChan (the optimisation methods are in
    OptimModel.v). *)
From Verif Require Import Py Scalar PauliModel KrausModel ChoiModel.
From Coq Require Import Reals.
From Coq Require String.
Import String.StringSyntax.
Notation string := String.string.
Delimit Scope string_scope with string.
Open Scope nat_scope.

(** L115-202: the object holds either Kraus operators or a Choi matrix *)
Inductive chan (K : StarRing) := KrausType (k : kraus K) | ChoiType (sparse : bool) (c : choi K).
Arguments KrausType {K}. Arguments ChoiType {K}.

(** L115-202: the constructor on a list of Kraus operators or a 3-dimensional array *)
Definition chan_init (op : kraus_arg CC) (nq : nat * nat) (din dout : nat) (orthogonal : list nat) (sp : bool) : res (chan CC) :=
  do k <- kraus_init sp op nq din dout (if sp then [] else orthogonal);
  do _ <- assert_ (is_trace_perserving k);
  Ok (KrausType k).
(** ... and on a Choi matrix *)
Definition chan_init_choi (istp iscp : choi CC -> bool) (m : marr CC) (nq : nat * nat) (din dout : nat) (sp : bool) : res (chan CC) :=
  do c <- choi_init istp iscp m nq din dout; Ok (ChoiType sp c).

Section Chan.
Context {K : StarRing}.

(** L204-223: nth_kraus_operators *)
Definition nth_kraus_operators (c : chan K) : res (ten3 K) :=
  match c with KrausType k => Ok (nth_ops k) | ChoiType _ _ => Err AssertionError end.
(** L274-296: dim_in, dim_out, numb_qubits *)
Definition chan_dim_in (c : chan K) : nat := match c with KrausType k => dim_in k | ChoiType _ h => ch_din h end.
Definition chan_dim_out (c : chan K) : nat := match c with KrausType k => dim_out k | ChoiType _ h => ch_dout h end.
Definition chan_numb_qubits (c : chan K) : nat * nat := match c with KrausType k => numb_qubits k | ChoiType _ h => (num_in h, num_out h) end.
(** L249-255: _current_n; L225-247: input_dimension, output_dimension *)
Definition chan_n (c : chan K) : nat := match c with KrausType k => current_n k | ChoiType _ _ => 1 end.
Definition input_dimension (c : chan K) : nat :=
  match c with KrausType k => input_dim k ^ current_n k | ChoiType _ h => ch_input_dim h end.
Definition output_dimension (c : chan K) : nat :=
  match c with KrausType k => output_dim k ^ current_n k | ChoiType _ h => ch_output_dim h end.
(** L359-363: _is_qubit_channel *)
Definition is_qubit_channel (c : chan K) : bool := (Nat.eqb (input_dimension c) 2 && Nat.eqb (output_dimension c) 2)%bool.
(** The attributes of DenseKraus and SparseKraus objects holding an integer: _kraus.py
    L98-108 (numb_kraus, input_dim, output_dim, _dim_in, _dim_out, current_n) and the
    properties of L135-141.  The others are arrays, tuples and methods. *)
Definition kraus_ints (k : kraus K) : list (string * nat) :=
  [("numb_kraus", numb_kraus k); ("input_dim", input_dim k); ("output_dim", output_dim k); ("_dim_in", dim_in k); ("_dim_out", dim_out k);
   ("current_n", current_n k); ("dim_in", dim_in k); ("dim_out", dim_out k)]%string.
Definition kraus_getattr (k : kraus K) (name : string) : res nat :=
  match find (fun p => String.eqb (fst p) name) (kraus_ints k) with Some p => Ok (snd p) | None => Err AttributeError end.
(** L253-257: numb_krauss *)
Definition numb_krauss (c : chan K) : res nat :=
  match c with KrausType k => kraus_getattr k "numb_krauss"%string | ChoiType _ _ => Err AssertionError end.

(** L364-372: _update_channel_tensored *)
Definition update_channel_tensored (c : chan K) (n : nat) : chan K * res unit :=
  match c with
  | ChoiType _ _ => (c, assert_ (Nat.eqb n 1))
  | KrausType k => if Nat.eqb n (current_n k) then (c, Ok tt)
                   else let '(k', r) := update_kraus_operators k n in (KrausType k', r)
  end.
(** L455-460, L499-501: make the Kraus operators those of the n-fold channel, then call *)
Definition at_n {A} (k : kraus K) (n : nat) (f : kraus K -> res A) : chan K * res A :=
  if Nat.eqb n (current_n k) then (KrausType k, f k)
  else match update_kraus_operators k n with
       | (k', Ok _) => (KrausType k', f k')
       | (k', Err e) => (KrausType k', Err e)
       end.
(** L428-464: channel on one matrix *)
Definition chan_channel (c : chan K) (rho : marr K) (n : nat) (adjoint : bool) : chan K * res (marr K) :=
  match c with
  | KrausType k => at_n k n (fun k => channel k rho adjoint)
  | ChoiType _ h => (c, do _ <- assert_ (Nat.eqb n 1); choi_channel h rho)
  end.
(** ... and on a stack of matrices (dense Kraus channels) *)
Definition chan_channel_batch (c : chan K) (rho : ten3 K) (n : nat) (adjoint : bool) : chan K * res (ten3 K) :=
  match c with
  | KrausType k => at_n k n (fun k => if sparse k then Err Unmodelled else channel_batch k rho adjoint)
  | ChoiType _ _ => (c, Err Unmodelled)
  end.
(** L466-501: entropy_exchange *)
Definition chan_exchange (c : chan K) (rho : marr K) (n : nat) : chan K * res (list (marr K)) :=
  match c with
  | KrausType k => at_n k n (fun k => entropy_exchange k rho n)
  | ChoiType _ _ => (c, Err AssertionError)
  end.
Definition chan_exchange_adjoint (c : chan K) (A : marr K) (n : nat) : chan K * res (marr K) :=
  match c with
  | KrausType k => at_n k n (fun k => entropy_exchange_adjoint k A n)
  | ChoiType _ _ => (c, Err AssertionError)
  end.
End Chan.

(** L298-327: __add__, on two Kraus-type channels (for a Choi-type left operand the
    assert fails; Choi-type right operands are not modelled) *)
Definition chan_add (a b : chan CC) : res (chan CC) :=
  match a, b with
  | ChoiType _ _, _ => Err AssertionError
  | KrausType x, KrausType y =>
      do ops <- serial_concatenate (kraus_ops x) (kraus_ops y);
      chan_init (OpArray ops) (fst (numb_qubits y), snd (numb_qubits x)) (dim_in y) (dim_out x) [] (sparse x || sparse y)
  | KrausType _, ChoiType _ _ => Err Unmodelled
  end.
(** L329-357: __mul__ *)
Definition chan_mul (a b : chan CC) : res (chan CC) :=
  match a, b with
  | ChoiType _ _, _ => Err AssertionError
  | KrausType x, KrausType y =>
      chan_init (OpArray (parallel_concatenate (kraus_ops x) (kraus_ops y))) (1, 1)
                (dim_in x * dim_in y) (dim_out x * dim_out y) [] (sparse x || sparse y)
  | KrausType _, ChoiType _ _ => Err Unmodelled
  end.

(** L263-272: kraus, as a list of matrices (COO arrays hold the same entries as dense ones);
    [eigh] is numpy's *)
Definition chan_kraus (eigh : marr CC -> (nat -> R) * marr CC) (c : chan CC) : list (marr CC) :=
  match c with KrausType k => slices (kraus_ops k) | ChoiType _ h => choi_kraus_operators eigh h end.

(** ** The methods with real values *)
Open Scope R_scope.
(** np.log2 *)
Definition log2 (x : R) : R := ln x / ln 2.
(** L522-527: entropy of the eigenvalues; 1e-10 by default *)
Definition entropy_eigs (cut_off : R) (eigs : list R) : R :=
  let no_zeros := filter (fun x => below cut_off (Rabs x)) eigs in
  - fold_right Rplus 0 (map (fun x => x * log2 x) no_zeros).
Definition cut_off10 : R := / 10000000000.
(** L503-527: entropy of a list of matrices.  eigvalsh takes them as one stack, so they
    must have the same shape (otherwise the exception depends on numpy's version). *)
Definition entropy (eigvalsh : marr CC -> list R) (mats : list (marr CC)) : res R :=
  match mats with
  | [] => Err LinAlgError
  | a :: r => if forallb (fun b => Nat.eqb (mr b) (mr a) && Nat.eqb (mc b) (mc a))%bool r
              then Ok (entropy_eigs cut_off10 (flat_map eigvalsh mats)) else Err ValueError
  end.
(** L529-575: coherent_information *)
Definition coherent_information (eigvalsh : marr CC -> list R) (sqrtm : marr CC -> marr CC)
           (c : chan CC) (rho : marr CC) (n : nat) (regularized : bool) : chan CC * res R :=
  let '(c1, q) := chan_channel c rho n false in
  match q with
  | Err e => (c1, Err e)
  | Ok out =>
      let '(c2, w) := match c1 with
                      | KrausType _ => chan_exchange c1 rho n
                      | ChoiType _ h => (c1, do _ <- assert_ (Nat.eqb n 1); do m <- choi_complementary sqrtm h rho; Ok [m])
                      end in
      (c2, do ws <- w; do s1 <- entropy eigvalsh [out]; do s2 <- entropy eigvalsh ws;
           Ok (if regularized then (s1 - s2) / INR n else s1 - s2))
  end.
(** L374-398: fidelity_two_states *)
Definition fidelity_two_states (sqrtm : marr CC -> marr CC) (c : chan CC) (rho : marr CC) (n : nat) : chan CC * res R :=
  let '(c1, q) := chan_channel c rho n false in
  (c1, do out <- q;
       let r := sqrtm rho in
       do a <- np_dot r out;
       do b <- np_dot a r;
       let s := sqrtm b in
       let fidel := tr (Nat.min (mr s) (mc s)) (me s) in
       do _ <- assert_ (below (Rabs (snd fidel)) tol5);
       Ok (fst fidel)).
(** L400-426: average_entanglement_fidelity *)
Definition chan_fidelity (c : chan CC) (probs : list R) (states : list (marr CC)) : res CC :=
  match c with
  | KrausType k => do r <- kraus_fidelity k probs states; Ok (r, 0)
  | ChoiType _ h => choi_fidelity h (map (fun p => (p, 0) : CC) probs) states
  end.
