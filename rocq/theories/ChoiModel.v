(** Model of PyQCodes/chan/_choi.py: ChoiQutip. *)
From Verif Require Import Py Scalar PauliModel.
From Coq Require Import Reals.
Open Scope nat_scope.

Section Choi.
Context {K : StarRing}.
Open Scope K_scope.

(** L99-142: the object.  [qutip.data] holds the entries of [choi]. *)
Record choi := CH { ch_mat : marr K; num_in : nat; num_out : nat; ch_din : nat; ch_dout : nat }.
Definition ch_input_dim (c : choi) : nat := ch_din c ^ num_in c.
Definition ch_output_dim (c : choi) : nat := ch_dout c ^ num_out c.

(** L99-149: the constructor; qutip's istp and iscp are given *)
Definition choi_init (istp iscp : choi -> bool) (m : marr K) (nq : nat * nat) (din dout : nat) : res choi :=
  let c := CH m (fst nq) (snd nq) din dout in
  do _ <- guard (Nat.eqb (mc m) (ch_output_dim c * ch_input_dim c)) ValueError;
  do _ <- assert_ (istp c);
  do _ <- assert_ (iscp c);
  Ok c.

(** np.eye, .T *)
Definition np_eye (n : nat) : marr K := MA n n eye.
Definition np_T (A : marr K) : marr K := MA (mc A) (mr A) (fun i j => me A j i).

Definition nprod (l : list nat) : nat := fold_right Nat.mul 1%nat l.
(** qutip.ptrace keeping the consecutive subsystems lo, .., lo+len-1 of a list of
    dimensions; a subsystem that does not exist is an error (its class depends on
    the qutip version), and so is a shape that does not fit the dimensions *)
Definition ptrace (M : marr K) (dims : list nat) (lo len : nat) : res (marr K) :=
  do _ <- guard (Nat.leb (lo + len) (length dims)) IndexError;
  do _ <- guard (Nat.eqb (mr M) (nprod dims) && Nat.eqb (mc M) (nprod dims))%bool ValueError;
  let pre := nprod (firstn lo dims) in
  let mid := nprod (firstn len (skipn lo dims)) in
  let post := nprod (skipn (lo + len) dims) in
  Ok (MA mid mid (fun a b => bsum pre (fun p => bsum post (fun q => me M ((p * mid + a) * post + q)%nat ((p * mid + b) * post + q)%nat)))).

(** L175-196: channel *)
Definition choi_channel (c : choi) (rho : marr K) : res (marr K) :=
  do m <- np_dot (ch_mat c) (np_kron (np_T rho) (np_eye (ch_output_dim c)));
  ptrace m (repeat (ch_din c) (num_in c) ++ repeat (ch_dout c) (num_out c)) (num_out c) (num_out c).

(** L198-221: complementary_channel; [sqrtm] is scipy's *)
Definition choi_complementary (sqrtm : marr K -> marr K) (c : choi) (rho : marr K) : res (marr K) :=
  let tensored := np_kron (np_T (sqrtm rho)) (np_eye (ch_output_dim c)) in
  do m <- np_dot tensored (ch_mat c);
  np_dot m tensored.

(** L223-225: _vectorize_rho, column stacking *)
Definition vectorize_rho (rho : marr K) : nat * (nat -> K) :=
  (mr rho * mc rho, fun k => me rho (k mod mr rho) (k / mr rho))%nat.
(** L254-259: one term of the sum, np.conj(v.T).dot(choi).dot(v) *)
Definition choi_overlap (c : choi) (rho : marr K) : res K :=
  let '(n, v) := vectorize_rho rho in
  do _ <- guard (Nat.eqb n (mr (ch_mat c)) && Nat.eqb n (mc (ch_mat c)))%bool ValueError;
  Ok (bsum n (fun j => bsum n (fun i => (v i)^* * me (ch_mat c) i j) * v j)).
(** L227-259: average_entanglement_fidelity; probabilities are scalars here *)
Definition choi_fidelity_loop (c : choi) : list K -> list (marr K) -> res K :=
  fix go probs states :=
  match probs with
  | [] => Ok 0
  | p :: ps => match states with
               | [] => Err IndexError
               | s :: ss => do v <- choi_overlap c s; do r <- go ps ss; Ok (p * v + r)
               end
  end.
Definition choi_fidelity (c : choi) (probs : list K) (states : list (marr K)) : res K :=
  do _ <- guard (Nat.eqb (ch_input_dim c) (ch_output_dim c)) ValueError;
  choi_fidelity_loop c probs states.

(** L280-314: constraint_partial_trace *)
Definition constraint_partial_trace (nq : nat * nat) (din dout : nat) : nat * list (nat * nat) :=
  (1%nat, [(din ^ fst nq, din ^ fst nq); (dout ^ snd nq, dout ^ snd nq)])%nat.
End Choi.
Arguments choi : clear implicits.

(** L261-278: kraus_operators; [eigh] is numpy's *)
Definition cutoff8 : R := (/ 100000000)%R.
Definition choi_kraus_operators (eigh : marr CC -> (nat -> R) * marr CC) (c : choi CC) : list (marr CC) :=
  let '(e, v) := eigh (ch_mat c) in
  flat_map (fun i => if below cutoff8 (e i)
                     then [MA (ch_output_dim c) (ch_input_dim c)
                              (fun a b => smul (me v (a + b * ch_output_dim c)%nat i) (sqrt (e i), 0%R : R))]
                     else [])
           (seq 0 (mr v)).
