(** Two-dimensional integer arrays with an explicit shape (numpy int arrays, or
    float arrays that only hold integers). *)
From Verif Require Import Py.
Open Scope Z_scope.

Record zmat := ZM { zr : nat; zc : nat; zd : list (list Z) }.

(** [M[i, j]]; only used with indices inside the shape. *)
Definition get (M : zmat) (i j : nat) : Z := nth j (nth i (zd M) []) 0.
(** [M[i]] *)
Definition zrow (M : zmat) (i : nat) : list Z := nth i (zd M) [].

Definition mkrow (c : nat) (f : nat -> Z) : list Z := map f (seq 0 c).
Definition mk (r c : nat) (f : nat -> nat -> Z) : zmat :=
  ZM r c (map (fun i => mkrow c (f i)) (seq 0 r)).

Definition wf (M : zmat) : Prop :=
  length (zd M) = zr M /\ Forall (fun row => length row = zc M) (zd M).

(** [M[r0:r1, c0:c1]] with numpy's clamping of the upper ends. *)
Definition slice (M : zmat) (r0 r1 c0 c1 : nat) : zmat :=
  mk (Nat.min r1 (zr M) - r0) (Nat.min c1 (zc M) - c0)
     (fun i j => get M (r0 + i) (c0 + j)).

Definition ztrans (M : zmat) : zmat := mk (zc M) (zr M) (fun i j => get M j i).
Definition zeros (r c : nat) : zmat := mk r c (fun _ _ => 0).
Definition eye (k : nat) : zmat := mk k k (fun i j => if Nat.eqb i j then 1 else 0).

Fixpoint zsum (n : nat) (f : nat -> Z) : Z :=
  match n with O => 0 | S m => zsum m f + f m end.

(** [A.dot(B)]: ValueError when the shapes are not aligned. *)
Definition zdot (A B : zmat) : res zmat :=
  if Nat.eqb (zc A) (zr B)
  then Ok (mk (zr A) (zc B) (fun i j => zsum (zc A) (fun l => get A i l * get B l j)))
  else Err ValueError.

(** [(A + B) % 2] for equal shapes (numpy broadcasting of other shapes does not
    arise where this is used). *)
Definition zadd2 (A B : zmat) : res zmat :=
  if (Nat.eqb (zr A) (zr B) && Nat.eqb (zc A) (zc B))%bool
  then Ok (mk (zr A) (zc A) (fun i j => (get A i j + get B i j) mod 2))
  else Err ValueError.

Definition hcat (A B : zmat) : zmat :=
  mk (zr A) (zc A + zc B)
     (fun i j => if Nat.ltb j (zc A) then get A i j else get B i (j - zc A)).

(** [np.hstack]: ValueError when the numbers of rows differ. *)
Fixpoint hstack (A : zmat) (l : list zmat) : res zmat :=
  match l with
  | [] => Ok A
  | B :: r => if Nat.eqb (zr A) (zr B) then hstack (hcat A B) r else Err ValueError
  end.

(** Transposition of two indices. *)
Definition tr (a b x : nat) : nat :=
  if Nat.eqb x a then b else if Nat.eqb x b then a else x.

(** Swap rows [a] and [b] (copy, assign, assign back). *)
Definition swap_rows (M : zmat) (a b : nat) : zmat :=
  mk (zr M) (zc M) (fun i j => get M (tr a b i) j).
(** Swap columns [a] and [b]. *)
Definition swap_cols (M : zmat) (a b : nat) : zmat :=
  mk (zr M) (zc M) (fun i j => get M i (tr a b j)).
(** [M[i, :] = (M[p, :] + M[i, :]) % 2] *)
Definition add_row (M : zmat) (p i : nat) : zmat :=
  mk (zr M) (zc M)
     (fun i' j => if Nat.eqb i' i then (get M p j + get M i j) mod 2 else get M i' j).

(** ** Basic facts *)

Lemma nth_map_seq {A} (f : nat -> A) n i d : (i < n)%nat -> nth i (map f (seq 0 n)) d = f i.
Proof.
  intros H. rewrite (nth_indep _ d (f 0%nat)) by (rewrite map_length, seq_length; exact H).
  rewrite map_nth, seq_nth by exact H. reflexivity.
Qed.

Lemma get_mk r c f i j : (i < r)%nat -> (j < c)%nat -> get (mk r c f) i j = f i j.
Proof.
  intros Hi Hj; unfold get, mk; simpl.
  rewrite (nth_map_seq (fun i => mkrow c (f i))) by exact Hi.
  unfold mkrow; apply nth_map_seq; exact Hj.
Qed.

Lemma length_mkrow c f : length (mkrow c f) = c.
Proof. unfold mkrow; rewrite map_length, seq_length; reflexivity. Qed.

Lemma zrow_mk r c f i : (i < r)%nat -> zrow (mk r c f) i = mkrow c (f i).
Proof. intros H; unfold zrow, mk; simpl. apply (nth_map_seq (fun i => mkrow c (f i))); exact H. Qed.

Lemma nth_mkrow c f j : (j < c)%nat -> nth j (mkrow c f) 0 = f j.
Proof. intros H; unfold mkrow; apply nth_map_seq; exact H. Qed.

Lemma wf_mk r c f : wf (mk r c f).
Proof.
  split; simpl; [rewrite map_length, seq_length; reflexivity|].
  apply Forall_forall; intros row H; apply in_map_iff in H.
  destruct H as (i & E & _); subst; apply length_mkrow.
Qed.

Lemma mk_ext r c f g :
  (forall i j, (i < r)%nat -> (j < c)%nat -> f i j = g i j) -> mk r c f = mk r c g.
Proof.
  intros H; unfold mk; f_equal; apply map_ext_in; intros i Hi; apply in_seq in Hi.
  unfold mkrow; apply map_ext_in; intros j Hj; apply in_seq in Hj; apply H; lia.
Qed.

Lemma list_eq_mkrow (l : list Z) : l = mkrow (length l) (fun j => nth j l 0).
Proof.
  apply (nth_ext _ _ 0 0); [rewrite length_mkrow; reflexivity|].
  intros j Hj; rewrite nth_mkrow by exact Hj; reflexivity.
Qed.

Lemma wf_mk_eq M : wf M -> M = mk (zr M) (zc M) (get M).
Proof.
  destruct M as [r c d]; intros [Hl Hr]; simpl in *; unfold mk; f_equal.
  apply (nth_ext _ _ [] []); [rewrite map_length, seq_length; exact Hl|].
  intros i Hi. rewrite (nth_map_seq (fun i => mkrow c (get _ i))) by lia.
  unfold get; simpl. rewrite (list_eq_mkrow (nth i d [])) at 1.
  rewrite Forall_forall in Hr. rewrite (Hr (nth i d [])) by (apply nth_In; lia). reflexivity.
Qed.

Lemma zmat_ext M N : wf M -> wf N -> zr M = zr N -> zc M = zc N ->
  (forall i j, (i < zr M)%nat -> (j < zc M)%nat -> get M i j = get N i j) -> M = N.
Proof.
  intros HM HN E1 E2 H. rewrite (wf_mk_eq M HM), (wf_mk_eq N HN), E1, E2.
  apply mk_ext; intros i j Hi Hj; apply H; lia.
Qed.

Lemma zsum_ext n f g : (forall i, (i < n)%nat -> f i = g i) -> zsum n f = zsum n g.
Proof.
  induction n as [|n IH]; intros H; simpl; [reflexivity|].
  rewrite IH by (intros i Hi; apply H; lia). rewrite H by lia; reflexivity.
Qed.

Lemma tr_invol a b x : tr a b (tr a b x) = x.
Proof.
  unfold tr; destruct (Nat.eqb_spec x a), (Nat.eqb_spec x b); subst;
    repeat match goal with |- context [Nat.eqb ?u ?v] => destruct (Nat.eqb_spec u v) end; lia.
Qed.

Lemma tr_lt a b x n : (a < n)%nat -> (b < n)%nat -> (x < n)%nat -> (tr a b x < n)%nat.
Proof. unfold tr; intros; destruct (Nat.eqb x a), (Nat.eqb x b); assumption. Qed.

Lemma get_swap_rows M a b i j : (i < zr M)%nat -> (j < zc M)%nat ->
  get (swap_rows M a b) i j = get M (tr a b i) j.
Proof. intros; unfold swap_rows; rewrite get_mk; auto. Qed.
Lemma get_swap_cols M a b i j : (i < zr M)%nat -> (j < zc M)%nat ->
  get (swap_cols M a b) i j = get M i (tr a b j).
Proof. intros; unfold swap_cols; rewrite get_mk; auto. Qed.
Lemma get_add_row M p i0 i j : (i < zr M)%nat -> (j < zc M)%nat ->
  get (add_row M p i0) i j = if Nat.eqb i i0 then (get M p j + get M i0 j) mod 2 else get M i j.
Proof. intros; unfold add_row; rewrite get_mk; auto. Qed.
