(** The elimination loops of _gaussian_elimination_first_block and
    _gaussian_elimination_second_block. *)
From Verif Require Import Py ZMat CodesModel RankSpec BoolLin Rank.
Open Scope nat_scope.

(** permutation of the qubits acting on a column index of an n-qubit row *)
Definition lift (n : nat) (p : nat -> nat) (j : nat) : nat :=
  if Nat.ltb j n then p j else n + p (j - n).

Lemma lift_perm n p q : perm n p q -> perm (2 * n) (lift n p) (lift n q).
Proof.
  intros H i Hi. unfold lift. destruct (Nat.ltb_spec i n) as [L|L].
  - destruct (H i L) as (H1 & H2 & H3 & H4).
    destruct (Nat.ltb_spec (q i) n); [|lia]. destruct (Nat.ltb_spec (p i) n); [|lia].
    repeat split; lia || assumption.
  - destruct (H (i - n)) as (H1 & H2 & H3 & H4); [lia|].
    destruct (Nat.ltb_spec (n + q (i - n)) n); [lia|]. destruct (Nat.ltb_spec (n + p (i - n)) n); [lia|].
    replace (n + q (i - n) - n) with (q (i - n)) by lia. replace (n + p (i - n) - n) with (p (i - n)) by lia.
    repeat split; lia.
Qed.

Lemma perm_sym n p q : perm n p q -> perm n q p.
Proof. intros H i Hi; destruct (H i Hi) as (A & B & C & D); auto. Qed.
Lemma perm_id n : perm n (fun i => i) (fun i => i).
Proof. intros i Hi; auto. Qed.
Lemma perm_tr n a b : a < n -> b < n -> perm n (tr a b) (tr a b).
Proof. intros Ha Hb i Hi; rewrite tr_invol; repeat split; apply tr_lt; assumption. Qed.
Lemma perm_comp n p q p' q' : perm n p q -> perm n p' q' ->
  perm n (fun i => p (p' i)) (fun i => q' (q i)).
Proof.
  intros H H' i Hi. destruct (H i Hi) as (A & B & C & D). destruct (H' i Hi) as (A' & B' & C' & D').
  destruct (H (p' i) A') as (E1 & _ & _ & E4). destruct (H' (q i) B) as (_ & F2 & F3 & _).
  repeat split; [exact E1|exact F2|rewrite F3; exact C|rewrite E4; exact D'].
Qed.

(** same row space up to one permutation of the qubits *)
Definition rel (n s : nat) (f f' : nat -> nat -> bool) : Prop :=
  exists p q, perm n p q /\
    (forall i, i < s -> inspan (fun l j => f l (lift n p j)) s (2 * n) (f' i)) /\
    (forall i, i < s -> inspan f' s (2 * n) (fun j => f i (lift n p j))).

Lemma lift_id n j : lift n (fun i => i) j = j.
Proof. unfold lift; destruct (Nat.ltb_spec j n); lia. Qed.

Lemma inspan_trans f g s c v :
  inspan f s c v -> (forall i, i < s -> inspan g s c (f i)) -> inspan g s c v.
Proof.
  intros (a & Ha) H. apply (inspan_ext _ _ _ (comb s a f)); [intros j Hj; symmetry; apply Ha; exact Hj|].
  apply inspan_comb; exact H.
Qed.

Lemma inspan_lift n p q f s v : perm n p q -> inspan f s (2 * n) v ->
  inspan (fun l j => f l (lift n p j)) s (2 * n) (fun j => v (lift n p j)).
Proof.
  intros Hp (a & Ha); exists a; intros j Hj.
  destruct (lift_perm n p q Hp j Hj) as (Hl & _). rewrite Ha by exact Hl. reflexivity.
Qed.

Lemma rel_refl n s f : rel n s f f.
Proof.
  exists (fun i => i), (fun i => i); split; [apply perm_id|].
  split; intros i Hi.
  - apply (inspan_ext _ _ _ (fun j => f i (lift n (fun i => i) j))); [intros; rewrite lift_id; reflexivity|].
    apply (inspan_row (fun l j => f l (lift n (fun i => i) j))); exact Hi.
  - apply (inspan_ext _ _ _ (f i)); [intros; rewrite lift_id; reflexivity|]. apply inspan_row; exact Hi.
Qed.

Lemma lift_comp n p p' j : (forall i, i < n -> p' i < n) -> j < 2 * n ->
  lift n p (lift n p' j) = lift n (fun i => p (p' i)) j.
Proof.
  intros H Hj; unfold lift. destruct (Nat.ltb_spec j n) as [L|L].
  - destruct (Nat.ltb_spec (p' j) n); [reflexivity|]. specialize (H j L); lia.
  - destruct (Nat.ltb_spec (n + p' (j - n)) n); [lia|]. do 2 f_equal. lia.
Qed.

Lemma inspan_ext_f f g s c v :
  (forall l j, l < s -> j < c -> f l j = g l j) -> inspan f s c v -> inspan g s c v.
Proof.
  intros H (a & Ha); exists a; intros j Hj. rewrite Ha by exact Hj.
  apply comb_ext; [reflexivity|intros; apply H; assumption].
Qed.

Lemma rel_trans n s f g h : rel n s f g -> rel n s g h -> rel n s f h.
Proof.
  intros (p & q & Hp & A & B) (p' & q' & Hp' & A' & B').
  exists (fun i => p (p' i)), (fun i => q' (q i)). split; [apply perm_comp; assumption|].
  assert (Hlt : forall i, i < n -> p' i < n) by (intros i Hi; apply (Hp' i Hi)).
  split; intros i Hi.
  - apply (inspan_trans (fun l j => g l (lift n p' j))); [apply A'; exact Hi|].
    intros l Hl. pose proof (inspan_lift n p' q' _ s _ Hp' (A l Hl)) as H.
    eapply inspan_ext_f; [|exact H]. intros l' j Hl' Hj; simpl. rewrite lift_comp by assumption. reflexivity.
  - apply (inspan_ext _ _ _ (fun j => f i (lift n p (lift n p' j)))).
    { intros j Hj; rewrite lift_comp by assumption; reflexivity. }
    pose proof (inspan_lift n p' q' _ s _ Hp' (B i Hi)) as H. cbn beta in H.
    eapply inspan_trans; [exact H|]. intros l Hl; apply B'; exact Hl.
Qed.

(** ** What [rel] preserves *)

Lemma indep_span_indep f f' s c :
  indepb f s c -> (forall i, i < s -> inspan f' s c (f i)) -> indepb f' s c.
Proof.
  intros I H a Ha i0 Hi0. destruct (a i0) eqn:E; [exfalso|reflexivity].
  destruct s as [|s]; [lia|].
  set (g := fun i => f' (sk i0 i)).
  assert (Hun : forall i, i < S s -> i <> i0 -> exists l, l < s /\ sk i0 l = i).
  { intros i Hi Hn. unfold sk. destruct (le_lt_dec i0 i).
    - exists (i - 1); split; [lia|]. destruct (Nat.ltb_spec (i - 1) i0); lia.
    - exists i; split; [lia|]. destruct (Nat.ltb_spec i i0); lia. }
  assert (H0 : forall i, i < S s -> inspan g s c (f' i)).
  { intros i Hi. destruct (Nat.eq_dec i i0) as [->|Hn].
    - exists (fun l => a (sk i0 l)). intros j Hj. specialize (Ha j Hj). unfold comb in Ha.
      rewrite (xsum_sk s i0) in Ha by exact Hi0. rewrite E in Ha. unfold comb, g.
      destruct (f' i0 j), (xsum s _); simpl in *; congruence.
    - destruct (Hun i Hi Hn) as (l & Hl & <-). apply (inspan_row g); exact Hl. }
  assert (B : S s <= s); [|lia].
  apply (steinitz g s f (S s) c); [|exact I].
  intros i Hi. destruct (H i Hi) as (b & Hb).
  apply (inspan_ext _ _ _ (comb (S s) b f')); [intros j Hj; symmetry; apply Hb; exact Hj|].
  apply inspan_comb; exact H0.
Qed.

Lemma indep_lift n p q f s : perm n p q -> indepb f s (2 * n) ->
  indepb (fun l j => f l (lift n p j)) s (2 * n).
Proof.
  intros Hp I a Ha. apply I. intros j Hj.
  destruct (lift_perm n p q Hp j Hj) as (_ & H2 & H3 & _).
  rewrite <- H3. exact (Ha _ H2).
Qed.

Lemma rel_indep n s f f' : rel n s f f' -> indepb f s (2 * n) -> indepb f' s (2 * n).
Proof.
  intros (p & q & Hp & A & B) I. apply (indep_lift n p q) in I; [|exact Hp].
  apply (indep_span_indep _ _ _ _ I B).
Qed.

Lemma ip_lift n p q u v : perm n p q -> ip n (fun j => u (lift n p j)) (fun j => v (lift n p j)) = ip n u v.
Proof.
  intros Hp. unfold ip.
  rewrite <- (xsum_perm n p q (fun j => xorb (u j && v (n + j)) (u (n + j) && v j))%bool Hp).
  apply xsum_ext; intros j Hj. unfold lift.
  destruct (Nat.ltb_spec j n); [|lia]. destruct (Nat.ltb_spec (n + j) n); [lia|].
  replace (n + j - n) with j by lia. reflexivity.
Qed.

Definition commuting (n s : nat) (f : nat -> nat -> bool) : Prop :=
  forall i j, i < s -> j < s -> ip n (f i) (f j) = false.

Lemma rel_commuting n s f f' : rel n s f f' -> commuting n s f -> commuting n s f'.
Proof.
  intros (p & q & Hp & A & _) C i j Hi Hj.
  destruct (A i Hi) as (a & Ha). destruct (A j Hj) as (b & Hb).
  rewrite (ip_ext n (f' i) (comb s a (fun l j => f l (lift n p j))) (f' j) (comb s b (fun l j => f l (lift n p j))))
    by assumption.
  rewrite ip_comb_l. apply xsum_zero; intros l Hl. rewrite ip_comb_r.
  rewrite xsum_zero; [apply andb_false_r|]. intros l' Hl'. rewrite (ip_lift n p q) by exact Hp.
  rewrite C by assumption. apply andb_false_r.
Qed.

(** rank of the X block *)
Lemma rel_rank_ge n s f f' r : rel n s f f' -> rank_ge f s n r -> rank_ge f' s n r.
Proof.
  intros (p & q & Hp & _ & B) (g & Hg & Ig).
  exists (fun i j => g i (p j)); split.
  - intros i Hi. destruct (Hg i Hi) as (a & Ha).
    assert (HB : forall l, l < s -> inspan f' s n (fun j => f l (p j))).
    { intros l Hl. destruct (B l Hl) as (b & Hb). exists b; intros j Hj. rewrite <- Hb by lia.
      unfold lift. destruct (Nat.ltb_spec j n); [reflexivity|lia]. }
    apply (inspan_ext _ _ _ (comb s a (fun l j => f l (p j)))).
    + intros j Hj. destruct (Hp j Hj) as (H1 & _). rewrite (Ha (p j) H1). reflexivity.
    + apply inspan_comb; exact HB.
  - intros a Ha. apply Ig. intros j Hj. destruct (Hp j Hj) as (_ & H2 & H3 & _).
    rewrite <- H3. exact (Ha _ H2).
Qed.

Lemma rel_sym n s f f' : rel n s f f' -> rel n s f' f.
Proof.
  intros (p & q & Hp & A & B). exists q, p; split; [apply perm_sym; exact Hp|].
  assert (Hinv : forall u : nat -> bool, forall j, j < 2 * n -> u (lift n p (lift n q j)) = u j).
  { intros u j Hj. destruct (lift_perm n p q Hp j Hj) as (_ & _ & H & _). rewrite H; reflexivity. }
  split; intros i Hi.
  - pose proof (inspan_lift n q p _ s _ (perm_sym _ _ _ Hp) (B i Hi)) as H. cbn beta in H.
    apply (inspan_ext _ _ _ (fun j => f i (lift n p (lift n q j)))); [intros j Hj; apply (Hinv (f i)); exact Hj|exact H].
  - pose proof (inspan_lift n q p _ s _ (perm_sym _ _ _ Hp) (A i Hi)) as H.
    eapply inspan_ext_f; [|exact H]. intros l j Hl Hj; cbn beta. apply (Hinv (f l)); exact Hj.
Qed.

(** ** Boolean matrices and the elementary operations *)

Definition bin (M : zmat) : Prop :=
  forall i j, i < zr M -> j < zc M -> get M i j = 0%Z \/ get M i j = 1%Z.
Definition okm (n s : nat) (M : zmat) : Prop := wf M /\ zr M = s /\ zc M = 2 * n /\ bin M.

Lemma bin_get M i j : bin M -> i < zr M -> j < zc M -> get M i j = Z.b2z (bz M i j).
Proof. intros H Hi Hj; unfold bz; destruct (H i j Hi Hj) as [-> | ->]; reflexivity. Qed.

Lemma get_eqb0 M i j : bin M -> i < zr M -> j < zc M -> (get M i j =? 0)%Z = negb (bz M i j).
Proof. intros H Hi Hj; rewrite bin_get by assumption; destruct (bz M i j); reflexivity. Qed.
Lemma get_eqb1 M i j : bin M -> i < zr M -> j < zc M -> (get M i j =? 1)%Z = bz M i j.
Proof. intros H Hi Hj; rewrite bin_get by assumption; destruct (bz M i j); reflexivity. Qed.

Lemma odd_mod2 x : Z.odd (x mod 2) = Z.odd x.
Proof. rewrite Zmod_odd; destruct (Z.odd x); reflexivity. Qed.
Lemma mod2_bin x : (x mod 2 = 0 \/ x mod 2 = 1)%Z.
Proof. rewrite Zmod_odd; destruct (Z.odd x); auto. Qed.

Lemma tr_lift n a b j : a < n -> b < n -> j < 2 * n -> tr a b (tr (a + n) (b + n) j) = lift n (tr a b) j.
Proof.
  intros Ha Hb Hj. unfold lift, tr. destruct (Nat.ltb_spec j n);
  repeat match goal with
         | |- context [Nat.eqb ?u ?v] =>
             lazymatch u with context [if _ then _ else _] => fail | _ => destruct (Nat.eqb_spec u v) end
         end; lia.
Qed.

Section Ops.
Variables n s : nat.
Variable M : zmat.
Hypothesis HM : okm n s M.

Lemma ok_swap_rows a b : a < s -> b < s -> okm n s (swap_rows M a b).
Proof.
  destruct HM as (W & R & C & B). intros Ha Hb. split; [apply wf_mk|]. split; [exact R|]. split; [exact C|].
  intros i j Hi Hj. simpl in Hi, Hj. rewrite get_swap_rows by assumption. apply B; [|exact Hj].
  apply tr_lt; lia.
Qed.
Lemma bz_swap_rows a b i j : i < s -> j < 2 * n -> bz (swap_rows M a b) i j = bz M (tr a b i) j.
Proof. destruct HM as (W & R & C & B); intros Hi Hj. unfold bz. rewrite get_swap_rows by lia. reflexivity. Qed.

Lemma ok_swap_both a b : a < n -> b < n -> okm n s (swap_both n M a b).
Proof.
  destruct HM as (W & R & C & B). intros Ha Hb. split; [apply wf_mk|]. split; [exact R|]. split; [exact C|].
  intros i j Hi Hj. simpl in Hi, Hj. unfold swap_both. rewrite get_swap_cols by assumption.
  rewrite get_swap_cols; [apply B; [exact Hi|]|exact Hi|].
  - apply tr_lt; try lia. apply tr_lt; lia.
  - simpl; apply tr_lt; lia.
Qed.
Lemma bz_swap_both a b i j : a < n -> b < n -> i < s -> j < 2 * n ->
  bz (swap_both n M a b) i j = bz M i (lift n (tr a b) j).
Proof.
  destruct HM as (W & R & C & B); intros Ha Hb Hi Hj. unfold bz, swap_both.
  rewrite get_swap_cols by (simpl; lia). rewrite get_swap_cols; [|lia|apply tr_lt; lia].
  rewrite tr_lift by assumption. reflexivity.
Qed.

Lemma ok_add_row p i0 : p < s -> i0 < s -> okm n s (add_row M p i0).
Proof.
  destruct HM as (W & R & C & B). intros Ha Hb. split; [apply wf_mk|]. split; [exact R|]. split; [exact C|].
  intros i j Hi Hj. simpl in Hi, Hj. rewrite get_add_row by assumption.
  destruct (Nat.eqb i i0); [apply mod2_bin|apply B; assumption].
Qed.
Lemma bz_add_row p i0 i j : i < s -> j < 2 * n ->
  bz (add_row M p i0) i j = if Nat.eqb i i0 then xorb (bz M p j) (bz M i0 j) else bz M i j.
Proof.
  destruct HM as (W & R & C & B); intros Hi Hj. unfold bz. rewrite get_add_row by lia.
  destruct (Nat.eqb i i0); [rewrite odd_mod2, Z.odd_add|]; reflexivity.
Qed.

Lemma rel_swap_rows a b : a < s -> b < s -> rel n s (bz M) (bz (swap_rows M a b)).
Proof.
  intros Ha Hb. exists (fun i => i), (fun i => i). split; [apply perm_id|]. split; intros i Hi.
  - apply (inspan_ext _ _ _ (fun j => bz M (tr a b i) (lift n (fun i => i) j))).
    { intros j Hj; rewrite lift_id, bz_swap_rows by assumption; reflexivity. }
    apply (inspan_row (fun l j => bz M l (lift n (fun i => i) j))). apply tr_lt; assumption.
  - apply (inspan_ext _ _ _ (bz (swap_rows M a b) (tr a b i))).
    { intros j Hj. rewrite bz_swap_rows, tr_invol, lift_id; [reflexivity|apply tr_lt; assumption|exact Hj]. }
    apply inspan_row, tr_lt; assumption.
Qed.

Lemma rel_swap_both a b : a < n -> b < n -> rel n s (bz M) (bz (swap_both n M a b)).
Proof.
  intros Ha Hb. exists (tr a b), (tr a b). split; [apply perm_tr; assumption|]. split; intros i Hi.
  - apply (inspan_ext _ _ _ (fun j => bz M i (lift n (tr a b) j))).
    { intros j Hj; rewrite bz_swap_both by assumption; reflexivity. }
    apply (inspan_row (fun l j => bz M l (lift n (tr a b) j))); exact Hi.
  - apply (inspan_ext _ _ _ (bz (swap_both n M a b) i)).
    { intros j Hj; rewrite bz_swap_both by assumption; reflexivity. }
    apply inspan_row; exact Hi.
Qed.

Lemma inspan_xor f m c u v : inspan f m c u -> inspan f m c v -> inspan f m c (fun j => xorb (u j) (v j)).
Proof.
  intros (a & Ha) (b & Hb). exists (fun i => xorb (a i) (b i)). intros j Hj. rewrite Ha, Hb by exact Hj.
  unfold comb. rewrite <- xsum_xor. apply xsum_ext; intros i Hi. destruct (a i), (b i), (f i j); reflexivity.
Qed.

Lemma rel_add_row p i0 : p < s -> i0 < s -> p <> i0 -> rel n s (bz M) (bz (add_row M p i0)).
Proof.
  intros Hp Hi0 Hn. exists (fun i => i), (fun i => i). split; [apply perm_id|].
  assert (R : forall i, i < s -> inspan (bz (add_row M p i0)) s (2 * n) (bz M i)).
  { intros i Hi. destruct (Nat.eq_dec i i0) as [->|Hi'].
    - apply (inspan_ext _ _ _ (fun j => xorb (bz (add_row M p i0) i0 j) (bz (add_row M p i0) p j))).
      + intros j Hj. rewrite !bz_add_row by assumption. rewrite Nat.eqb_refl.
        destruct (Nat.eqb_spec p i0); [contradiction|]. destruct (bz M p j), (bz M i0 j); reflexivity.
      + apply inspan_xor; apply inspan_row; assumption.
    - apply (inspan_ext _ _ _ (bz (add_row M p i0) i)).
      + intros j Hj. rewrite bz_add_row by assumption. destruct (Nat.eqb_spec i i0); [contradiction|reflexivity].
      + apply inspan_row; exact Hi. }
  split; intros i Hi.
  - apply (inspan_ext_f (bz M)); [intros; rewrite lift_id; reflexivity|].
    apply (inspan_ext _ _ _ (fun j => if Nat.eqb i i0 then xorb (bz M p j) (bz M i0 j) else bz M i j)).
    { intros j Hj; rewrite bz_add_row by assumption; reflexivity. }
    destruct (Nat.eqb i i0); [apply inspan_xor; apply inspan_row; assumption|apply inspan_row; exact Hi].
  - apply (inspan_ext _ _ _ (bz M i)); [intros; rewrite lift_id; reflexivity|]. apply R; exact Hi.
Qed.
End Ops.

(** ** The loops *)

Lemma search_swap_find n s j M :
  search_swap n s j M =
  match find (fun cr => get M (snd cr) (fst cr) =? 1)%Z (list_prod (seq j (n - j)) (seq j (s - j))) with
  | Some (c, r) => swap_rows (swap_both n M c j) j r
  | None => M
  end.
Proof.
  unfold search_swap. generalize (list_prod (seq j (n - j)) (seq j (s - j))) as L; intros L.
  assert (F : forall L M, fold_left
    (fun (st : zmat * bool) (cr : nat * nat) =>
       let '(M, did_not_swap) := st in
       let '(i_col, j_row) := cr in
       if ((get M j_row i_col =? 1)%Z && did_not_swap)%bool
       then (swap_rows (swap_both n M i_col j) j j_row, false)
       else (M, did_not_swap)) L (M, false) = (M, false)).
  { induction L0 as [|[c r] L0 IH]; intros M0; simpl; [reflexivity|].
    rewrite andb_false_r. apply IH. }
  induction L as [|[c r] L IH]; [reflexivity|].
  cbn [fold_left find fst snd]. destruct (get M r c =? 1)%Z; simpl; [|exact IH].
  rewrite F; reflexivity.
Qed.

(** generic fold: a step that keeps [okm] and [rel] *)
Lemma fold_rel {A} n s (step : zmat -> A -> zmat) (l : list A) M :
  okm n s M ->
  (forall M x, In x l -> okm n s M -> okm n s (step M x) /\ rel n s (bz M) (bz (step M x))) ->
  okm n s (fold_left step l M) /\ rel n s (bz M) (bz (fold_left step l M)).
Proof.
  revert M; induction l as [|x l IH]; intros M HM H; simpl.
  - split; [exact HM|apply rel_refl].
  - destruct (H M x (or_introl eq_refl) HM) as [H1 R1].
    destruct (IH (step M x) H1) as [H2 R2]; [intros M' y Hy; apply H; right; exact Hy|].
    split; [exact H2|]. eapply rel_trans; [exact R1|exact R2].
Qed.

Lemma ok_rel_clear n s rows p j M : okm n s M -> p < s -> (forall i, In i rows -> i < s) ->
  okm n s (clear_col rows p j M) /\ rel n s (bz M) (bz (clear_col rows p j M)).
Proof.
  intros HM Hp Hr. apply fold_rel; [exact HM|]. intros M' i Hi HM'.
  destruct (Nat.eqb_spec i p) as [->|Hn]; simpl; [split; [exact HM'|apply rel_refl]|].
  destruct (get M' i j =? 0)%Z; simpl; [split; [exact HM'|apply rel_refl]|].
  split; [apply ok_add_row; auto|apply rel_add_row; auto].
Qed.

Lemma bz_clear n s rows p j M : okm n s M -> p < s -> j < 2 * n -> NoDup rows -> (forall i, In i rows -> i < s) ->
  forall i c, i < s -> c < 2 * n ->
  bz (clear_col rows p j M) i c =
  if existsb (Nat.eqb i) rows && negb (Nat.eqb i p) && bz M i j
  then xorb (bz M p c) (bz M i c) else bz M i c.
Proof.
  intros HM Hp Hj. revert M HM. induction rows as [|k rows IH]; intros M HM ND Hr i c Hi Hc; [reflexivity|].
  inversion ND as [|k' rows' Hnin ND']; subst.
  unfold clear_col; cbn [fold_left]. fold (clear_col rows p j).
  set (M1 := if negb (Nat.eqb k p) && negb (get M k j =? 0)%Z then add_row M p k else M).
  change (fold_left _ rows M1) with (clear_col rows p j M1).
  assert (Hk : k < s) by (apply Hr; left; reflexivity).
  assert (HM1 : okm n s M1).
  { unfold M1; destruct (negb (Nat.eqb k p) && _); [apply ok_add_row; assumption|exact HM]. }
  assert (E : forall i c, i < s -> c < 2 * n -> bz M1 i c =
     if Nat.eqb i k && negb (Nat.eqb i p) && bz M i j then xorb (bz M p c) (bz M i c) else bz M i c).
  { intros i' c' Hi' Hc'. unfold M1. pose proof HM as HM0. destruct HM as (W & R & C & B).
    rewrite get_eqb0 by (assumption || lia). rewrite negb_involutive.
    destruct (Nat.eqb_spec i' k) as [->|Hn].
    - destruct (negb (k =? p) && bz M k j) eqn:E1; simpl.
      + rewrite (bz_add_row n s) by assumption. rewrite Nat.eqb_refl, E1. reflexivity.
      + rewrite E1; reflexivity.
    - destruct (negb (k =? p) && bz M k j) eqn:E1; [|reflexivity].
      rewrite (bz_add_row n s) by assumption.
      destruct (Nat.eqb_spec i' k); [contradiction|reflexivity]. }
  rewrite IH by (try assumption; intros; apply Hr; right; assumption).
  assert (Ep : forall c, c < 2 * n -> bz M1 p c = bz M p c).
  { intros c' Hc'. rewrite E by assumption. rewrite Nat.eqb_refl. simpl. rewrite andb_false_r. reflexivity. }
  rewrite Ep by exact Hc. cbn [existsb]. rewrite !E by assumption.
  destruct (Nat.eqb_spec i k) as [->|Hn]; cbn [orb andb].
  - assert (Ex : existsb (Nat.eqb k) rows = false).
    { destruct (existsb (Nat.eqb k) rows) eqn:Ex; [|reflexivity].
      apply existsb_exists in Ex. destruct Ex as (x & Hx & E'). apply Nat.eqb_eq in E'; subst; contradiction. }
    rewrite Ex. reflexivity.
  - reflexivity.
Qed.

Lemma existsb_seq i a m : existsb (Nat.eqb i) (seq a m) = (Nat.leb a i && Nat.ltb i (a + m)).
Proof.
  destruct (Nat.leb_spec a i), (Nat.ltb_spec i (a + m)); simpl.
  - apply existsb_exists. exists i; split; [apply in_seq; lia|apply Nat.eqb_refl].
  - destruct (existsb _ _) eqn:E; [|reflexivity]. apply existsb_exists in E. destruct E as (x & Hx & E).
    apply Nat.eqb_eq in E; apply in_seq in Hx; lia.
  - destruct (existsb _ _) eqn:E; [|reflexivity]. apply existsb_exists in E. destruct E as (x & Hx & E).
    apply Nat.eqb_eq in E; apply in_seq in Hx; lia.
  - destruct (existsb _ _) eqn:E; [|reflexivity]. apply existsb_exists in E. destruct E as (x & Hx & E).
    apply Nat.eqb_eq in E; apply in_seq in Hx; lia.
Qed.

Lemma find_prod_in {n s j : nat} {f} {c r : nat} : find f (list_prod (seq j (n - j)) (seq j (s - j))) = Some (c, r) ->
  (j <= c < n /\ j <= r < s) /\ f (c, r) = true.
Proof.
  intros H; apply find_some in H; destruct H as [H E]. apply in_prod_iff in H. rewrite !in_seq in H. split; [lia|exact E].
Qed.

Lemma ok_rel_first_step n s M j : okm n s M -> j < n -> j < s ->
  okm n s (first_step n s M j) /\ rel n s (bz M) (bz (first_step n s M j)).
Proof.
  intros HM Hn Hs. unfold first_step. set (M1 := if (get M j j =? 0)%Z then search_swap n s j M else M).
  assert (H1 : okm n s M1 /\ rel n s (bz M) (bz M1)).
  { unfold M1; destruct (get M j j =? 0)%Z; [|split; [exact HM|apply rel_refl]].
    rewrite search_swap_find. destruct (find _ _) as [[c r]|] eqn:E; [|split; [exact HM|apply rel_refl]].
    apply find_prod_in in E; destruct E as [E _].
    assert (H2 : okm n s (swap_both n M c j)) by (apply ok_swap_both; [exact HM|lia|lia]).
    split; [apply ok_swap_rows; [exact H2|lia|lia]|].
    apply (rel_trans _ _ _ (bz (swap_both n M c j)));
      [apply rel_swap_both; [exact HM| |]; lia|apply rel_swap_rows; [exact H2| |]; lia]. }
  destruct H1 as [H1 R1].
  destruct (ok_rel_clear n s (seq 0 s) j j M1 H1 Hs) as [H2 R2]; [intros i Hi; apply in_seq in Hi; lia|].
  split; [exact H2|eapply rel_trans; [exact R1|exact R2]].
Qed.

Lemma rank_rows_le_c c rows : rank_rows c rows <= c.
Proof.
  revert rows; induction c as [|c IH]; intros rows; cbn [rank_rows]; [lia|].
  destruct (split_pivot rows) as [[p o]|]; [specialize (IH (map (reduce p) o))|specialize (IH (map (@tl Z) rows))]; lia.
Qed.
Lemma rank_rows_le_r c rows : rank_rows c rows <= length rows.
Proof.
  revert rows; induction c as [|c IH]; intros rows; cbn [rank_rows]; [lia|].
  destruct (split_pivot rows) as [[p o]|] eqn:E.
  - specialize (IH (map (reduce p) o)). rewrite map_length in IH.
    assert (L : length rows = S (length o)); [|lia].
    clear IH. revert p o E; induction rows as [|q rows IHr]; intros p o E; simpl in E; [discriminate|].
    destruct (hd 0 q =? 0)%Z.
    + destruct (split_pivot rows) as [[q' o']|]; [|discriminate]. inversion E; subst. simpl.
      rewrite (IHr p o'); reflexivity.
    + inversion E; subst; reflexivity.
  - specialize (IH (map (@tl Z) rows)). rewrite map_length in IH; exact IH.
Qed.
Lemma matrix_rank_le M : wf M -> matrix_rank M <= zr M /\ matrix_rank M <= zc M.
Proof. intros [L _]; split; [rewrite <- L; apply rank_rows_le_r|apply rank_rows_le_c]. Qed.

Lemma slice_dims M r0 r1 c0 c1 :
  zr (slice M r0 r1 c0 c1) = Nat.min r1 (zr M) - r0 /\ zc (slice M r0 r1 c0 c1) = Nat.min c1 (zc M) - c0.
Proof. split; reflexivity. Qed.

Lemma first_rank_bounds n s M : okm n s M ->
  matrix_rank (slice M 0 (zr M) 0 n) <= s /\ matrix_rank (slice M 0 (zr M) 0 n) <= n.
Proof.
  intros (W & R & C & B). destruct (matrix_rank_le (slice M 0 (zr M) 0 n) (wf_mk _ _ _)) as [H1 H2].
  simpl in H1, H2. rewrite C in H2. lia.
Qed.

Lemma ok_rel_gauss_first n s M : okm n s M ->
  okm n s (fst (gauss_first n M)) /\ rel n s (bz M) (bz (fst (gauss_first n M))).
Proof.
  intros HM. pose proof (first_rank_bounds n s M HM) as [B1 B2].
  unfold gauss_first; cbn [fst]. pose proof HM as (W & R & C & B). rewrite R.
  apply fold_rel; [exact HM|].
  intros M' j Hj HM'. rewrite R in B1, B2. apply in_seq in Hj. apply ok_rel_first_step; [exact HM'|lia|lia].
Qed.

Lemma ok_rel_swap2 n s M j : okm n s M -> j < s ->
  okm n s (second_swap_rows n s M j) /\ rel n s (bz M) (bz (second_swap_rows n s M j)).
Proof.
  intros HM Hj. unfold second_swap_rows. destruct (get M j (n + j) =? 0)%Z; [|split; [exact HM|apply rel_refl]].
  destruct (find _ _) as [i|] eqn:E; [|split; [exact HM|apply rel_refl]].
  apply find_some in E; destruct E as [E _]; apply in_seq in E.
  split; [apply ok_swap_rows; [exact HM|lia|lia]|apply rel_swap_rows; [exact HM|lia|lia]].
Qed.

Lemma ok_rel_step2 n s nk rank M j : okm n s M -> j < n -> j < s -> nk <= s ->
  okm n s (second_step n nk rank M j) /\ rel n s (bz M) (bz (second_step n nk rank M j)).
Proof.
  intros HM Hj Hs Hk. unfold second_step.
  set (M1 := if (get M j (n + j) =? 0)%Z then _ else M).
  assert (H1 : okm n s M1 /\ rel n s (bz M) (bz M1)).
  { unfold M1; destruct (get M j (n + j) =? 0)%Z; [|split; [exact HM|apply rel_refl]].
    destruct (find _ _) as [c|] eqn:E; [|split; [exact HM|apply rel_refl]].
    apply find_some in E; destruct E as [E _]; apply in_seq in E.
    split; [apply ok_swap_both; [exact HM|lia|lia]|apply rel_swap_both; [exact HM|lia|lia]]. }
  destruct H1 as [H1 R1].
  destruct (ok_rel_clear n s (seq rank (nk - rank)) j (n + j) M1 H1 Hs) as [H2 R2];
    [intros i Hi; apply in_seq in Hi; lia|].
  split; [exact H2|eapply rel_trans; [exact R1|exact R2]].
Qed.

(** The whole normal form is the given code up to a permutation of the qubits. *)
Theorem normal_form_rel n k s M F rank : okm n s M ->
  standard_normal_form n k M = Ok (F, rank) ->
  okm n s F /\ rel n s (bz M) (bz F).
Proof.
  intros HM E. unfold standard_normal_form in E. apply bind_ok in E; destruct E as (u & _ & E).
  destruct (ok_rel_gauss_first n s M HM) as [H1 R1].
  pose proof (first_rank_bounds n s M HM) as [B1 B2].
  unfold gauss_first in *. cbn [fst] in *.
  set (M1 := fold_left _ _ M) in *. set (rk := matrix_rank (slice M 0 (zr M) 0 n)) in *.
  apply bind_ok in E; destruct E as (M2 & E2 & E). injection E as EF ER; subst F rank.
  unfold gauss_second in E2. pose proof H1 as (W1 & Z1 & C1 & Bn1). rewrite Z1 in E2.
  destruct (Nat.eqb_spec rk s) as [Er|Er].
  - injection E2 as <-. split; [exact H1|exact R1].
  - apply bind_ok in E2; destruct E2 as (u' & _ & E2). set (rE := matrix_rank (slice M1 rk s (n + rk) (2 * n))) in *.
    destruct (Nat.ltb s (n - k) && Nat.ltb 0 rE) eqn:Eb; [discriminate|]. injection E2 as <-.
    destruct (Nat.eq_dec rE 0) as [R0|R0]; [rewrite R0; cbn [seq fold_left]; split; [exact H1|exact R1]|].
    assert (Hk : n - k <= s).
    { apply andb_false_iff in Eb. rewrite !Nat.ltb_ge in Eb. lia. }
    destruct (matrix_rank_le (slice M1 rk s (n + rk) (2 * n)) (wf_mk _ _ _)) as [Q1 Q2].
    fold rE in Q1, Q2. simpl in Q1, Q2. rewrite C1, Z1 in *.
    destruct (fold_rel n s (second_swap_rows n s) (seq rk rE) M1) as [H2 R2].
    { exact H1. }
    { intros M' j Hj HM'; apply in_seq in Hj. apply ok_rel_swap2; [exact HM'|lia]. }
    destruct (fold_rel n s (second_step n (n - k) rk) (seq rk rE) _ H2) as [H3 R3].
    { intros M' j Hj HM'; apply in_seq in Hj. apply ok_rel_step2; [exact HM'|lia|lia|exact Hk]. }
    split; [exact H3|]. eapply rel_trans; [exact R1|]. eapply rel_trans; [exact R2|exact R3].
Qed.
