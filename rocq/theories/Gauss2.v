(** Block shape of the normal form (C08). *)
From Verif Require Import Py ZMat CodesModel RankSpec BoolLin Rank Gauss.
Open Scope nat_scope.

Ltac beq := repeat match goal with
  | |- context [Nat.eqb ?u ?v] =>
      lazymatch u with context [if _ then _ else _] => fail | _ =>
      lazymatch v with context [if _ then _ else _] => fail | _ => destruct (Nat.eqb_spec u v) end end
  end; try (subst; lia); try reflexivity.

Section Block.
Variables n s r : nat.
Hypothesis Hrs : r <= s.
Hypothesis Hrn : r <= n.

(** columns below [j] of the X block are unit columns *)
Definition unitx (j : nat) (f : nat -> nat -> bool) : Prop :=
  forall i c, i < s -> c < j -> f i c = Nat.eqb i c.
(** rows from [r] on have no X part *)
Definition lowx (f : nat -> nat -> bool) : Prop :=
  forall i c, r <= i < s -> c < n -> f i c = false.
(** columns [r..j) of the Z block are unit columns in the lower rows *)
Definition unitz (j : nat) (f : nat -> nat -> bool) : Prop :=
  forall i c, r <= i < s -> r <= c < j -> f i (n + c) = Nat.eqb i c.

(** fewer than r pivots so far: the search finds a one *)
Lemma pivot_exists f j : unitx j f -> rank_ge f s n r -> j < r ->
  ~ (forall i c, j <= i < s -> j <= c < n -> f i c = false).
Proof.
  intros U (g & Hg & Ig) Hj H.
  assert (B : r <= j); [|lia].
  apply (steinitz f j g r n); [|exact Ig].
  intros i Hi. destruct (Hg i Hi) as (a & Ha). exists a. intros c Hc. rewrite Ha by exact Hc.
  unfold comb. replace s with (j + (s - j)) by lia. rewrite xsum_split.
  rewrite (xsum_zero (s - j)); [apply xorb_false_r|].
  intros l Hl. destruct (le_lt_dec j c) as [L|L].
  - rewrite H by lia. apply andb_false_r.
  - rewrite U by lia. destruct (Nat.eqb_spec (j + l) c); [lia|apply andb_false_r].
Qed.

Lemma unitx_clear M j : okm n s M -> j < s -> j < n -> unitx j (bz M) -> bz M j j = true ->
  unitx (S j) (bz (clear_col (seq 0 s) j j M)).
Proof.
  intros HM Hs Hn U E i c Hi Hc.
  rewrite (bz_clear n s) by (try assumption; try lia; try apply seq_NoDup; intros x Hx; apply in_seq in Hx; lia).
  rewrite existsb_seq. destruct (Nat.ltb_spec i (0 + s)); [|lia]. cbn [Nat.leb andb].
  destruct (Nat.eq_dec c j) as [->|Hcj].
  - destruct (Nat.eqb_spec i j) as [->|Hij]; cbn [negb andb]; [exact E|].
    destruct (bz M i j) eqn:E'; [rewrite E; reflexivity|reflexivity].
  - rewrite (U i c), (U j c) by lia. destruct (Nat.eqb_spec j c); [lia|].
    rewrite xorb_false_l; destruct (negb (i =? j) && bz M i j); reflexivity.
Qed.

Lemma first_step_unit M j : okm n s M -> unitx j (bz M) -> rank_ge (bz M) s n r -> j < r ->
  unitx (S j) (bz (first_step n s M j)).
Proof.
  intros HM U Hrk Hj. pose proof HM as (W & R & C & B). unfold first_step.
  rewrite get_eqb0 by (assumption || lia).
  destruct (bz M j j) eqn:E; cbn [negb]; [apply unitx_clear; (assumption || lia)|].
  rewrite search_swap_find. destruct (find _ _) as [[c i0]|] eqn:F.
  - destruct (find_prod_in F) as [Hin Ef]. cbn [fst snd] in Ef.
    rewrite get_eqb1 in Ef by (assumption || lia).
    assert (H2 : okm n s (swap_both n M c j)) by (apply ok_swap_both; [exact HM|lia|lia]).
    assert (H3 : okm n s (swap_rows (swap_both n M c j) j i0)) by (apply ok_swap_rows; [exact H2|lia|lia]).
    assert (EB : forall i c', i < s -> c' < 2 * n ->
       bz (swap_rows (swap_both n M c j) j i0) i c' = bz M (tr j i0 i) (lift n (tr c j) c')).
    { intros i c' Hi Hc'. rewrite (bz_swap_rows n s) by assumption.
      rewrite (bz_swap_both n s); [reflexivity|assumption|lia|lia|apply tr_lt; lia|assumption]. }
    apply unitx_clear; try (assumption || lia).
    + intros i c' Hi Hc'. rewrite EB by lia.
      assert (El : lift n (tr c j) c' = c').
      { unfold lift, tr. destruct (Nat.ltb_spec c' n); [beq|lia]. }
      rewrite El, U; [|apply tr_lt; lia|exact Hc']. unfold tr. beq.
    + rewrite EB by lia. replace (lift n (tr c j) j) with c.
      * replace (tr j i0 j) with i0; [exact Ef|]. unfold tr; beq.
      * unfold lift, tr. destruct (Nat.ltb_spec j n); [beq|lia].
  - exfalso. apply (pivot_exists (bz M) j U Hrk Hj).
    intros i c Hi Hc. rewrite <- get_eqb1 by (assumption || lia).
    apply (find_none _ _ F (c, i)). apply in_prod_iff. rewrite !in_seq; lia.
Qed.

Lemma first_fold M j : okm n s M -> rank_ge (bz M) s n r -> j <= r ->
  okm n s (fold_left (first_step n s) (seq 0 j) M) /\
  rel n s (bz M) (bz (fold_left (first_step n s) (seq 0 j) M)) /\
  unitx j (bz (fold_left (first_step n s) (seq 0 j) M)).
Proof.
  intros HM Hrk. induction j as [|j IH]; intros Hj.
  - split; [exact HM|]. split; [apply rel_refl|]. intros i c Hi Hc; lia.
  - destruct IH as (H1 & R1 & U1); [lia|]. rewrite seq_S, fold_left_app. cbn [fold_left Nat.add].
    destruct (ok_rel_first_step n s _ j H1) as [H2 R2]; [lia|lia|].
    split; [exact H2|]. split; [eapply rel_trans; [exact R1|exact R2]|].
    apply first_step_unit; [exact H1|exact U1| |lia]. eapply rel_rank_ge; [exact R1|exact Hrk].
Qed.

Lemma lowx_of_rank f : unitx r f -> ~ rank_ge f s n (S r) -> lowx f.
Proof.
  intros U N i c Hi Hc. destruct (f i c) eqn:E; [exfalso|reflexivity]. apply N.
  assert (Hcr : r <= c).
  { destruct (le_lt_dec r c) as [L|L]; [exact L|]. rewrite U in E by lia.
    apply Nat.eqb_eq in E; lia. }
  exists (fun l => if Nat.ltb l r then f l else f i); split.
  - intros l Hl. destruct (Nat.ltb_spec l r); apply inspan_row; lia.
  - intros a Ha.
    assert (A0 : forall l, l < r -> a l = false).
    { intros l Hl. specialize (Ha l ltac:(lia)). unfold comb in Ha. cbn [xsum] in Ha.
      rewrite Nat.ltb_irrefl in Ha. rewrite (U i l) in Ha by lia.
      destruct (Nat.eqb_spec i l); [lia|]. rewrite andb_false_r, xorb_false_r in Ha.
      rewrite (xsum_one r l) in Ha; [|exact Hl|].
      - destruct (Nat.ltb_spec l r); [|lia]. rewrite U, Nat.eqb_refl, andb_true_r in Ha by lia. exact Ha.
      - intros l' Hl' Hne. destruct (Nat.ltb_spec l' r); [|lia]. rewrite U by lia.
        destruct (Nat.eqb_spec l' l); [contradiction|apply andb_false_r]. }
    assert (Ar : a r = false).
    { specialize (Ha c Hc). unfold comb in Ha. cbn [xsum] in Ha. rewrite Nat.ltb_irrefl, E in Ha.
      rewrite andb_true_r in Ha. rewrite xsum_zero in Ha; [rewrite xorb_false_l in Ha; exact Ha|].
      intros l Hl; rewrite A0 by exact Hl; reflexivity. }
    intros l Hl. destruct (Nat.eq_dec l r) as [->|]; [exact Ar|apply A0; lia].
Qed.

(** the lower rows are independent on the Z columns from [r] on *)
Lemma lower_indep f : unitx r f -> lowx f -> commuting n s f -> indepb f s (2 * n) ->
  indepb (fun i j => f (r + i) (n + (r + j))) (s - r) (n - r).
Proof.
  intros U Lx C I a Ha.
  set (b := fun l => if Nat.ltb l r then false else a (l - r)).
  assert (Ev : forall j, comb s b f j = xsum (s - r) (fun i => a i && f (r + i) j)).
  { intros j. unfold comb. replace s with (r + (s - r)) at 1 by lia. rewrite xsum_split.
    rewrite xsum_zero; [rewrite xorb_false_l|].
    - apply xsum_ext; intros i Hi. unfold b. destruct (Nat.ltb_spec (r + i) r); [lia|].
      replace (r + i - r) with i by lia. reflexivity.
    - intros i Hi; unfold b. destruct (Nat.ltb_spec i r); [reflexivity|lia]. }
  assert (Vx : forall j, j < n -> comb s b f j = false).
  { intros j Hj. rewrite Ev. apply xsum_zero; intros i Hi. rewrite Lx by lia. apply andb_false_r. }
  assert (Vz : forall c, r <= c < n -> comb s b f (n + c) = false).
  { intros c Hc. rewrite Ev. specialize (Ha (c - r) ltac:(lia)). unfold comb in Ha.
    rewrite <- Ha. apply xsum_ext; intros i Hi. do 2 f_equal. lia. }
  assert (Vl : forall c, c < r -> comb s b f (n + c) = false).
  { intros c Hc.
    assert (E0 : ip n (f c) (comb s b f) = false).
    { rewrite ip_comb_r. apply xsum_zero; intros l Hl. rewrite C by lia. apply andb_false_r. }
    unfold ip in E0. rewrite (xsum_one n c) in E0; [|lia|].
    - rewrite (Vx c) in E0 by lia. rewrite U, Nat.eqb_refl in E0 by lia.
      rewrite andb_false_r, xorb_false_r in E0. exact E0.
    - intros j Hj Hne. rewrite (Vx j) by exact Hj. rewrite andb_false_r, xorb_false_r.
      destruct (le_lt_dec r j) as [L|L]; [rewrite Vz by lia; apply andb_false_r|].
      rewrite U by lia. destruct (Nat.eqb_spec c j); [lia|reflexivity]. }
  assert (B0 : forall i, i < s -> b i = false).
  { apply I. intros j Hj. destruct (le_lt_dec n j) as [L|L]; [|apply Vx; exact L].
    replace j with (n + (j - n)) by lia. destruct (le_lt_dec r (j - n)); [apply Vz|apply Vl]; lia. }
  intros i Hi. specialize (B0 (r + i) ltac:(lia)). unfold b in B0.
  destruct (Nat.ltb_spec (r + i) r); [lia|]. replace (r + i - r) with i in B0 by lia. exact B0.
Qed.

Lemma lower_row_nonzero f j : unitx r f -> lowx f -> commuting n s f -> indepb f s (2 * n) -> r <= j < s ->
  ~ (forall c, r <= c < n -> f j (n + c) = false).
Proof.
  intros U Lx C I Hj H.
  pose proof (lower_indep f U Lx C I (fun i => Nat.eqb i (j - r))) as L.
  assert (E : Nat.eqb (j - r) (j - r) = false); [|rewrite Nat.eqb_refl in E; discriminate].
  apply L; [|lia]. intros c Hc. unfold comb. rewrite (xsum_delta (s - r) (j - r) (fun i => f (r + i) (n + (r + c)))) by lia.
  replace (r + (j - r)) with j by lia. apply H; lia.
Qed.

Definition struct (f : nat -> nat -> bool) : Prop :=
  unitx r f /\ lowx f /\ commuting n s f /\ indepb f s (2 * n).

Lemma struct_swap_rows M a b : okm n s M -> struct (bz M) -> r <= a < s -> r <= b < s ->
  struct (bz (swap_rows M a b)).
Proof.
  intros HM (U & Lx & C & I) Ha Hb.
  pose proof (rel_swap_rows n s M HM a b ltac:(lia) ltac:(lia)) as R.
  split; [|split; [|split; [eapply rel_commuting; eassumption|eapply rel_indep; eassumption]]].
  - intros i c Hi Hc. rewrite (bz_swap_rows n s) by (assumption || lia).
    rewrite U; [|apply tr_lt; lia|exact Hc]. unfold tr; beq.
  - intros i c Hi Hc. rewrite (bz_swap_rows n s) by (assumption || lia). apply Lx; [|exact Hc].
    unfold tr; destruct (Nat.eqb i a); [lia|]. destruct (Nat.eqb i b); lia.
Qed.

Lemma lift_tr_low a b c : r <= a < n -> r <= b < n -> c < r -> lift n (tr a b) c = c.
Proof. intros Ha Hb Hc; unfold lift, tr. destruct (Nat.ltb_spec c n); [beq|lia]. Qed.

Lemma struct_swap_both M a b : okm n s M -> struct (bz M) -> r <= a < n -> r <= b < n ->
  struct (bz (swap_both n M a b)).
Proof.
  intros HM (U & Lx & C & I) Ha Hb.
  pose proof (rel_swap_both n s M HM a b ltac:(lia) ltac:(lia)) as R.
  split; [|split; [|split; [eapply rel_commuting; eassumption|eapply rel_indep; eassumption]]].
  - intros i c Hi Hc. rewrite (bz_swap_both n s) by (assumption || lia).
    rewrite lift_tr_low by assumption. apply U; assumption.
  - intros i c Hi Hc. rewrite (bz_swap_both n s) by (assumption || lia). apply Lx; [exact Hi|].
    unfold lift. destruct (Nat.ltb_spec c n); [apply tr_lt; lia|lia].
Qed.

Lemma struct_clear M j : okm n s M -> struct (bz M) -> r <= j < s -> j < n ->
  struct (bz (clear_col (seq r (s - r)) j (n + j) M)).
Proof.
  intros HM (U & Lx & C & I) Hj Hn.
  destruct (ok_rel_clear n s (seq r (s - r)) j (n + j) M HM ltac:(lia)) as [_ R];
    [intros x Hx; apply in_seq in Hx; lia|].
  assert (EB : forall i c, i < s -> c < 2 * n -> bz (clear_col (seq r (s - r)) j (n + j) M) i c =
    if (Nat.leb r i && Nat.ltb i (r + (s - r))) && negb (Nat.eqb i j) && bz M i (n + j)
    then xorb (bz M j c) (bz M i c) else bz M i c).
  { intros i c Hi Hc. rewrite (bz_clear n s) by (try assumption; try lia; try apply seq_NoDup;
      intros x Hx; apply in_seq in Hx; lia). rewrite existsb_seq; reflexivity. }
  split; [|split; [|split; [eapply rel_commuting; eassumption|eapply rel_indep; eassumption]]].
  - intros i c Hi Hc. rewrite EB by lia. rewrite (U i c), (U j c) by lia.
    destruct (Nat.eqb_spec j c); [lia|]. rewrite ?xorb_false_l; destruct ((Nat.leb r i && Nat.ltb i (r + (s - r))) && _ && _); reflexivity.
  - intros i c Hi Hc. rewrite EB by lia. rewrite (Lx i c), (Lx j c) by lia.
    rewrite ?xorb_false_l; destruct ((Nat.leb r i && Nat.ltb i (r + (s - r))) && _ && _); reflexivity.
Qed.

Lemma unitz_clear M j : okm n s M -> r <= j < s -> j < n -> unitz j (bz M) -> bz M j (n + j) = true ->
  unitz (S j) (bz (clear_col (seq r (s - r)) j (n + j) M)).
Proof.
  intros HM Hj Hn V E i c Hi Hc.
  rewrite (bz_clear n s) by (try assumption; try lia; try apply seq_NoDup; intros x Hx; apply in_seq in Hx; lia).
  rewrite existsb_seq. destruct (Nat.leb_spec r i); [|lia]. destruct (Nat.ltb_spec i (r + (s - r))); [|lia].
  cbn [andb]. destruct (Nat.eq_dec c j) as [->|Hcj].
  - destruct (Nat.eqb_spec i j) as [->|Hij]; cbn [negb andb]; [exact E|].
    destruct (bz M i (n + j)) eqn:E'; [rewrite E; reflexivity|reflexivity].
  - rewrite (V i c), (V j c) by lia. destruct (Nat.eqb_spec j c); [lia|].
    rewrite xorb_false_l; destruct (negb (i =? j) && bz M i (n + j)); reflexivity.
Qed.

Lemma second_step_ok M j : okm n s M -> struct (bz M) -> unitz j (bz M) -> r <= j < s -> j < n ->
  okm n s (second_step n s r M j) /\ rel n s (bz M) (bz (second_step n s r M j)) /\
  struct (bz (second_step n s r M j)) /\ unitz (S j) (bz (second_step n s r M j)).
Proof.
  intros HM ST V Hj Hn. destruct (ok_rel_step2 n s s r M j HM Hn ltac:(lia) ltac:(lia)) as [H1 R1].
  split; [exact H1|]. split; [exact R1|]. clear H1 R1.
  pose proof HM as (W & Z & C & B). unfold second_step. rewrite get_eqb0 by (assumption || lia).
  destruct (bz M j (n + j)) eqn:E; cbn [negb].
  - split; [apply struct_clear; assumption|apply unitz_clear; assumption].
  - destruct (find _ _) as [c|] eqn:F.
    + destruct (find_some _ _ F) as [Hin Ef]. apply in_seq in Hin. rewrite get_eqb1 in Ef by (assumption || lia).
      assert (H2 : okm n s (swap_both n M c j)) by (apply ok_swap_both; [exact HM|lia|lia]).
      assert (S2 : struct (bz (swap_both n M c j))) by (apply struct_swap_both; (assumption || lia)).
      split; [apply struct_clear; assumption|]. apply unitz_clear; try assumption.
      * intros i c' Hi Hc'. rewrite (bz_swap_both n s) by (assumption || lia).
        replace (lift n (tr c j) (n + c')) with (n + c'); [apply V; assumption|].
        unfold lift. destruct (Nat.ltb_spec (n + c') n); [lia|]. replace (n + c' - n) with c' by lia.
        unfold tr; beq.
      * rewrite (bz_swap_both n s) by (assumption || lia).
        replace (lift n (tr c j) (n + j)) with (n + c); [exact Ef|].
        unfold lift. destruct (Nat.ltb_spec (n + j) n); [lia|]. replace (n + j - n) with j by lia.
        unfold tr; beq.
    + exfalso. destruct ST as (U & Lx & Cm & I). apply (lower_row_nonzero (bz M) j U Lx Cm I Hj).
      intros c Hc. destruct (lt_eq_lt_dec c j) as [[L|L]|L].
      * rewrite V by lia. beq.
      * subst c; exact E.
      * rewrite <- get_eqb1 by (assumption || lia). apply (find_none _ _ F c). apply in_seq; lia.
Qed.

Lemma second_fold M m : okm n s M -> struct (bz M) -> r + m <= s -> s <= n ->
  okm n s (fold_left (second_step n s r) (seq r m) M) /\
  rel n s (bz M) (bz (fold_left (second_step n s r) (seq r m) M)) /\
  struct (bz (fold_left (second_step n s r) (seq r m) M)) /\
  unitz (r + m) (bz (fold_left (second_step n s r) (seq r m) M)).
Proof.
  intros HM ST. induction m as [|m IH]; intros Hm Hn.
  - split; [exact HM|]. split; [apply rel_refl|]. split; [exact ST|]. intros i c Hi Hc; lia.
  - destruct IH as (H1 & R1 & S1 & V1); [lia|lia|]. rewrite seq_S, fold_left_app. cbn [fold_left].
    destruct (second_step_ok _ (r + m) H1 S1 V1) as (H2 & R2 & S2 & V2); [lia|lia|].
    split; [exact H2|]. split; [eapply rel_trans; [exact R1|exact R2]|]. split; [exact S2|].
    replace (r + S m) with (S (r + m)) by lia. exact V2.
Qed.

Lemma swap_fold M m : okm n s M -> struct (bz M) -> r + m <= s ->
  okm n s (fold_left (second_swap_rows n s) (seq r m) M) /\
  rel n s (bz M) (bz (fold_left (second_swap_rows n s) (seq r m) M)) /\
  struct (bz (fold_left (second_swap_rows n s) (seq r m) M)).
Proof.
  intros HM ST. induction m as [|m IH]; intros Hm.
  - split; [exact HM|]. split; [apply rel_refl|exact ST].
  - destruct IH as (H1 & R1 & S1); [lia|]. rewrite seq_S, fold_left_app. cbn [fold_left].
    destruct (ok_rel_swap2 n s _ (r + m) H1) as [H2 R2]; [lia|].
    split; [exact H2|]. split; [eapply rel_trans; [exact R1|exact R2]|].
    revert H1 S1. generalize (fold_left (second_swap_rows n s) (seq r m) M) as M'. intros M' H1 S1.
    unfold second_swap_rows. destruct (get M' (r + m) (n + (r + m)) =? 0)%Z; [|exact S1].
    destruct (find _ _) as [i|] eqn:F; [|exact S1].
    apply find_some in F; destruct F as [F _]; apply in_seq in F.
    apply struct_swap_rows; [exact H1|exact S1|lia|lia].
Qed.
End Block.

Lemma bz_slice M r0 r1 c0 c1 i j : r1 <= zr M -> c1 <= zc M -> i < r1 - r0 -> j < c1 - c0 ->
  bz (slice M r0 r1 c0 c1) i j = bz M (r0 + i) (c0 + j).
Proof.
  intros H1 H2 Hi Hj. unfold bz, slice. rewrite get_mk; [reflexivity|lia|lia].
Qed.

Lemma rank_ge_ext f g m c r : (forall i j, i < m -> j < c -> f i j = g i j) -> rank_ge f m c r -> rank_ge g m c r.
Proof.
  intros H (h & Hh & I). exists h; split; [|exact I]. intros i Hi. apply (inspan_ext_f f); [exact H|apply Hh; exact Hi].
Qed.

Definition xblock (n : nat) (M : zmat) : zmat := slice M 0 (zr M) 0 n.

Lemma has_entries_mk M : 0 < zr M -> 0 < zc M -> has_entries M = true.
Proof. intros H1 H2. unfold has_entries. apply andb_true_intro. split; apply Nat.ltb_lt; assumption. Qed.

(** C08, boolean form. *)
Theorem normal_form_block n k s M : okm n s M -> s = n - k -> 0 < s ->
  commuting n s (bz M) -> indepb (bz M) s (2 * n) ->
  is_rank 2 n (zd (xblock n M)) (matrix_rank (xblock n M)) ->
  exists F, let r := matrix_rank (xblock n M) in
    standard_normal_form n k M = Ok (F, r) /\
    okm n s F /\ rel n s (bz M) (bz F) /\ r <= s /\ s <= n /\
    struct n s r (bz F) /\ unitz n s r s (bz F).
Proof.
  intros HM Hs H0s C I Hr. pose proof HM as (W & Z & Cc & B).
  set (r := matrix_rank (xblock n M)) in *.
  destruct (first_rank_bounds n s M HM) as [B1 B2]. fold (xblock n M) in B1, B2. fold r in B1, B2.
  assert (Wx : wf (xblock n M)) by apply wf_mk.
  assert (Zx : zr (xblock n M) = s) by (simpl; lia).
  assert (Cx : zc (xblock n M) = n) by (simpl; rewrite Cc; lia).
  assert (Bx : forall i j, i < s -> j < n -> bz (xblock n M) i j = bz M i j).
  { intros i j Hi Hj. unfold xblock. rewrite bz_slice by lia. reflexivity. }
  assert (Hge : rank_ge (bz M) s n r).
  { apply (rank_ge_ext (bz (xblock n M))); [exact Bx|].
    pose proof (is_rank2_ge (xblock n M) r Wx) as G. rewrite Cx, Zx in G. exact (G Hr). }
  assert (Hnge : ~ rank_ge (bz M) s n (S r)).
  { intros H. pose proof (is_rank2_not_ge (xblock n M) r Wx) as G. rewrite Cx, Zx in G. apply (G Hr).
    apply (rank_ge_ext (bz M)); [intros; symmetry; apply Bx; assumption|exact H]. }
  destruct (first_fold n s r B1 B2 M r HM Hge (Nat.le_refl r)) as (H1 & R1 & U1).
  set (M1 := fold_left (first_step n s) (seq 0 r) M) in *.
  assert (Lx : lowx n s r (bz M1)).
  { apply lowx_of_rank; try assumption. intros H. apply Hnge.
    eapply rel_rank_ge; [apply rel_sym; exact R1|exact H]. }
  assert (ST : struct n s r (bz M1)).
  { split; [exact U1|]. split; [exact Lx|].
    split; [eapply rel_commuting; eassumption|eapply rel_indep; eassumption]. }
  unfold standard_normal_form, gauss_first. fold (xblock n M). fold r. rewrite (has_entries_mk (xblock n M)) by lia. cbn [guard bind]. rewrite Z. fold M1.
  unfold gauss_second. pose proof H1 as (W1 & Z1 & C1 & Bn1). rewrite Z1.
  destruct (Nat.eqb_spec r s) as [Er|Er].
  - exists M1. cbn [bind]. split; [reflexivity|]. split; [exact H1|]. split; [exact R1|].
    split; [lia|]. split; [lia|]. split; [exact ST|]. intros i c Hi Hc; lia.
  - assert (Hsn : s <= n) by lia.
    assert (ErE : matrix_rank (slice M1 r s (n + r) (2 * n)) = s - r).
    { rewrite matrix_rank_full; [simpl; lia|apply wf_mk|]. apply indep2_bz; [apply wf_mk|].
      assert (Ez : zr (slice M1 r s (n + r) (2 * n)) = s - r) by (simpl; lia).
      assert (Ec : zc (slice M1 r s (n + r) (2 * n)) = n - r) by (simpl; lia).
      rewrite Ez, Ec. destruct ST as (Su & Sl & Sc & Si).
      pose proof (lower_indep n s r B1 B2 (bz M1) Su Sl Sc Si) as LI.
      intros a Ha. apply LI. intros j Hj. rewrite <- (Ha j Hj). apply xsum_ext; intros i Hi.
      rewrite bz_slice by lia. do 2 f_equal; lia. }
    rewrite has_entries_mk by (simpl; lia). cbn [guard bind]. rewrite ErE. assert (Eb : (Nat.ltb s (n - k) && Nat.ltb 0 (s - r))%bool = false).
    { rewrite <- Hs, Nat.ltb_irrefl; reflexivity. }
    rewrite Eb. cbn [bind]. rewrite <- Hs.
    destruct (swap_fold n s r B1 B2 M1 (s - r) H1 ST ltac:(lia)) as (H2 & R2 & S2).
    set (M2 := fold_left (second_swap_rows n s) (seq r (s - r)) M1) in *.
    destruct (second_fold n s r B1 B2 M2 (s - r) H2 S2 ltac:(lia) Hsn) as (H3 & R3 & S3 & V3).
    exists (fold_left (second_step n s r) (seq r (s - r)) M2).
    split; [reflexivity|]. split; [exact H3|].
    split; [eapply rel_trans; [exact R1|]; eapply rel_trans; [exact R2|exact R3]|].
    split; [lia|]. split; [exact Hsn|]. split; [exact S3|].
    replace s with (r + (s - r)) at 2 by lia. exact V3.
Qed.
