(** C92: what the constructor and the encoder do with generators that are not independent. *)
From Verif Require Import Py ZMat CodesModel RankSpec CodesSpec BoolLin Rank Gauss Gauss2 Logical CodesProofs CodesProofs2 Scalar PauliModel PauliSpec DependSpec PauliProofs PauliProofs2 EncoderProofs.
From Coq Require Import Reals Lra Permutation Classical.
Open Scope nat_scope.

(** ** the constructor *)
Section Weak.
Variables n s r : nat.
Hypothesis Hrs : r <= s.
Hypothesis Hrn : r <= n.

Lemma unit_swap_rows M a b : okm n s M -> unitx s r (bz M) -> r <= a < s -> r <= b < s -> unitx s r (bz (swap_rows M a b)).
Proof.
  intros HM U Ha Hb i c Hi Hc. rewrite (bz_swap_rows n s) by (assumption || lia). rewrite U; [|apply tr_lt; lia|exact Hc]. unfold ZMat.tr; beq.
Qed.
Lemma unit_swap_both M a b : okm n s M -> unitx s r (bz M) -> r <= a < n -> r <= b < n -> unitx s r (bz (swap_both n M a b)).
Proof.
  intros HM U Ha Hb i c Hi Hc. rewrite (bz_swap_both n s) by (assumption || lia). rewrite (lift_tr_low n s r) by assumption. apply U; assumption.
Qed.
Lemma unit_clear M j : okm n s M -> unitx s r (bz M) -> r <= j < s -> j < n -> unitx s r (bz (clear_col (seq r (s - r)) j (n + j) M)).
Proof.
  intros HM U Hj Hn i c Hi Hc.
  rewrite (bz_clear n s) by (try assumption; try lia; try apply seq_NoDup; intros x Hx; apply in_seq in Hx; lia).
  rewrite (U i c), (U j c) by lia. destruct (Nat.eqb_spec j c); [lia|]. rewrite ?xorb_false_l. destruct (_ && _ && _); reflexivity.
Qed.
Lemma unit_step M j : okm n s M -> unitx s r (bz M) -> r <= j < s -> j < n -> unitx s r (bz (second_step n s r M j)).
Proof.
  intros HM U Hj Hn. unfold second_step. destruct (get M j (n + j) =? 0)%Z; [|apply unit_clear; assumption].
  destruct (find _ _) as [c|] eqn:F; [|apply unit_clear; assumption]. apply find_some in F. destruct F as [F _]. apply in_seq in F.
  apply unit_clear; try assumption; [apply ok_swap_both; (assumption || lia)|apply unit_swap_both; (assumption || lia)].
Qed.
Lemma unit_fold M m : okm n s M -> unitx s r (bz M) -> r + m <= s -> s <= n ->
  okm n s (fold_left (second_step n s r) (seq r m) M) /\ unitx s r (bz (fold_left (second_step n s r) (seq r m) M)).
Proof.
  intros HM U. induction m as [|m IH]; intros Hm Hn; [split; assumption|]. destruct IH as (H1 & U1); [lia|lia|].
  rewrite seq_S, fold_left_app. cbn [fold_left]. destruct (ok_rel_step2 n s s r _ (r + m) H1 ltac:(lia) ltac:(lia) ltac:(lia)) as [H2 _].
  split; [exact H2|]. apply unit_step; (assumption || lia).
Qed.
Lemma unit_swaps M m : okm n s M -> unitx s r (bz M) -> r + m <= s ->
  okm n s (fold_left (second_swap_rows n s) (seq r m) M) /\ unitx s r (bz (fold_left (second_swap_rows n s) (seq r m) M)).
Proof.
  intros HM U. induction m as [|m IH]; intros Hm; [split; assumption|]. destruct IH as (H1 & U1); [lia|].
  rewrite seq_S, fold_left_app. cbn [fold_left]. destruct (ok_rel_swap2 n s _ (r + m) H1) as [H2 _]; [lia|]. split; [exact H2|].
  revert H1 U1. generalize (fold_left (second_swap_rows n s) (seq r m) M) as M'. intros M' H1 U1.
  unfold second_swap_rows. destruct (get M' (r + m) (n + (r + m)) =? 0)%Z; [|exact U1].
  destruct (find _ _) as [i|] eqn:F; [|exact U1]. apply find_some in F; destruct F as [F _]; apply in_seq in F.
  apply unit_swap_rows; (assumption || lia).
Qed.
End Weak.

(** the corner of the X block is the identity whenever matrix_rank is the GF(2) rank *)
Lemma corner n k s M : okm n s M -> s = n - k -> 0 < s -> is_rank 2 n (zd (xblock n M)) (matrix_rank (xblock n M)) ->
  exists F, let r := matrix_rank (xblock n M) in standard_normal_form n k M = Ok (F, r) /\ okm n s F /\ r <= s /\ r <= n /\ unitx s r (bz F).
Proof.
  intros HM Hs H0s Hr. pose proof HM as (W & Z & Cc & B). set (r := matrix_rank (xblock n M)) in *.
  destruct (first_rank_bounds n s M HM) as [B1 B2]. fold (xblock n M) in B1, B2. fold r in B1, B2.
  assert (Wx : wf (xblock n M)) by apply wf_mk. assert (Zx : zr (xblock n M) = s) by (simpl; lia). assert (Cx : zc (xblock n M) = n) by (simpl; rewrite Cc; lia).
  assert (Hge : rank_ge (bz M) s n r).
  { apply (rank_ge_ext (bz (xblock n M))); [intros i j Hi Hj; unfold xblock; rewrite bz_slice by lia; reflexivity|].
    pose proof (is_rank2_ge (xblock n M) r Wx) as G. rewrite Cx, Zx in G. exact (G Hr). }
  destruct (first_fold n s r B1 B2 M r HM Hge (Nat.le_refl r)) as (H1 & _ & U1).
  unfold standard_normal_form, gauss_first. fold (xblock n M). fold r. rewrite (has_entries_mk (xblock n M)) by lia. cbn [guard bind]. rewrite Z. set (M1 := fold_left (first_step n s) (seq 0 r) M) in *.
  unfold gauss_second. pose proof H1 as (W1 & Z1 & C1 & Bn1). rewrite Z1. destruct (Nat.eqb_spec r s) as [Er|Er].
  - exists M1. cbn [bind]. auto.
  - assert (Eb : forall x, (Nat.ltb s (n - k) && Nat.ltb 0 x)%bool = false) by (intros x; rewrite <- Hs, Nat.ltb_irrefl; reflexivity).
    rewrite has_entries_mk by (simpl; lia). cbn [guard bind]. rewrite Eb. cbn [bind]. rewrite <- Hs. set (e := matrix_rank (slice M1 r s (n + r) (2 * n))).
    assert (He : e <= s - r). { pose proof (matrix_rank_le (slice M1 r s (n + r) (2 * n)) (wf_mk _ _ _)) as [Q _]. unfold e. etransitivity; [exact Q|]. simpl. lia. }
    destruct (unit_swaps n s r B1 B2 M1 e H1 U1 ltac:(lia)) as (H2 & U2).
    destruct (unit_fold n s r B1 B2 _ e H2 U2 ltac:(lia) ltac:(lia)) as (H3 & U3). eexists. split; [reflexivity|]. auto.
Qed.

Theorem accepts_commuting rows n k : (0 < length rows)%nat -> length rows = n - k -> Forall (fun r => length r = 2 * n) rows -> Forall binary rows -> all_commute n rows ->
  (exists r, is_rank 0 n (x_parts n rows) r /\ is_rank 2 n (x_parts n rows) r /\ exists c, init (Rows rows) n k None = Ok c) \/
  (exists r r', is_rank 0 n (x_parts n rows) r /\ is_rank 2 n (x_parts n rows) r' /\ r' < r /\ init (Rows rows) n k None = Err AssertionError).
Proof.
  intros P L Lr B Cm. destruct rows as [|r0 l]; [simpl in P; lia|].
  assert (Hk : k <= n) by (simpl in L; lia). assert (E0 : length r0 = 2 * n) by (inversion Lr; assumption).
  set (M := ZM (S (length l)) (length r0) (r0 :: l)).
  assert (W : wf M). { split; [reflexivity|]. simpl. rewrite E0. exact Lr. }
  assert (C : zc M = 2 * n) by exact E0.
  pose proof (okm_rows n (r0 :: l) Lr B) as O. change (length (r0 :: l)) with (zr M) in O. rewrite <- E0 in O. change (ZM (zr M) (length r0) (r0 :: l)) with M in O.
  assert (Z : zr M = n - k) by exact L.
  assert (Cmb : commuting n (zr M) (bz M)) by (apply (all_commute_iff n M W); exact Cm).
  assert (EI : init (Rows (r0 :: l)) n k None = init_body M n k None).
  { unfold init. replace (forallb (fun r => length r =? length r0) l) with true.
    2:{ symmetry. apply forallb_forall. rewrite Forall_forall in Lr. intros r Hr. rewrite E0. apply Nat.eqb_eq, Lr. right; exact Hr. }
    rewrite E0, Nat.eqb_refl. simpl in L. rewrite L, Nat.eqb_refl. cbn [assert_ bind]. rewrite <- E0, <- L. reflexivity. }
  assert (ES : is_stabilizer_code M = true) by (apply (is_stab_iff n (zr M) M W eq_refl C); exact Cmb).
  destruct (to_str_ok (r0 :: l) B) as (ps & Eps).
  pose proof (xblock_rank0 n M W C) as R0. pose proof (xblock_rank2 n M W C) as R2. change (zd M) with (r0 :: l) in R0, R2.
  pose proof (rank_2_le_0 _ _ _ _ R2 R0) as Hle.
  destruct (first_rank_bounds n (zr M) M O) as [B1 B2]. fold (xblock n M) in B1, B2.
  rewrite EI. unfold init_body. rewrite ES. cbn [assert_ bind]. change (zd M) with (r0 :: l). rewrite Eps. cbn [bind].
  destruct (Nat.eq_dec (gf2_rank (xblock n M)) (matrix_rank (xblock n M))) as [Eq|Ne].
  - left. exists (matrix_rank (xblock n M)). split; [exact R0|]. rewrite Eq in R2. split; [exact R2|].
    destruct (corner n k (zr M) M O Z ltac:(simpl; lia)) as (F & HF & OF & Q1 & Q2 & U). { rewrite (x_parts_xblock n M W C). exact R2. }
    rewrite HF. cbn [bind]. destruct (logical_ops_ok n k (zr M) (matrix_rank (xblock n M)) F OF Z Hk Q1) as (LX & LZ & EL & _).
    { apply (topleft_of_unit n (zr M)); assumption. }
    rewrite EL. eexists; reflexivity.
  - right. exists (matrix_rank (xblock n M)), (gf2_rank (xblock n M)). split; [exact R0|]. split; [exact R2|]. split; [lia|].
    destruct (snf_exists n k M O ltac:(simpl; lia) Z) as (F & HF). rewrite HF. cbn [bind].
    destruct (normal_form_rel n k (zr M) M F _ O HF) as [OF RF].
    destruct (topleft_identity F (matrix_rank (xblock n M))) eqn:T; [exfalso|unfold logical_operators; rewrite T; reflexivity].
    pose proof (topleft_rank_ge n (zr M) F _ OF B1 B2 T) as G.
    apply rel_sym in RF. apply (rel_rank_ge _ _ _ _ _ RF) in G. assert (Wx : wf (xblock n M)) by apply wf_mk.
    pose proof (is_rank2_not_ge (xblock n M) (gf2_rank (xblock n M)) Wx) as N.
    rewrite (zc_xblock n M C), (x_parts_xblock n M W C) in N. apply (N R2).
    assert (Zx : zr (xblock n M) = zr M) by (simpl; lia). rewrite Zx.
    apply (rank_ge_ext (bz M)). { intros i j Hi Hj. unfold xblock. rewrite bz_slice by (simpl in *; lia). reflexivity. }
    apply (rank_ge_mono _ _ _ (matrix_rank (xblock n M))); [exact G|lia].
Qed.

(** ** the encoder *)
Add Ring CCring40 : (s_rt CC).
Open Scope K_scope.
Section Dim.
Variable n : nat.
Let N := (2 ^ n)%nat.
Notation P := (P n). Notation Q := (Q n). Notation insp := (insp n).

Lemma insp_of_lcomb rows : forall x z c, length c = length rows ->
  (forall j, j < n -> x j = Z.odd (lcomb c rows j) /\ z j = Z.odd (lcomb c rows (n + j))) -> insp rows x z.
Proof.
  induction rows as [|r l IH]; intros x z c Lc H.
  - intros j Hj. destruct (H j Hj) as [-> ->]. destruct c; split; reflexivity.
  - destruct c as [|a c]; [discriminate|]. injection Lc as Lc. cbn [EncoderProofs.insp]. destruct (Z.odd a) eqn:Ea; [right|left]; apply (IH _ _ c Lc); intros j Hj; destruct (H j Hj) as [-> ->]; cbn [lcomb]; rewrite !Z.odd_add, !Z.odd_mul, Ea; cbn [andb]; unfold xp, zp, brow.
    + split; [destruct (Z.odd (nth j r 0%Z)), (Z.odd (lcomb c l j))|destruct (Z.odd (nth (n + j) r 0%Z)), (Z.odd (lcomb c l (n + j)))]; reflexivity.
    + split; [destruct (Z.odd (lcomb c l j))|destruct (Z.odd (lcomb c l (n + j)))]; reflexivity.
Qed.

Lemma indep_cons r sub : indep 2 (2 * n) sub -> ~ insp sub (xp r) (zp n r) -> indep 2 (2 * n) (r :: sub).
Proof.
  intros I NI c Lc H. destruct c as [|a c]; [discriminate|]. injection Lc as Lc. destruct (Z.odd a) eqn:Ea.
  - exfalso. apply NI. apply (insp_of_lcomb sub _ _ c Lc). intros j Hj. unfold xp, zp, brow.
    pose proof (H j ltac:(lia)) as H1. pose proof (H (n + j)%nat ltac:(lia)) as H2. cbn [lcomb] in H1, H2.
    apply divide2_odd in H1, H2. rewrite Z.odd_add, Z.odd_mul, Ea in H1, H2. cbn [andb] in H1, H2.
    split; [destruct (Z.odd (nth j r 0%Z)), (Z.odd (lcomb c sub j))|destruct (Z.odd (nth (n + j) r 0%Z)), (Z.odd (lcomb c sub (n + j)))]; (reflexivity || discriminate).
  - constructor; [apply divide2_odd, Ea|]. apply I; [exact Lc|]. intros j Hj. specialize (H j Hj). cbn [lcomb] in H. apply divide2_odd in H. rewrite Z.odd_add, Z.odd_mul, Ea in H. cbn [andb] in H. rewrite xorb_false_l in H. apply divide2_odd, H.
Qed.

Lemma insp_incl rows l : forall x z, insp l x z -> insp (rows ++ l) x z.
Proof. induction rows as [|r rows IH]; intros x z H; [exact H|]. cbn [app EncoderProofs.insp]. left. apply IH, H. Qed.

(** ordered products of generators *)
Fixpoint prodP (l : list (list Z)) : array CC := match l with [] => eye | r :: l => mm N (P r) (prodP l) end.
Definition neg_eye : array CC := fun i j => - eye i j.

Lemma insp_prod rows : (forall r, In r rows -> is_involution N (P r)) -> forall x z, insp rows x z ->
  exists l s, incl l rows /\ eqm N N (pm n x z) (fun i j => sgn s * prodP l i j).
Proof.
  induction rows as [|r rows IH]; intros I x z H.
  - exists [], false. split; [intros ? []|]. intros i j Hi Hj. rewrite (pm_ext n x z (fun _ => false) (fun _ => false) H i j), pm_id by assumption. cbn [sgn prodP]. ring.
  - specialize (IH (fun r' Hr' => I r' (or_intror Hr'))). destruct H as [H|H].
    + destruct (IH x z H) as (l & s & Hl & E). exists l, s. split; [intros a Ha; right; apply Hl, Ha|exact E].
    + destruct (IH _ _ H) as (l & s & Hl & E). set (b := xsum n (fun l0 => zp n r l0 && x l0)).
      exists (r :: l), (xorb b s). split; [intros a [<-|Ha]; [left; reflexivity|right; apply Hl, Ha]|]. intros i j Hi Hj. cbn [prodP].
      transitivity (mm N (mm N (P r) (P r)) (pm n x z) i j).
      { rewrite (mm_congr_l N N (mm N (P r) (P r)) eye) by (first [exact Hi|exact (I r (or_introl eq_refl))]). rewrite mm_eye_l by exact Hi. reflexivity. }
      rewrite mm_assoc. transitivity (mm N (P r) (fun a c => sgn (xorb b s) * prodP l a c) i j); [|apply mm_scale_r].
      apply mm_congr_r. intros t Ht. unfold EncoderProofs.P at 1. rewrite (pm_mul n) by assumption. fold b.
      rewrite (pm_ext n _ _ (fun l0 => xorb (x l0) (xp r l0)) (fun l0 => xorb (z l0) (zp n r l0))) by (intros q Hq; split; apply xorb_comm).
      rewrite E by assumption. destruct b, s; cbn [sgn xorb]; ring.
Qed.

Lemma prod_fixed (A : array CC) c l : (forall r, In r l -> eqm N c (mm N (P r) A) A) -> eqm N c (mm N (prodP l) A) A.
Proof.
  induction l as [|r l IH]; intros H i j Hi Hj; cbn [prodP]; [apply mm_eye_l; exact Hi|].
  rewrite mm_assoc. rewrite (mm_congr_r N (P r) _ A) by (intros t Ht; apply IH; [intros r' Hr'; apply H; right; exact Hr'|exact Ht|exact Hj]).
  apply H; [left; reflexivity|exact Hi|exact Hj].
Qed.

Lemma tr_Q_pos sub rest : (forall r, In r (rest ++ sub) -> is_involution N (P r)) ->
  (forall r r', In r (rest ++ sub) -> In r' (rest ++ sub) -> eqm N N (mm N (P r) (P r')) (mm N (P r') (P r))) ->
  indep 2 (2 * n) sub -> (forall r, In r rest -> insp sub (xp r) (zp n r)) ->
  (forall l, incl l (rest ++ sub) -> ~ eqm N N (prodP l) neg_eye) ->
  tr N (Q (rest ++ sub)) = rc (2 ^ length rest) * rc (INR N).
Proof.
  intros I C D S NM. induction rest as [|r rest IH].
  - cbn [app length pow]. unfold N at 1. rewrite tr_Q by (apply indep_indp, D). rewrite bsum_ones, rc_1. fold N. ring.
  - destruct (insp_prod sub) with (x := xp r) (z := zp n r) as (l & s & Hl & E); [intros r' Hr'; apply I; right; apply in_or_app; right; exact Hr'|apply S; left; reflexivity|].
    destruct s; cbn [sgn] in E.
    + exfalso. apply (NM (r :: l)). { intros a [<-|Ha]; [left; reflexivity|right; apply in_or_app; right; apply Hl, Ha]. }
      intros i j Hi Hj. cbn [prodP]. rewrite (mm_congr_r N (P r) (prodP l) (fun a b => - (1) * P r a b)).
      * rewrite mm_scale_r, (I r (or_introl eq_refl)) by assumption. unfold neg_eye. ring.
      * intros t Ht. unfold EncoderProofs.P. rewrite E by assumption. ring.
    + assert (FX : eqm N N (mm N (P r) (Q (rest ++ sub))) (Q (rest ++ sub))).
      { intros i j Hi Hj. rewrite (mm_congr_l N N (P r) (prodP l)) by (first [exact Hi|intros a b Ha Hb; unfold EncoderProofs.P; rewrite E by assumption; ring]).
        apply (prod_fixed (Q (rest ++ sub)) N); [|exact Hi|exact Hj]. intros r' Hr'. apply Q_fixed; [intros a Ha; apply I; right; exact Ha|intros a b Ha Hb; apply C; right; assumption|apply in_or_app; right; apply Hl, Hr']. }
      cbn [app EncoderProofs.Q]. rewrite (tr_eqm N _ (fun i j => (1 + 1) * Q (rest ++ sub) i j)).
      2:{ intros i j Hi Hj. rewrite FX by assumption. ring. }
      rewrite tr_scale, IH.
      * cbn [length pow]. rewrite <- rc_mul. replace (rc 2) with (1 + 1 : CC) by (apply CC_eq; cbn; lra). ring.
      * intros r' Hr'; apply I; right; exact Hr'.
      * intros a b Ha Hb; apply C; right; assumption.
      * intros r' Hr'; apply S; right; exact Hr'.
      * intros l' Hl'. apply NM. intros a Ha. right. apply Hl', Ha.
Qed.

Lemma spans_dim_pos rows m E s : (forall r, In r rows -> is_involution N (P r)) ->
  (forall r r', In r rows -> In r' rows -> eqm N N (mm N (P r) (P r')) (mm N (P r') (P r))) ->
  is_rank 2 (2 * n) rows s -> spans N (map P rows) m E -> (forall l, incl l rows -> ~ eqm N N (prodP l) neg_eye) -> (2 ^ s * m = 2 ^ n)%nat.
Proof.
  intros I C ((sub & rest & PM & Ls & D) & MX) SP NM.
  assert (PM' : Permutation rows (rest ++ sub)) by (rewrite PM; apply Permutation_app_comm).
  assert (IN : forall r, In r (rest ++ sub) <-> In r rows) by (intros r; split; apply Permutation_in; [symmetry|]; exact PM').
  assert (S : forall r, In r rest -> insp sub (xp r) (zp n r)).
  { intros r Hr. destruct (classic (insp sub (xp r) (zp n r))) as [H|H]; [exact H|exfalso]. destruct (in_split _ _ Hr) as (l1 & l2 & ->).
    assert (B : (length (r :: sub) <= s)%nat); [|cbn [length] in B; lia]. apply (MX (r :: sub) (l1 ++ l2)); [|apply indep_cons; assumption].
    rewrite PM. transitivity ((l1 ++ r :: l2) ++ sub); [apply Permutation_app_comm|]. rewrite <- app_assoc. cbn [app]. rewrite <- Permutation_middle. constructor. rewrite app_assoc. apply Permutation_app_comm. }
  assert (SP' : spans N (map P (rest ++ sub)) m E).
  { apply (spans_ext N (map P rows) _ m E E); [apply eqm_refl| |exact SP]. intros T. rewrite !in_map_iff. split; intros (r & E1 & Hr); exists r; (split; [exact E1|apply IN, Hr]). }
  destruct SP' as (H1 & H2 & H3). set (R := rest ++ sub) in *.
  assert (I' : forall r, In r R -> is_involution N (P r)) by (intros r Hr; apply I, IN, Hr).
  assert (C' : forall r r', In r R -> In r' R -> eqm N N (mm N (P r) (P r')) (mm N (P r') (P r))) by (intros r r' Hr Hr'; apply C; apply IN; assumption).
  assert (T2 : tr N (Q R) = rc (2 ^ length R) * rc (INR m)).
  { rewrite (tr_eqm N (Q R) (mm m E (mm N (adj E) (Q R)))).
    - rewrite tr_mm. rewrite (tr_eqm m _ (mm N (adj E) (mm N (Q R) E))) by (intros i j _ _; apply mm_assoc).
      rewrite (tr_eqm m _ (fun i j => rc (2 ^ length R) * mm N (adj E) E i j)).
      + rewrite tr_scale, (tr_eqm m _ eye) by exact H1. f_equal. unfold tr, eye. rewrite <- bsum_ones. apply bsum_ext; intros i _. rewrite Nat.eqb_refl. reflexivity.
      + intros i j Hi Hj. transitivity (mm N (adj E) (fun i j => rc (2 ^ length R) * E i j) i j).
        * apply mm_congr_r. intros t Ht. apply (Q_E n R m E); [|exact Ht|exact Hj]. intros r Hr. apply H2, in_map, Hr.
        * apply mm_scale_r.
    - intros i j Hi Hj. symmetry. apply H3; [|exact Hi]. intros T HT i' Hi'. apply in_map_iff in HT. destruct HT as (r & <- & Hr).
      apply (Q_fixed n R I' C' r Hr); assumption. }
  assert (P2 : forall a, (0 < 2 ^ a)%R) by (intros a; apply pow_lt; lra).
  pose proof (tr_Q_pos sub rest I' C' D S) as T1. fold R in T1. rewrite T1 in T2 by (intros l Hl; apply NM; intros a Ha; apply IN, Hl, Ha). clear T1. rewrite !rc_mul in T2.
  apply rc_inj in T2. unfold R in T2. rewrite app_length, pow_add, Ls in T2. rewrite Rmult_assoc in T2. apply Rmult_eq_reg_l in T2; [|pose proof (P2 (length rest)); lra].
  apply INR_eq. rewrite mult_INR, pow_INR. unfold N in T2. cbn [INR] in *. symmetry. exact T2.
Qed.

Lemma spans_neg rows m E l : spans N (map P rows) m E -> incl l rows -> eqm N N (prodP l) neg_eye -> m = O.
Proof.
  intros (H1 & H2 & _) Hl NG. destruct m as [|m]; [reflexivity|exfalso].
  assert (Z0 : forall i, (i < N)%nat -> E i O = 0).
  { intros i Hi. assert (X : mm N (prodP l) E i O = E i O) by (apply (prod_fixed E (S m)); [intros r Hr; apply H2, in_map, Hl, Hr|exact Hi|lia]).
    rewrite (mm_congr_l N N (prodP l) (fun a b => - (1) * eye a b)) in X by (first [exact Hi|intros a b Ha Hb; rewrite NG by assumption; unfold neg_eye; ring]).
    rewrite mm_scale_l, mm_eye_l in X by exact Hi. assert (Y : (E i O : CC) + E i O = 0) by (rewrite <- X at 1; ring).
    apply CC_eq; [apply (f_equal fst) in Y|apply (f_equal snd) in Y]; cbn in Y |- *; lra. }
  assert (X : mm N (adj E) E O O = eye O O) by (apply H1; lia). unfold mm, eye in X. rewrite bsum_zero in X.
  - cbn [Nat.eqb] in X. apply (f_equal fst) in X. cbn in X. lra.
  - intros t Ht. rewrite (Z0 t Ht). ring.
Qed.
End Dim.

Lemma prod_lift n rows (Ss : list (marr CC)) : Forall2 (fun r S => mr S = (2 ^ n)%nat /\ mc S = (2 ^ n)%nat /\ eqm (2 ^ n) (2 ^ n) (me S) (P n r)) rows Ss ->
  (forall l, incl l rows -> exists l', incl l' Ss /\ eqm (2 ^ n) (2 ^ n) (matrix_product (2 ^ n) (map me l')) (prodP n l)) /\
  (forall l', incl l' Ss -> exists l, incl l rows /\ eqm (2 ^ n) (2 ^ n) (matrix_product (2 ^ n) (map me l')) (prodP n l)).
Proof.
  intros F.
  assert (F1 : forall r, In r rows -> exists S, In S Ss /\ eqm (2 ^ n) (2 ^ n) (me S) (P n r)).
  { induction F as [|r0 S rows Ss H F IH]; intros r Hr; [destruct Hr|]. destruct Hr as [->|Hr].
    - exists S. split; [left; reflexivity|apply H].
    - destruct (IH r Hr) as (S' & HS' & HE'). exists S'. split; [right; exact HS'|exact HE']. }
  assert (F2 : forall S, In S Ss -> exists r, In r rows /\ eqm (2 ^ n) (2 ^ n) (me S) (P n r)).
  { clear F1. induction F as [|r0 S rows Ss H F IH]; intros S' Hr; [destruct Hr|]. destruct Hr as [->|Hr].
    - exists r0. split; [left; reflexivity|apply H].
    - destruct (IH S' Hr) as (r & HS' & HE'). exists r. split; [right; exact HS'|exact HE']. }
  split.
  - induction l as [|r l IH]; intros Hl.
    + exists []. split; [intros ? []|apply eqm_refl].
    + destruct (IH (fun a Ha => Hl a (or_intror Ha))) as (l' & Hl' & E). destruct (F1 r (Hl r (or_introl eq_refl))) as (S & HS & ES).
      exists (S :: l'). split; [intros a [<-|Ha]; [exact HS|apply Hl', Ha]|]. cbn [map matrix_product fold_right prodP]. apply mm_eqm; [exact ES|exact E].
  - induction l' as [|S l' IH]; intros Hl.
    + exists []. split; [intros ? []|apply eqm_refl].
    + destruct (IH (fun a Ha => Hl a (or_intror Ha))) as (l & Hl' & E). destruct (F2 S (Hl S (or_introl eq_refl))) as (r & HS & ES).
      exists (r :: l). split; [intros a [<-|Ha]; [exact HS|apply Hl', Ha]|]. cbn [map matrix_product fold_right prodP]. apply mm_eqm; [exact ES|exact E].
Qed.

Theorem encoder_dimension eigh g n k ops c s : eigh_ok eigh -> init g n k ops = Ok c -> (1 <= n)%nat -> Forall binary (zd (stab c)) -> Forall (fun r => Nat.even (y_count n r) = true) (zd (stab c)) ->
  is_rank 2 (2 * n) (zd (stab c)) s ->
  exists (Ss : list (marr CC)) m E, binary_rep_to_pauli_mat (stab c) = Ok Ss /\ encode_krauss_operators eigh c = Ok (MA (2 ^ n) m E) /\
    ((exists l, incl l Ss /\ eqm (2 ^ n) (2 ^ n) (matrix_product (2 ^ n) (map me l)) (fun i j => - eye i j)) -> m = O) /\
    (~ (exists l, incl l Ss /\ eqm (2 ^ n) (2 ^ n) (matrix_product (2 ^ n) (map me l)) (fun i j => - eye i j)) -> (2 ^ s * m = 2 ^ n)%nat).
Proof.
  intros EO I Hn B Y RK. destruct (encoder_isometry eigh g n k ops c EO I Hn B Y) as (Ss & m & E & EB & EN & H1 & H2 & H3 & _).
  exists Ss, m, E. split; [exact EB|]. split; [exact EN|]. destruct (init_inv _ _ _ _ _ I) as (M & W & _ & ZC & ES & Hk & Hp & _).
  pose proof (init_commutes _ _ _ _ _ I) as C. rewrite ES in *.
  assert (L : Forall (fun r => length r = (2 * n)%nat) (zd M)) by (destruct W as [_ W]; rewrite ZC in W; exact W).
  destruct (rowmats (K := CC) n (zd M) Hn L B) as (Ss' & EM & F).
  assert (Ss' = Ss) by (unfold binary_rep_to_pauli_mat in EB; rewrite ZC, CodesProofs.div2_double, EM in EB; congruence). subst Ss'.
  assert (FG : forall S, In S Ss -> exists r, In r (zd M) /\ mr S = (2 ^ n)%nat /\ mc S = (2 ^ n)%nat /\ eqm (2 ^ n) (2 ^ n) (me S) (P n r)).
  { clear -F. induction F as [|r S rows Ss H F IH]; intros S' [].
    - subst. exists r. split; [left; reflexivity|exact H].
    - destruct (IH S' H0) as (r' & Hr' & H'). exists r'. split; [right; exact Hr'|exact H']. }
  assert (PG : forall r, In r (zd M) -> is_involution (2 ^ n) (P n r)).
  { intros r Hr. rewrite Forall_forall in L, B, Y. destruct (pauli_square (K := CC) n r Hn (L r Hr) (B r Hr)) as (A & EA & U & SQ & HH).
    assert (HA : eqm (2 ^ n) (2 ^ n) A (P n r)).
    { destruct (pauli_row_mat_spec (K := CC) n r Hn (L r Hr) (B r Hr)) as (A' & EA' & HA').
      unfold binary_rep_to_pauli_mat in EA. cbn [zc zd mapM] in EA. rewrite CodesProofs.div2_double, EA' in EA. cbn in EA. injection EA as <-. exact HA'. }
    rewrite (Y r Hr) in SQ, HH. intros i j Hi Hj. rewrite <- (mm_eqm _ _ _ A (P n r) A (P n r) HA HA i j Hi Hj). rewrite SQ by assumption. unfold scale. ring. }
  assert (PC : forall r r', In r (zd M) -> In r' (zd M) -> eqm (2 ^ n) (2 ^ n) (mm (2 ^ n) (P n r) (P n r')) (mm (2 ^ n) (P n r') (P n r))).
  { intros r r' Hr Hr' i j Hi Hj. rewrite (commute_sign n r r' (P n r) (P n r') (eqm_refl _ _ _) (eqm_refl _ _ _) i j Hi Hj).
    unfold scale. assert (E0 : ip n (brow r) (brow r') = false) by (apply commute_ip, C; assumption). rewrite E0. cbn [sgn]. ring. }
  assert (SP : spans (2 ^ n) (map (P n) (zd M)) m E).
  { split; [exact H1|]. split.
    - intros S HS. apply in_map_iff in HS. destruct HS as (r & <- & Hr).
      assert (exists S, In S Ss /\ eqm (2 ^ n) (2 ^ n) (me S) (P n r)) as (S & HS & HE).
      { clear -F Hr. induction F as [|r0 S rows Ss H F IH]; [destruct Hr|]. destruct Hr as [->|Hr].
        - exists S. split; [left; reflexivity|apply H].
        - destruct (IH Hr) as (S' & HS' & HE'). exists S'. split; [right; exact HS'|exact HE']. }
      eapply eqm_trans; [apply mm_eqm; [apply eqm_sym; exact HE|apply eqm_refl]|]. apply H2, HS.
    - intros W' j HW i Hi. apply (H3 (fun l => W' l j)); [|exact Hi]. intros S HS i' Hi'.
      destruct (FG S HS) as (r & Hr & _ & _ & HE). pose proof (HW (P n r) (in_map _ _ _ Hr) i' Hi') as X. rewrite <- X.
      apply (mm_congr_l (2 ^ n) (2 ^ n) (me S) (P n r)); assumption. }
  destruct (prod_lift n (zd M) Ss F) as [PL1 PL2]. split.
  - intros (l & Hl & NG). destruct (PL2 l Hl) as (l' & Hl' & E'). apply (spans_neg n (zd M) m E l' SP Hl'). eapply eqm_trans; [apply eqm_sym; exact E'|exact NG].
  - intros NO. apply (spans_dim_pos n (zd M) m E s PG PC RK SP). intros l Hl NG. apply NO. destruct (PL1 l Hl) as (l' & Hl' & E'). exists l'. split; [exact Hl'|]. eapply eqm_trans; [exact E'|exact NG].
Qed.
