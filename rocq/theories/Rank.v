(** The elimination of CodesModel.matrix_rank computes the rank of RankSpec. *)
From Verif Require Import Py ZMat CodesModel RankSpec BoolLin.
From Coq Require Import Permutation Znumtheory.
Open Scope Z_scope.

Lemma is_rank_unique m nc rows r r' : is_rank m nc rows r -> is_rank m nc rows r' -> r = r'.
Proof.
  intros [(s & t & P & L & I) U] [(s' & t' & P' & L' & I') U'].
  apply Nat.le_antisymm; [subst r; apply (U' s t P I)|subst r'; apply (U s' t' P' I')].
Qed.

Lemma lcomb_perm rows rows' : Permutation rows rows' -> forall c', length c' = length rows' ->
  exists c, length c = length rows /\ Permutation c c' /\ forall j, lcomb c rows j = lcomb c' rows' j.
Proof.
  induction 1 as [|x l l' HP IH|x y l|l1 l2 l3 H1 IH1 H2 IH2]; intros c' L.
  - exists c'; auto.
  - destruct c' as [|a c']; [discriminate|]. simpl in L; injection L as L.
    destruct (IH c' L) as (c & Lc & Pc & E). exists (a :: c); simpl; split; [lia|].
    split; [constructor; exact Pc|]. intros j; rewrite E; reflexivity.
  - destruct c' as [|a [|b c']]; try discriminate. exists (b :: a :: c'); simpl in *.
    split; [lia|]. split; [constructor|]. intros; lia.
  - destruct (IH2 c' L) as (c2 & L2 & P2 & E2). destruct (IH1 c2 L2) as (c1 & L1' & P1 & E1).
    exists c1; split; [exact L1'|]. split; [transitivity c2; assumption|].
    intros j; rewrite E1; apply E2.
Qed.

Lemma indep_perm m nc rows rows' : Permutation rows rows' -> indep m nc rows -> indep m nc rows'.
Proof.
  intros P I c' L H. destruct (lcomb_perm rows rows' P c' L) as (c & Lc & Pc & E).
  assert (F : Forall (Z.divide m) c) by (apply I; [exact Lc|intros j Hj; rewrite E; apply H; exact Hj]).
  rewrite Forall_forall in *. intros x Hx; apply F.
  apply Permutation_in with c'; [apply Permutation_sym; exact Pc|exact Hx].
Qed.

Lemma lcomb_tl c rows j : lcomb c (map (@tl Z) rows) j = lcomb c rows (S j).
Proof.
  revert rows; induction c as [|x c IH]; intros [|r rows]; simpl; try reflexivity.
  rewrite IH. destruct r; simpl; [destruct j|]; reflexivity.
Qed.

Lemma hd_nth (q : list Z) : hd 0 q = nth 0 q 0.
Proof. destruct q; reflexivity. Qed.

Lemma nth_reduce p q c j : length p = S c -> length q = S c -> (j < c)%nat ->
  nth j (reduce p q) 0 = hd 0 p * nth (S j) q 0 - hd 0 q * nth (S j) p 0.
Proof.
  intros Lp Lq Hj. unfold reduce. destruct p as [|a p]; [discriminate|]. destruct q as [|b q]; [discriminate|].
  simpl in *. injection Lp as Lp; injection Lq as Lq.
  set (g := fun xy : Z * Z => a * snd xy - b * fst xy).
  change (map _ (combine p q)) with (map g (combine p q)).
  rewrite (nth_indep _ 0 (g (0, 0))) by (rewrite map_length, combine_length; lia).
  rewrite map_nth, combine_nth by lia. reflexivity.
Qed.

Lemma length_reduce p q c : length p = S c -> length q = S c -> length (reduce p q) = c.
Proof.
  intros Lp Lq; unfold reduce; rewrite map_length, combine_length.
  destruct p, q; simpl in *; lia.
Qed.

Lemma lcomb_reduce c p nc rows j : length p = S nc -> Forall (fun q => length q = S nc) rows -> (j < nc)%nat ->
  lcomb c (map (reduce p) rows) j = hd 0 p * lcomb c rows (S j) - lcomb c rows 0 * nth (S j) p 0.
Proof.
  intros Lp F Hj; revert rows F; induction c as [|x c IH]; intros [|q rows] F; cbn [lcomb map]; try lia.
  apply Forall_cons_iff in F; destruct F as [Lq F]. rewrite IH by exact F.
  rewrite (nth_reduce p q nc) by assumption. rewrite (hd_nth q). ring.
Qed.

Lemma lcomb_scale a c rows j : lcomb (map (Z.mul a) c) rows j = a * lcomb c rows j.
Proof. revert rows; induction c as [|x c IH]; intros [|r rows]; cbn [lcomb map]; try lia. rewrite IH; ring. Qed.

Lemma lcomb_lin a b c d rows j : length c = length d ->
  lcomb (map (fun xy => a * fst xy - b * snd xy) (combine c d)) rows j = a * lcomb c rows j - b * lcomb d rows j.
Proof.
  revert d rows; induction c as [|x c IH]; intros [|y d] [|r rows] L; cbn [lcomb map combine]; try discriminate; try lia.
  simpl in L; injection L as L. rewrite IH by exact L. cbn [fst snd]. ring.
Qed.

Section Mod.
Variable m : Z.
Variable test : Z -> bool.
Hypothesis Htest : forall x, test x = true <-> (m | x).
Hypothesis Hprime : forall a b, (m | a * b) -> (m | a) \/ (m | b).

Fixpoint split_t (rows : list (list Z)) : option (list Z * list (list Z)) :=
  match rows with
  | [] => None
  | p :: r => if test (hd 0 p)
              then match split_t r with
                   | Some (q, others) => Some (q, p :: others)
                   | None => None
                   end
              else Some (p, r)
  end.
Fixpoint rank_t (c : nat) (rows : list (list Z)) : nat :=
  match c with
  | O => O
  | S c' => match split_t rows with
            | None => rank_t c' (map (@tl Z) rows)
            | Some (p, others) => S (rank_t c' (map (reduce p) others))
            end
  end.

Lemma split_none rows : split_t rows = None -> Forall (fun q => (m | hd 0 q)) rows.
Proof.
  induction rows as [|p r IH]; simpl; intros H; [constructor|].
  destruct (test (hd 0 p)) eqn:E; [|discriminate].
  destruct (split_t r) as [[q o]|]; [discriminate|].
  constructor; [apply Htest; exact E|apply IH; reflexivity].
Qed.
Lemma split_some rows p others : split_t rows = Some (p, others) ->
  Permutation rows (p :: others) /\ ~ (m | hd 0 p).
Proof.
  revert p others; induction rows as [|q r IH]; simpl; intros p others H; [discriminate|].
  destruct (test (hd 0 q)) eqn:E.
  - destruct (split_t r) as [[q' o]|]; [|discriminate]. inversion H; subst.
    destruct (IH p o eq_refl) as [P N]; split; [|exact N].
    rewrite P; apply perm_swap.
  - inversion H; subst; split; [reflexivity|]. rewrite <- Htest, E; discriminate.
Qed.

Lemma D_add a b : (m | a) -> (m | b) -> (m | a + b).
Proof. apply Z.divide_add_r. Qed.
Lemma D_sub a b : (m | a) -> (m | b) -> (m | a - b).
Proof. apply Z.divide_sub_r. Qed.
Lemma D_mul a b : (m | b) -> (m | a * b).
Proof. apply Z.divide_mul_r. Qed.
Lemma D_cancel a b : ~ (m | a) -> (m | a * b) -> (m | b).
Proof. intros N H; destruct (Hprime a b H); [contradiction|assumption]. Qed.

Lemma lcomb_head_D c rows : Forall (fun q => (m | hd 0 q)) rows -> (m | lcomb c rows 0).
Proof.
  intros F; revert c; induction F as [|q rows Hq F IH]; intros [|x c]; cbn [lcomb]; try apply Z.divide_0_r.
  apply D_add; [rewrite <- hd_nth; apply D_mul; exact Hq|apply IH].
Qed.

Lemma indep_tl nc rows : Forall (fun q => (m | hd 0 q)) rows ->
  (indep m (S nc) rows <-> indep m nc (map (@tl Z) rows)).
Proof.
  intros F; split; intros I c L H.
  - apply I; [rewrite map_length in L; exact L|]. intros [|j] Hj; [apply lcomb_head_D; exact F|].
    rewrite <- lcomb_tl; apply H; lia.
  - apply I; [rewrite map_length; exact L|]. intros j Hj; rewrite lcomb_tl; apply H; lia.
Qed.

Lemma indep_cons_reduce nc p s : length p = S nc -> Forall (fun q => length q = S nc) s -> ~ (m | hd 0 p) ->
  (indep m (S nc) (p :: s) <-> indep m nc (map (reduce p) s)).
Proof.
  intros Lp F N; split; intros I c L H.
  - rewrite map_length in L.
    assert (G : Forall (Z.divide m) (- lcomb c s 0 :: map (Z.mul (hd 0 p)) c)).
    { apply I; [simpl; rewrite map_length; lia|]. intros j Hj. cbn [lcomb]. rewrite lcomb_scale.
      destruct j as [|j]; [rewrite <- hd_nth|].
      - replace (_ + _) with 0 by ring. apply Z.divide_0_r.
      - specialize (H j ltac:(lia)). rewrite (lcomb_reduce c p nc) in H by (assumption || lia).
        replace (_ + _) with (hd 0 p * lcomb c s (S j) - lcomb c s 0 * nth (S j) p 0) by ring. exact H. }
    apply Forall_cons_iff in G; destruct G as [_ G]. rewrite Forall_map in G.
    eapply Forall_impl; [|exact G]. intros x Hx; apply (D_cancel (hd 0 p)); assumption.
  - destruct c as [|x c]; [discriminate|]. simpl in L; injection L as L. cbn [lcomb] in H.
    assert (G : Forall (Z.divide m) c).
    { apply I; [rewrite map_length; exact L|]. intros j Hj. rewrite (lcomb_reduce c p nc) by (assumption || lia).
      generalize (H 0%nat ltac:(lia)) (H (S j) ltac:(lia)). rewrite <- hd_nth. intros H0 Hj'.
      replace (_ - _) with (hd 0 p * (x * nth (S j) p 0 + lcomb c s (S j)) - nth (S j) p 0 * (x * hd 0 p + lcomb c s 0))
        by ring.
      apply D_sub; apply D_mul; assumption. }
    constructor; [|exact G].
    assert (G0 : (m | lcomb c s 0)).
    { clear - G. revert s; induction G as [|y c Hy G IH]; intros [|q s]; cbn [lcomb]; try apply Z.divide_0_r.
      apply D_add; [rewrite Z.mul_comm; apply D_mul; exact Hy|apply IH]. }
    generalize (H 0%nat ltac:(lia)). rewrite <- hd_nth; intros H0.
    apply (D_cancel (hd 0 p)); [exact N|].
    replace (hd 0 p * x) with ((x * hd 0 p + lcomb c s 0) - lcomb c s 0) by ring. apply D_sub; assumption.
Qed.

Lemma nontriv_split c s : length c = length s -> ~ Forall (Z.divide m) c ->
  exists x c' q s', ~ (m | x) /\ Permutation s (q :: s') /\ length c' = length s' /\
    forall j, lcomb c s j = x * nth j q 0 + lcomb c' s' j.
Proof.
  revert s; induction c as [|x c IH]; intros [|q s] L N; try discriminate.
  - exfalso; apply N; constructor.
  - simpl in L; injection L as L. destruct (Zdivide_dec m x) as [Hx|Hx].
    + destruct (IH s L) as (y & c' & q' & s' & Ny & P & L' & E).
      { intros F; apply N; constructor; assumption. }
      exists y, (x :: c'), q', (q :: s'). split; [exact Ny|]. split; [rewrite P; apply perm_swap|].
      split; [simpl; lia|]. intros j; cbn [lcomb]; rewrite E; ring.
    + exists x, c, q, s. split; [exact Hx|]. split; [reflexivity|]. split; [exact L|]. reflexivity.
Qed.

Lemma indep_drop nc p q s x c' : length p = S nc -> length q = S nc -> Forall (fun q => length q = S nc) s ->
  ~ (m | hd 0 p) -> ~ (m | x) -> length c' = length s ->
  indep m (S nc) (q :: s) ->
  (forall j, (j < nc)%nat ->
     (m | hd 0 p * (x * nth (S j) q 0 + lcomb c' s (S j)) - (x * nth 0 q 0 + lcomb c' s 0) * nth (S j) p 0)) ->
  indep m nc (map (reduce p) s).
Proof.
  intros Lp Lq F Np Nx L I H d Ld Hd. rewrite map_length in Ld.
  set (Lf := fun j => x * nth j q 0 + lcomb c' s j) in *.
  assert (HL : forall j, (j < S nc)%nat -> (m | hd 0 p * Lf j - Lf 0%nat * nth j p 0)).
  { intros [|j] Hj; [rewrite <- hd_nth; replace (_ - _) with 0 by ring; apply Z.divide_0_r|].
    apply H; lia. }
  assert (HK : forall j, (j < S nc)%nat -> (m | hd 0 p * lcomb d s j - lcomb d s 0 * nth j p 0)).
  { intros [|j] Hj; [rewrite <- hd_nth; replace (_ - _) with 0 by ring; apply Z.divide_0_r|].
    rewrite <- (lcomb_reduce d p nc) by (assumption || lia). apply Hd; lia. }
  assert (HQ : forall j, (j < S nc)%nat -> (m | lcomb d s 0 * Lf j - Lf 0%nat * lcomb d s j)).
  { intros j Hj. apply (D_cancel (hd 0 p)); [exact Np|].
    replace (_ * _) with (lcomb d s 0 * (hd 0 p * Lf j - Lf 0%nat * nth j p 0)
                          - Lf 0%nat * (hd 0 p * lcomb d s j - lcomb d s 0 * nth j p 0)) by ring.
    apply D_sub; apply D_mul; [apply HL|apply HK]; exact Hj. }
  assert (HN : ~ (m | Lf 0%nat)).
  { intros H0. assert (G : Forall (Z.divide m) (x :: c')).
    { apply I; [simpl; lia|]. intros j Hj. cbn [lcomb]. change (m | Lf j).
      apply (D_cancel (hd 0 p)); [exact Np|].
      replace (hd 0 p * Lf j) with ((hd 0 p * Lf j - Lf 0%nat * nth j p 0) + nth j p 0 * Lf 0%nat) by ring.
      apply D_add; [apply HL; exact Hj|apply D_mul; exact H0]. }
    apply Forall_cons_iff in G; destruct G as [G _]; contradiction. }
  set (K0 := lcomb d s 0) in *.
  assert (G : Forall (Z.divide m) (K0 * x :: map (fun xy => K0 * fst xy - Lf 0%nat * snd xy) (combine c' d))).
  { apply I; [simpl; rewrite map_length, combine_length; lia|]. intros j Hj. cbn [lcomb].
    rewrite lcomb_lin by lia. generalize (HQ j Hj); unfold Lf at 1.
    replace (K0 * (x * nth j q 0 + lcomb c' s j) - Lf 0%nat * lcomb d s j)
      with (K0 * x * nth j q 0 + (K0 * lcomb c' s j - Lf 0%nat * lcomb d s j)) by ring. auto. }
  apply Forall_cons_iff in G; destruct G as [G0 G].
  assert (HK0 : (m | K0)) by (apply (D_cancel x); [exact Nx|rewrite Z.mul_comm; exact G0]).
  rewrite Forall_forall in G |- *. intros y Hy.
  apply (D_cancel (Lf 0%nat)); [exact HN|].
  destruct (In_nth d y 0 Hy) as (i & Hi & Ei).
  assert (HG : (m | K0 * nth i c' 0 - Lf 0%nat * y)).
  { apply G. apply in_map_iff. exists (nth i c' 0, y); split; [reflexivity|].
    rewrite <- Ei, <- combine_nth by lia. apply nth_In. rewrite combine_length; lia. }
  replace (Lf 0%nat * y) with (nth i c' 0 * K0 - (K0 * nth i c' 0 - Lf 0%nat * y)) by ring.
  apply D_sub; [apply D_mul; exact HK0|exact HG].
Qed.

Lemma Forall_perm {A} (P : A -> Prop) l l' : Permutation l l' -> Forall P l -> Forall P l'.
Proof.
  intros HP F; rewrite Forall_forall in *; intros x Hx; apply F.
  apply Permutation_in with l'; [apply Permutation_sym; exact HP|exact Hx].
Qed.

Lemma is_rank_perm nc rows rows' r : Permutation rows rows' -> is_rank m nc rows r -> is_rank m nc rows' r.
Proof.
  intros P [(s & t & Ps & L & I) U]; split.
  - exists s, t; split; [transitivity rows; [apply Permutation_sym; exact P|exact Ps]|auto].
  - intros s' t' P' I'. apply (U s' t'); [transitivity rows'; assumption|exact I'].
Qed.

Hypothesis Hunit : ~ (m | 1).

Theorem rank_t_spec nc : forall rows, Forall (fun q => length q = nc) rows -> is_rank m nc rows (rank_t nc rows).
Proof.
  induction nc as [|nc IH]; intros rows F; cbn [rank_t].
  - split; [exists [], rows; split; [reflexivity|]; split; [reflexivity|]|].
    + intros [|x c] L H; [constructor|discriminate].
    + intros [|q s] t P I; [simpl; lia|]. exfalso.
      assert (G : Forall (Z.divide m) (1 :: map (fun _ => 1) s)).
      { apply I; [simpl; rewrite map_length; reflexivity|intros; lia]. }
      apply Forall_cons_iff in G; destruct G as [G1 _]. contradiction.
  - destruct (split_t rows) as [[p others]|] eqn:E.
    + apply split_some in E; destruct E as [P Np].
      apply (is_rank_perm _ (p :: others)); [apply Permutation_sym; exact P|].
      assert (F' : Forall (fun q => length q = S nc) (p :: others)) by (apply (Forall_perm _ rows); assumption).
      apply Forall_cons_iff in F'; destruct F' as [Lp Fo].
      assert (FR : Forall (fun q => length q = nc) (map (reduce p) others)).
      { rewrite Forall_map. eapply Forall_impl; [|exact Fo]. intros q Hq; apply (length_reduce p q nc); assumption. }
      destruct (IH _ FR) as [(s & t & Ps & Ls & Is) U].
      set (r := rank_t nc (map (reduce p) others)) in *. split.
      * apply Permutation_sym in Ps. apply Permutation_map_inv in Ps. destruct Ps as (l & El & Pl).
        destruct (map_eq_app _ _ _ _ (eq_sym El)) as (s0 & t0 & E1 & E2 & E3). subst l s t.
        exists (p :: s0), t0; split; [simpl; constructor; exact Pl|].
        split; [simpl; rewrite map_length in Ls; lia|].
        apply (indep_cons_reduce nc p s0); try assumption.
        apply (Forall_perm _ _ _ Pl) in Fo. apply Forall_app in Fo; apply Fo.
      * intros s' t' P' I'.
        assert (Hin : In p (s' ++ t')) by (apply (Permutation_in _ P'); left; reflexivity).
        apply in_app_iff in Hin; destruct Hin as [Hin|Hin].
        -- apply in_split in Hin; destruct Hin as (l1 & l2 & ->).
           assert (Q : Permutation others ((l1 ++ l2) ++ t')).
           { apply Permutation_cons_inv with p. rewrite P'. rewrite <- app_assoc. simpl.
             rewrite <- app_assoc. apply Permutation_sym, Permutation_middle. }
           assert (I2 : indep m (S nc) (p :: l1 ++ l2)).
           { apply (indep_perm _ _ (l1 ++ p :: l2)); [apply Permutation_sym, Permutation_middle|exact I']. }
           apply (indep_cons_reduce nc p (l1 ++ l2)) in I2; try assumption.
           2:{ apply (Forall_perm _ _ _ Q) in Fo. apply Forall_app in Fo; apply Fo. }
           specialize (U (map (reduce p) (l1 ++ l2)) (map (reduce p) t')).
           rewrite map_length in U. rewrite app_length in *. simpl.
           assert ((length l1 + length l2 <= r)%nat); [|lia].
           apply U; [rewrite <- map_app; apply Permutation_map; exact Q|exact I2].
        -- apply in_split in Hin; destruct Hin as (l1 & l2 & ->).
           assert (Q : Permutation others (s' ++ (l1 ++ l2))).
           { apply Permutation_cons_inv with p. rewrite P'. rewrite !app_assoc.
             apply Permutation_sym, Permutation_middle. }
           assert (Fs : Forall (fun q => length q = S nc) s').
           { apply (Forall_perm _ _ _ Q) in Fo. apply Forall_app in Fo; apply Fo. }
           destruct (le_lt_dec (length s') (S r)) as [Hle|Hgt]; [exact Hle|exfalso].
           (* the goal is False: excluded middle is available for one statement *)
           set (dep := exists c, length c = length s' /\ ~ Forall (Z.divide m) c /\
                 forall j, (j < nc)%nat -> (m | lcomb c (map (reduce p) s') j)).
           assert (EM : ~ ~ (dep \/ ~ dep)) by tauto. apply EM; intros [D|D].
           ++ destruct D as (c & Lc & Nc & Hc).
              destruct (nontriv_split c s' Lc Nc) as (x & c' & q & s0 & Nx & Pq & L0 & E0).
              pose proof (Forall_perm _ _ _ Pq Fs) as Fq. apply Forall_cons_iff in Fq; destruct Fq as [Lq Fs0].
              assert (IR : indep m nc (map (reduce p) s0)).
              { apply (indep_drop nc p q s0 x c'); try assumption.
                - apply (indep_perm _ _ s'); assumption.
                - intros j Hj. specialize (Hc j Hj). rewrite (lcomb_reduce c p nc) in Hc by assumption.
                  rewrite !E0 in Hc. exact Hc. }
              assert (B : (length (map (reduce p) s0) <= r)%nat).
              { apply (U _ (reduce p q :: map (reduce p) (l1 ++ l2))); [|exact IR].
                transitivity (map (reduce p) (s' ++ l1 ++ l2)); [apply Permutation_map; exact Q|].
                rewrite map_app, Pq. simpl. apply Permutation_middle. }
              rewrite map_length in B. apply Permutation_length in Pq. simpl in Pq. lia.
           ++ assert (IR : indep m nc (map (reduce p) s')).
              { intros c Lc Hc. rewrite map_length in Lc.
                destruct (Forall_dec (Z.divide m) (fun x => Zdivide_dec m x) c) as [G|G]; [exact G|].
                exfalso; apply D. exists c; auto. }
              assert (B : (length (map (reduce p) s') <= r)%nat).
              { apply (U _ (map (reduce p) (l1 ++ l2))); [|exact IR].
                rewrite <- map_app; apply Permutation_map; exact Q. }
              rewrite map_length in B. lia.
    + apply split_none in E.
      assert (FR : Forall (fun q => length q = nc) (map (@tl Z) rows)).
      { rewrite Forall_map. eapply Forall_impl; [|exact F]. intros [|x q] Hq; simpl in *; [discriminate|lia]. }
      destruct (IH _ FR) as [(s & t & Ps & Ls & Is) U]. split.
      * apply Permutation_sym in Ps. apply Permutation_map_inv in Ps. destruct Ps as (l & El & Pl).
        destruct (map_eq_app _ _ _ _ (eq_sym El)) as (s0 & t0 & E1 & E2 & E3). subst l s t.
        exists s0, t0; split; [exact Pl|]. split; [rewrite map_length in Ls; exact Ls|].
        apply indep_tl; [|exact Is]. apply (Forall_perm _ _ _ Pl) in E. apply Forall_app in E; apply E.
      * intros s' t' P' I'. specialize (U (map (@tl Z) s') (map (@tl Z) t')). rewrite map_length in U. apply U.
        -- rewrite <- map_app; apply Permutation_map; exact P'.
        -- apply indep_tl; [|exact I']. apply (Forall_perm _ _ _ P') in E. apply Forall_app in E; apply E.
Qed.
End Mod.

(** ** The two instances *)

Lemma rank_rows_t c : forall rows, rank_rows c rows = rank_t (fun x => x =? 0) c rows.
Proof.
  induction c as [|c IH]; intros rows; cbn [rank_rows rank_t]; [reflexivity|].
  assert (E : split_pivot rows = split_t (fun x => x =? 0) rows).
  { induction rows as [|p r IHr]; cbn [split_pivot split_t]; [reflexivity|]. rewrite IHr; reflexivity. }
  rewrite <- E. destruct (split_pivot rows) as [[p o]|]; rewrite IH; reflexivity.
Qed.

(** numpy's matrix_rank as modelled is the rank over the rationals *)
Theorem rank_rows_spec c rows : Forall (fun q => length q = c) rows -> is_rank 0 c rows (rank_rows c rows).
Proof.
  rewrite rank_rows_t. apply rank_t_spec.
  - intros x; rewrite Z.eqb_eq; split; [intros ->; apply Z.divide_0_r|apply Z.divide_0_l].
  - intros a b H; apply Z.divide_0_l, Z.mul_eq_0 in H; destruct H as [->| ->]; [left|right]; apply Z.divide_0_r.
  - intros H; apply Z.divide_0_l in H; discriminate.
Qed.

(** GF(2) rank by the same elimination *)
Definition gf2_rank (M : zmat) : nat := rank_t Z.even (zc M) (zd M).

Theorem gf2_rank_spec M : wf M -> is_rank 2 (zc M) (zd M) (gf2_rank M).
Proof.
  intros [_ F]; apply rank_t_spec; [| | |exact F].
  - intros x. rewrite Z.even_spec. unfold Z.Even. split.
    + intros (y & ->); exists y; ring.
    + intros (y & ->); exists y; ring.
  - intros a b H; apply prime_mult; [exact prime_2|exact H].
  - intros H; apply Z.divide_1_r in H; lia.
Qed.

Theorem matrix_rank_spec M : wf M -> is_rank 0 (zc M) (zd M) (matrix_rank M).
Proof. intros [_ F]; apply rank_rows_spec; exact F. Qed.

(** ** Independent over GF(2) implies independent over the rationals *)
Lemma lcomb_zero_coef c rows j : Forall (fun x => x = 0) c -> lcomb c rows j = 0.
Proof. intros F; revert rows; induction F as [|x c Hx F IH]; intros [|r rows]; simpl; try reflexivity. rewrite IH, Hx; ring. Qed.

Definition asum (c : list Z) : nat := fold_right (fun x s => (Z.abs_nat x + s)%nat) 0%nat c.

Theorem indep_2_0 nc rows : indep 2 nc rows -> indep 0 nc rows.
Proof.
  intros I c. remember (asum c) as N eqn:EN. revert c EN.
  induction N as [N IH] using lt_wf_ind; intros c EN L H.
  assert (F2 : Forall (Z.divide 2) c).
  { apply I; [exact L|]. intros j Hj; specialize (H j Hj); apply Z.divide_0_l in H; rewrite H; apply Z.divide_0_r. }
  set (h := map (fun x => x / 2) c).
  assert (E : c = map (Z.mul 2) h).
  { unfold h; rewrite map_map. clear -F2. induction F2 as [|x c (y & ->) F IH]; cbn [map]; [reflexivity|].
    f_equal; [rewrite Z.div_mul by lia; ring|exact IH]. }
  assert (Lh : length h = length c) by (unfold h; apply map_length). clearbody h.
  destruct (Nat.eq_dec N 0) as [->|HN].
  - clear -EN. symmetry in EN. induction c as [|x c IHc]; [constructor|]. cbn [asum fold_right] in EN.
    fold (asum c) in EN. constructor; [exists 0; lia|apply IHc; lia].
  - assert (Hlt : (asum h < N)%nat).
    { subst N. rewrite E in HN |- *. clear -HN. revert HN. generalize h as l; intros l HN.
      assert (G : asum (map (Z.mul 2) l) = (2 * asum l)%nat).
      { clear. induction l as [|x l IHl]; cbn [asum fold_right map]; [reflexivity|].
        fold (asum l); fold (asum (map (Z.mul 2) l)); rewrite IHl; lia. }
      lia. }
    assert (G : Forall (Z.divide 0) h).
    { apply (IH (asum h) Hlt h eq_refl).
      - lia.
      - intros j Hj. specialize (H j Hj). rewrite E, lcomb_scale in H. apply Z.divide_0_l in H.
        exists 0; lia. }
    rewrite E, Forall_map. eapply Forall_impl; [|exact G].
    intros x Hx; apply Z.divide_0_l in Hx; subst; apply Z.divide_0_r.
Qed.

Lemma rank_full m nc rows : indep m nc rows -> is_rank m nc rows (length rows).
Proof.
  intros I; split; [exists rows, []; rewrite app_nil_r; auto|].
  intros s t P _; apply Permutation_length in P; rewrite app_length in P; lia.
Qed.

Lemma matrix_rank_full M : wf M -> indep 2 (zc M) (zd M) -> matrix_rank M = zr M.
Proof.
  intros W I. apply (is_rank_unique 0 (zc M) (zd M)); [apply matrix_rank_spec; exact W|].
  rewrite <- (proj1 W). apply rank_full, indep_2_0; exact I.
Qed.

(** the real rank is at least the GF(2) rank *)
Lemma rank_2_le_0 nc rows r2 r0 : is_rank 2 nc rows r2 -> is_rank 0 nc rows r0 -> (r2 <= r0)%nat.
Proof.
  intros [(s & t & P & L & I) _] [_ U]. subst r2; apply (U s t P), indep_2_0; exact I.
Qed.

(** ** Bridge to boolean functions *)
Definition bz (M : zmat) (i j : nat) : bool := Z.odd (get M i j).
Definition brow (r : list Z) (j : nat) : bool := Z.odd (nth j r 0).

Lemma xsum_S_l n f : xsum (S n) f = xorb (f 0%nat) (xsum n (fun i => f (S i))).
Proof. rewrite (xsum_sk n 0) by lia. reflexivity. Qed.

Lemma odd_lcomb c rows j : length c = length rows ->
  Z.odd (lcomb c rows j) = xsum (length rows) (fun i => Z.odd (nth i c 0) && Z.odd (nth j (nth i rows []) 0))%bool.
Proof.
  revert rows; induction c as [|x c IH]; intros [|r rows] L; try discriminate; [reflexivity|].
  cbn [lcomb length]. rewrite xsum_S_l, Z.odd_add, Z.odd_mul. cbn [nth]. rewrite IH by (simpl in L; lia). reflexivity.
Qed.

Lemma divide2_odd x : (2 | x) <-> Z.odd x = false.
Proof.
  rewrite <- Z.negb_even, negb_false_iff, Z.even_spec. unfold Z.Even.
  split; intros (y & ->); exists y; ring.
Qed.

Lemma indep2_b nc rows :
  indep 2 nc rows <-> indepb (fun i j => Z.odd (nth j (nth i rows []) 0)) (length rows) nc.
Proof.
  split.
  - intros I a H i Hi.
    set (c := map (fun i => Z.b2z (a i)) (seq 0 (length rows))).
    assert (Lc : length c = length rows) by (unfold c; rewrite map_length, seq_length; reflexivity).
    assert (Nc : forall i, (i < length rows)%nat -> Z.odd (nth i c 0) = a i).
    { intros i' Hi'. unfold c. rewrite nth_map_seq by exact Hi'. destruct (a i'); reflexivity. }
    assert (F : Forall (Z.divide 2) c).
    { apply I; [exact Lc|]. intros j Hj. apply divide2_odd. rewrite odd_lcomb by exact Lc.
      rewrite <- (H j Hj). apply xsum_ext; intros i' Hi'. rewrite Nc by exact Hi'; reflexivity. }
    rewrite <- Nc by exact Hi. apply divide2_odd. rewrite Forall_forall in F; apply F, nth_In; lia.
  - intros I c L H. rewrite Forall_forall; intros x Hx.
    destruct (In_nth c x 0 Hx) as (i & Hi & <-). apply divide2_odd.
    apply (I (fun i => Z.odd (nth i c 0))); [|lia].
    intros j Hj. unfold comb. rewrite <- odd_lcomb by exact L. apply divide2_odd, H; exact Hj.
Qed.

Lemma indep2_bz M : wf M -> (indep 2 (zc M) (zd M) <-> indepb (bz M) (zr M) (zc M)).
Proof. intros [L _]; rewrite <- L. apply indep2_b. Qed.

(** rows of a submatrix in terms of a selection of indices *)
Lemma perm_select {A} (d : A) (rows s t : list A) : Permutation rows (s ++ t) ->
  exists idx : nat -> nat, forall i, (i < length s)%nat -> (idx i < length rows)%nat /\ nth i s d = nth (idx i) rows d.
Proof.
  intros P.
  assert (E : forall k, (k <= length s)%nat -> exists idx : nat -> nat,
            forall i, (i < k)%nat -> (idx i < length rows)%nat /\ nth i s d = nth (idx i) rows d).
  { induction k as [|k IH]; intros Hk; [exists (fun _ => 0%nat); intros; lia|].
    destruct IH as (idx & H); [lia|].
    assert (Hin : In (nth k s d) rows).
    { apply (Permutation_in _ (Permutation_sym P)), in_app_iff. left; apply nth_In; lia. }
    destruct (In_nth _ _ d Hin) as (j & Hj & Ej).
    exists (fun i => if Nat.eqb i k then j else idx i). intros i Hi.
    destruct (Nat.eqb_spec i k) as [->|Hn]; [split; [exact Hj|symmetry; exact Ej]|apply H; lia]. }
  apply (E (length s)); lia.
Qed.

(** GF(2) rank [r] means: [r] independent vectors in the row space, not [r + 1] *)
Lemma is_rank2_ge M r : wf M -> is_rank 2 (zc M) (zd M) r -> rank_ge (bz M) (zr M) (zc M) r.
Proof.
  intros [L _] [(s & t & P & Ls & I) _]. subst r.
  destruct (perm_select [] _ _ _ P) as (idx & Hidx).
  exists (fun i j => Z.odd (nth j (nth i s []) 0)); split.
  - intros i Hi. destruct (Hidx i Hi) as [Hlt E]. rewrite E.
    apply inspan_row with (f := bz M). rewrite <- L; exact Hlt.
  - apply indep2_b; exact I.
Qed.

Lemma dep_last f m c v : indepb f m c -> ~ inspan f m c v ->
  indepb (fun i => if Nat.eqb i m then v else f i) (S m) c.
Proof.
  intros I N a H.
  assert (Hm : a m = false).
  { destruct (a m) eqn:Ea; [|reflexivity]. exfalso; apply N. exists a. intros j Hj.
    specialize (H j Hj). unfold comb in H. cbn [xsum] in H. rewrite Nat.eqb_refl, Ea in H.
    unfold comb. rewrite (xsum_ext m (fun i => a i && f i j)%bool
      (fun i => a i && (if Nat.eqb i m then v else f i) j)%bool).
    - destruct (xsum m _), (v j); simpl in H; congruence.
    - intros i Hi; destruct (Nat.eqb_spec i m); [lia|reflexivity]. }
  intros i Hi. destruct (Nat.eq_dec i m) as [->|Hn]; [exact Hm|]. apply I; [|lia].
  intros j Hj. specialize (H j Hj). unfold comb in *. cbn [xsum] in H. rewrite Hm in H. cbn [andb] in H.
  rewrite xorb_false_r in H. rewrite <- H. apply xsum_ext; intros i' Hi'.
  destruct (Nat.eqb_spec i' m); [lia|reflexivity].
Qed.

Lemma is_rank2_not_ge M r : wf M -> is_rank 2 (zc M) (zd M) r -> ~ rank_ge (bz M) (zr M) (zc M) (S r).
Proof.
  intros [L W] [(s & t & P & Ls & I) U] (g & Hg & Ig). subst r.
  set (fs := fun i j => Z.odd (nth j (nth i s []) 0)).
  assert (Hspan : ~ ~ (forall i, (i < zr M)%nat -> inspan fs (length s) (zc M) (bz M i))).
  { (* if some row is outside the span of s then s can be enlarged *)
    assert (Each : forall i, (i < zr M)%nat -> ~ ~ inspan fs (length s) (zc M) (bz M i)).
    { intros i Hi N. rewrite <- L in Hi.
      set (row := nth i (zd M) []).
      assert (Hin : In row (s ++ t)) by (apply (Permutation_in _ P), nth_In; exact Hi).
      apply in_app_iff in Hin; destruct Hin as [Hin|Hin].
      - destruct (In_nth _ _ [] Hin) as (i' & Hi' & E). apply N.
        change (bz M i) with (fun j => Z.odd (nth j row 0)). rewrite <- E.
        apply (inspan_row fs); exact Hi'.
      - apply in_split in Hin; destruct Hin as (t1 & t2 & ->).
        assert (B : (length (s ++ [row]) <= length s)%nat).
        { apply (U _ (t1 ++ t2)).
          - rewrite P. rewrite <- app_assoc. apply Permutation_app_head. simpl.
            apply Permutation_sym, Permutation_middle.
          - apply indep2_b. apply indep2_b in I. rewrite app_length; simpl.
            replace (length s + 1)%nat with (S (length s)) by lia.
            pose proof (dep_last _ _ _ _ I N) as D.
            intros a Ha. apply (D a). intros j Hj. rewrite <- (Ha j Hj). apply xsum_ext; intros i' Hi'.
            destruct (Nat.eqb_spec i' (length s)) as [->|Hn].
            + rewrite app_nth2, Nat.sub_diag by lia. reflexivity.
            + rewrite app_nth1 by lia. reflexivity. }
        rewrite app_length in B; simpl in B; lia. }
    clear -Each. induction (zr M) as [|k IHk]; [intros N; apply N; intros; lia|].
    intros N. apply IHk; [intros i Hi; apply Each; lia|]. intros H.
    apply (Each k); [lia|]. intros Hk. apply N. intros i Hi.
    destruct (Nat.eq_dec i k) as [->|Hn]; [exact Hk|apply H; lia]. }
  apply Hspan; intros Hs.
  assert (B : (S (length s) <= length s)%nat); [|lia].
  apply (steinitz fs (length s) g (S (length s)) (zc M)); [|exact Ig].
  intros i Hi. destruct (Hg i Hi) as (a & Ha).
  apply (inspan_ext _ _ _ (comb (zr M) a (bz M))); [intros j Hj; symmetry; apply Ha; exact Hj|].
  apply inspan_comb; exact Hs.
Qed.
