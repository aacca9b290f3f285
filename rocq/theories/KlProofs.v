(** The coherent information of a channel on a code that corrects its errors (C139). *)
From Verif Require Import Py Scalar PauliModel PauliSpec EncoderProofs EighExists Spectral SpectralProofs PowerSums KrausModel KrausSpec KrausProofs KrausProofs2 KrausProofs5 KrausProofs6 KrausProofs8 KrausProofs11 KrausProofs12
  ChoiModel ChannelModel ChannelSpec ChoiSpec ChoiProofs ChoiProofs2 ChoiProofs3 Sqrt EntropyProofs EntropySpec Subadd CohProofs CohProofs2 CohProofs3 CohProofs4 Processing ProcessingSpec Processing2 Degradable KnownSpec KnownProofs KlSpec.
From Coq Require Import Reals Lra.
Open Scope nat_scope.
Open Scope K_scope.
Add Ring CCring71 : (s_rt CC).

Section Kl.
Variables (O D d : nat) (ops : list (marr CC)) (W : array CC).
Hypothesis F : fits O D ops.
Hypothesis T : trace_preserving D ops.
Hypothesis IW : isometry D d W.
(** first W, then the channel *)
Definition after_w : list (marr CC) := map (fun A => MA O d (mm D (me A) W)) ops.
Lemma after_len : length after_w = length ops. Proof. apply map_length. Qed.
Lemma after_fits : fits O d after_w.
Proof. apply Forall_forall. intros X HX. apply in_map_iff in HX. destruct HX as (A & <- & _). split; reflexivity. Qed.
Lemma after_nth i : i < length ops -> nth i after_w one_by_one = MA O d (mm D (me (nth i ops one_by_one)) W).
Proof.
  intros H. unfold after_w. rewrite (nth_indep _ one_by_one (MA O d (mm D (me one_by_one) W))) by (rewrite map_length; exact H). exact (map_nth (fun A => MA O d (mm D (me A) W)) ops one_by_one i).
Qed.
Lemma after_sand (A B sigma : array CC) i j :
  mm d (mm d (mm D A W) sigma) (adj (mm D B W)) i j = mm D (mm D A (me (embedded D d W sigma))) (adj B) i j.
Proof.
  cbn [me embedded]. rewrite (mm_congr_r _ _ _ (mm D (adj W) (adj B))) by (intros; apply adj_mm). rewrite <- mm_assoc. apply (mm_congr_l (S i) D); [|lia]. intros x y _ _.
  rewrite (mm_congr_l (S x) d _ (mm D A (mm d W sigma)) (adj W)); [apply mm_assoc| |lia]. intros u v _ _. apply mm_assoc.
Qed.
Lemma after_map sigma i j : channel_map after_w sigma i j = channel_map ops (me (embedded D d W sigma)) i j.
Proof.
  unfold channel_map, after_w. rewrite map_map. apply ksum_ext. intros A HA. destruct (in_fits _ _ _ _ F HA) as [_ E]. cbn [mc me]. rewrite after_sand, E. reflexivity.
Qed.
Lemma after_exchange sigma i j : i < length ops -> j < length ops -> exchange_entry after_w sigma i j = exchange_entry ops (me (embedded D d W sigma)) i j.
Proof.
  intros Hi Hj. unfold exchange_entry. rewrite !after_nth by assumption. destruct (nth_fits _ _ _ i F Hi) as [E1 E2]. cbn [mr mc me]. rewrite E1, E2. apply tr_eqm. intros x y _ _. apply after_sand.
Qed.
Lemma after_tp : trace_preserving d after_w.
Proof.
  intros i j Hi Hj. unfold after_w. rewrite map_map. cbn [mr me].
  rewrite (ksum_ext _ (fun A => bsum D (fun x => bsum D (fun y => (W x i)^* * W y j * mm (mr A) (adj (me A)) (me A) x y))) ops).
  - rewrite (ksum_bsum D). rewrite <- (IW i j Hi Hj). unfold mm at 2. apply bsum_ext. intros x Hx. rewrite (ksum_bsum D).
    rewrite (bsum_ext _ _ (fun y => (W x i)^* * W y j * eye x y)).
    + rewrite (bsum_one D x); [unfold eye, adj; rewrite Nat.eqb_refl; ring|exact Hx|]. intros y Hy N. unfold eye. destruct (Nat.eqb_spec x y); [congruence|ring].
    + intros y Hy. rewrite ksum_mul_l. specialize (T x y Hx Hy). cbv beta in T. rewrite T. reflexivity.
  - intros A HA. destruct (in_fits _ _ _ _ F HA) as [E _]. rewrite E.
    transitivity (mm D (adj W) (mm D (mm O (adj (me A)) (me A)) W) i j).
    + rewrite (mm_congr_l (S i) O _ (mm D (adj W) (adj (me A)))) by (try lia; intros x y _ _; apply adj_mm). rewrite mm_assoc. apply mm_congr_r. intros l _. symmetry. apply mm_assoc.
    + unfold mm at 1 2. apply bsum_ext. intros x Hx. rewrite <- bsum_mul_l. apply bsum_ext. intros y Hy. unfold adj at 1. ring.
Qed.
Lemma embedded_density sigma : density d sigma -> density D (me (embedded D d W sigma)).
Proof.
  intros DS. assert (E : eqm D D (channel_map [MA D d W] sigma) (me (embedded D d W sigma))) by (intros i j _ _; unfold channel_map, ksum; cbn [map fold_right me mc embedded]; ring).
  apply (density_ext _ _ _ E). apply (channel_density D d); [repeat constructor| |exact DS]. intros i j Hi Hj. unfold ksum. cbn [map fold_right mr me]. rewrite (IW i j Hi Hj). ring.
Qed.

(** the environment learns nothing *)
Hypothesis KL : correctable O D d ops W.
Lemma env_fixed i j : i < length ops -> j < length ops -> exists z : CC, forall sigma, exchange_entry after_w sigma i j = z * tr d sigma.
Proof.
  intros Hi Hj. destruct (KL (nth i ops one_by_one) (nth j ops one_by_one)) as (z & Hz); [apply nth_In, Hi|apply nth_In, Hj|]. exists z. intros sigma. unfold exchange_entry. rewrite !after_nth by assumption. cbn [mr mc me].
  rewrite tr_mm. transitivity (tr d (mm d (mm O (adj (mm D (me (nth j ops one_by_one)) W)) (mm D (me (nth i ops one_by_one)) W)) sigma)); [apply tr_eqm; intros x y _ _; symmetry; apply mm_assoc|].
  unfold tr. rewrite <- bsum_mul_l. apply bsum_ext. intros x Hx. unfold mm at 1. rewrite (bsum_one d x); [rewrite (Hz x x Hx Hx); unfold scale, eye; rewrite Nat.eqb_refl; ring|exact Hx|].
  intros y Hy N. rewrite (Hz x y Hx Hy). unfold scale, eye. destruct (Nat.eqb_spec x y); [congruence|ring].
Qed.
Definition prepare (N : nat) (S : array CC) : list (marr CC) := map (fun k => MA N 1 (fun i _ => S i k)) (seq 0 N).
Lemma prepare_fits N S : fits N 1 (prepare N S).
Proof. apply Forall_forall. intros X HX. apply in_map_iff in HX. destruct HX as (k & <- & _). split; reflexivity. Qed.
Lemma prepare_map N S c (X : array CC) i j : square_root N c S -> i < N -> j < N -> channel_map (prepare N S) X i j = X 0%nat 0%nat * c i j.
Proof.
  intros (HS & _ & SS) Hi Hj. unfold channel_map, prepare. rewrite map_map, ksum_seq. rewrite <- (SS i j Hi Hj). unfold mm at 3. rewrite <- bsum_mul_l. apply bsum_ext. intros k Hk. rewrite <- (HS k j Hk Hj). unfold mm, adj. cbn [mc me bsum]. ring.
Qed.
Lemma prepare_tp N S c : square_root N c S -> tr N c = 1 -> trace_preserving 1 (prepare N S).
Proof.
  intros (HS & _ & SS) TC i j Hi Hj. assert (i = 0%nat) by lia. assert (j = 0%nat) by lia. subst i j. unfold prepare. rewrite map_map, ksum_seq. unfold eye. cbn [Nat.eqb]. rewrite <- TC, <- (tr_eqm _ _ _ SS). unfold tr. apply bsum_ext. intros k Hk. unfold mm, adj. cbn [mr me].
  apply bsum_ext. intros l Hl. rewrite <- (HS k l Hk Hl). unfold adj. ring.
Qed.
Theorem kl_entropies sigma s t : density d sigma -> von_neumann d sigma s -> entropies O ops (me (embedded D d W sigma)) t -> (fst t - snd t = s)%R.
Proof.
  intros DS VS V. set (N := length ops).
  assert (V' : entropies O after_w sigma t).
  { destruct V as [V1 V2]. split; [apply (von_ext _ _ _ _ (fun i j _ _ => eq_sym (after_map sigma i j)) V1)|]. rewrite after_len. apply (von_ext _ _ _ _ (fun i j Hi Hj => eq_sym (after_exchange sigma i j Hi Hj)) V2). }
  pose proof after_fits as FA. pose proof after_tp as TA. apply Rle_antisym.
  - (* the channel processes the identity *)
    assert (P : processed d O (identity_ops d) after_w).
    { exists after_w. split; [exact FA|]. split; [exact TA|]. intros rho i j Hi Hj. apply (channel_map_same O d); [exact FA|apply same_ops_refl| |exact Hi|exact Hj]. intros x y Hx Hy. symmetry. apply (keep_map d rho x y Hx Hy). }
    destruct (processed_cross d O d _ _ (identity_fits d) FA P) as (m & Fm & Tm & SC).
    pose proof (processing_cross O d d m _ _ sigma _ t Fm (identity_fits d) FA Tm (identity_tp d) SC DS (identity_entropies d sigma s DS VS) V') as K. cbn [fst snd] in K. lra.
  - (* nothing reaches the environment *)
    pose proof (exchange_density O d after_w sigma FA TA DS) as DX. rewrite after_len in DX. fold N in DX.
    destruct (square_root_exists N (exchange_entry after_w sigma) (proj1 (proj2 DX))) as (S & HS).
    pose proof (comp_fits O d after_w) as FC. rewrite after_len in FC. fold N in FC.
    assert (P : processed 1 N (lost d) (Processing2.comp O d after_w)).
    { exists (prepare N S). split; [apply prepare_fits|]. split; [apply (prepare_tp N S _ HS), DX|]. intros rho i j Hi Hj. rewrite (comp_map O d) by (try exact FA; rewrite after_len; assumption).
      rewrite (prepare_map N S _ _ i j HS Hi Hj), lost_map. destruct (env_fixed i j Hi Hj) as (z & Hz). rewrite !Hz. destruct DS as (_ & _ & ->). unfold tr. ring. }
    destruct (processed_cross 1 N d _ _ (lost_fits d) FC P) as (m & Fm & Tm & SC).
    assert (VC : entropies N (Processing2.comp O d after_w) sigma (snd t, fst t)).
    { destruct V' as [V1 V2]. rewrite after_len in V2. fold N in V2. split; cbn [fst snd].
      - apply (von_ext _ (exchange_entry after_w sigma)); [|exact V2]. intros i j Hi Hj. symmetry. apply (comp_map O d); [exact FA|rewrite after_len; assumption..].
      - rewrite comp_len. apply (von_ext _ (channel_map after_w sigma)); [|exact V1]. intros i j Hi Hj. symmetry. apply (comp_exchange O d); assumption. }
    pose proof (processing_cross N 1 d m _ _ sigma _ _ Fm (lost_fits d) FC Tm (lost_tp d) SC DS (lost_entropies d sigma s DS VS) VC) as K. cbn [fst snd] in K. lra.
Qed.
End Kl.
