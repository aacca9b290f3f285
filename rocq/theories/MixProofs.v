(** Mixing channels without a flag is mixing them with a flag and dropping the flag (C138). *)
From Verif Require Import Py Scalar PauliModel PauliSpec EncoderProofs EighExists Spectral SpectralProofs PowerSums KrausModel KrausSpec KrausProofs KrausProofs2 KrausProofs5 KrausProofs6 KrausProofs8 KrausProofs11 KrausProofs12
  ChoiModel ChannelModel ChannelSpec ChoiSpec ChoiProofs ChoiProofs2 ChoiProofs3 Sqrt EntropyProofs EntropySpec Subadd CohProofs CohProofs2 CohProofs3 CohProofs4 Processing ProcessingSpec Processing2 Degradable KnownSpec KnownProofs MixSpec.
From Coq Require Import Reals Lra.
Open Scope nat_scope.
Open Scope K_scope.
Add Ring CCring70 : (s_rt CC).

Lemma mixture_len q a b : length (mixture q a b) = (length a + length b)%nat.
Proof. unfold mixture. rewrite app_length, !map_length. reflexivity. Qed.
Lemma mixture_fits q O D a b : fits O D a -> fits O D b -> fits O D (mixture q a b).
Proof.
  intros FA FB. unfold fits, mixture. apply Forall_app. split; apply Forall_forall; intros X HX; apply in_map_iff in HX; destruct HX as (Y & <- & HY).
  - exact (in_fits _ _ _ _ FA HY).
  - exact (in_fits _ _ _ _ FB HY).
Qed.
Lemma scaled_sand x (A : marr CC) (rho : array CC) i j : (0 <= x)%R ->
  mm (mc A) (mm (mc A) (me (scaled x A)) rho) (adj (me (scaled x A))) i j = rc x * mm (mc A) (mm (mc A) (me A) rho) (adj (me A)) i j.
Proof.
  intros Hx. unfold mm, adj, scaled. cbn [me]. rewrite <- bsum_mul_l. apply bsum_ext. intros k Hk. rewrite sconj_mul.
  rewrite (bsum_ext (mc A) _ (fun l => rt x * (me A i l * rho l k))) by (intros; ring). rewrite bsum_mul_l, <- (rt_sq x Hx). ring.
Qed.
(** the channel of the mixture is the mixture of the channels *)
Lemma mixture_out q a b rho i j : (0 <= q <= 1)%R -> channel_map (mixture q a b) rho i j = rc (1 - q) * channel_map a rho i j + rc q * channel_map b rho i j.
Proof.
  intros Hq. unfold channel_map, mixture. rewrite map_app, ksum_app, !map_map. rewrite <- !ksum_mul_l.
  f_equal; apply ksum_ext; intros A _; (refine (scaled_sand _ A rho i j _); lra).
Qed.
Lemma gram_scaled x (A : marr CC) i j : (0 <= x)%R -> mm (mr A) (adj (me (scaled x A))) (me (scaled x A)) i j = rc x * mm (mr A) (adj (me A)) (me A) i j.
Proof. intros Hx. unfold mm, adj, scaled. cbn [me]. rewrite <- bsum_mul_l. apply bsum_ext. intros k Hk. rewrite sconj_mul, <- (rt_sq x Hx). ring. Qed.
Lemma mixture_tp q D a b : (0 <= q <= 1)%R -> trace_preserving D a -> trace_preserving D b -> trace_preserving D (mixture q a b).
Proof.
  intros Hq TA TB i j Hi Hj. unfold mixture. rewrite map_app, ksum_app, !map_map. specialize (TA i j Hi Hj). specialize (TB i j Hi Hj). cbv beta in TA, TB.
  rewrite (ksum_ext (fun A => mm (mr (scaled (1 - q) A)) (adj (me (scaled (1 - q) A))) (me (scaled (1 - q) A)) i j) (fun A => rc (1 - q) * mm (mr A) (adj (me A)) (me A) i j) a) by (intros A HA; refine (gram_scaled _ A i j _); lra).
  rewrite (ksum_ext (fun A => mm (mr (scaled q A)) (adj (me (scaled q A))) (me (scaled q A)) i j) (fun A => rc q * mm (mr A) (adj (me A)) (me A) i j) b) by (intros A HA; refine (gram_scaled _ A i j _); lra).
  rewrite !ksum_mul_l. rewrite TA, TB. transitivity ((rc (1 - q) + rc q) * eye i j); [ring|]. replace (rc (1 - q) + rc q) with (1 : CC) by (apply CC_eq; cbn; lra). ring.
Qed.
(** dropping the flag *)
Definition drop (O : nat) : list (marr CC) := [MA O (O + O) eye; MA O (O + O) (fun i j => eye (O + i)%nat j)].
Lemma drop_fits O : fits O (O + O) (drop O). Proof. repeat constructor. Qed.
Lemma drop_sand O (off : nat) (X : array CC) i j : off + i < O + O -> off + j < O + O ->
  mm (O + O) (mm (O + O) (fun i j => eye (off + i)%nat j) X) (adj (fun i j => eye (off + i)%nat j)) i j = X (off + i)%nat (off + j)%nat.
Proof.
  intros Hi Hj. unfold mm, adj. rewrite (bsum_ext _ _ (fun k => (if Nat.eqb k (off + j) then 1 else 0) * X (off + i)%nat k)).
  - rewrite (bsum_one _ (off + j)%nat); [rewrite Nat.eqb_refl; ring|exact Hj|]. intros k Hk N. destruct (Nat.eqb_spec k (off + j)); [contradiction|ring].
  - intros k Hk. rewrite (bsum_one _ (off + i)%nat); [|exact Hi|].
    + unfold eye. rewrite Nat.eqb_refl. rewrite (Nat.eqb_sym (off + j) k). destruct (Nat.eqb k (off + j)); rewrite ?sconj_1, ?sconj_0; ring.
    + intros l Hl N. unfold eye. destruct (Nat.eqb_spec (off + i) l); [lia|ring].
Qed.
Lemma drop_map O (X : array CC) i j : i < O -> j < O -> channel_map (drop O) X i j = X i j + X (O + i)%nat (O + j)%nat.
Proof.
  intros Hi Hj. unfold channel_map, drop, ksum. cbn [map fold_right mc me]. rewrite (drop_sand O O X i j) by lia.
  pose proof (drop_sand O 0 X i j ltac:(lia) ltac:(lia)) as E. cbn [Nat.add] in E. change (fun i j : nat => eye i j) with (@eye CC) in E. rewrite E. ring.
Qed.
Lemma drop_tp O : trace_preserving (O + O) (drop O).
Proof.
  intros i j Hi Hj. unfold drop, ksum. cbn [map fold_right mr me]. unfold mm, adj, eye.
  destruct (Nat.lt_ge_cases i O) as [L|L].
  - rewrite (bsum_one O i); [|exact L|intros k Hk N; destruct (Nat.eqb_spec k i); [contradiction|rewrite sconj_0; ring]].
    rewrite (bsum_zero O) by (intros k Hk; destruct (Nat.eqb_spec (O + k) i); [lia|rewrite sconj_0; ring]). rewrite Nat.eqb_refl, sconj_1. ring.
  - rewrite (bsum_zero O) by (intros k Hk; destruct (Nat.eqb_spec k i); [lia|rewrite sconj_0; ring]).
    rewrite (bsum_one O (i - O)%nat); [|lia|intros k Hk N; destruct (Nat.eqb_spec (O + k) i); [lia|rewrite sconj_0; ring]].
    replace (O + (i - O))%nat with i by lia. rewrite Nat.eqb_refl, sconj_1. ring.
Qed.
Lemma mixture_processed q O D a b : (0 <= q <= 1)%R -> fits O D a -> fits O D b -> processed (O + O) O (flagged q O O a b) (mixture q a b).
Proof.
  intros Hq FA FB. exists (drop O). split; [apply drop_fits|]. split; [apply drop_tp|]. intros rho i j Hi Hj. rewrite drop_map by assumption.
  rewrite !(flagged_out q O O D a b rho Hq FA FB) by lia. rewrite mixture_out by exact Hq. unfold dsum.
  rewrite !(proj2 (Nat.ltb_lt _ _)) by assumption. rewrite !(proj2 (Nat.ltb_ge _ _)) by lia. replace (O + i - O)%nat with i by lia. replace (O + j - O)%nat with j by lia. reflexivity.
Qed.
Theorem mixture_entropies q O D a b rho t u v : (0 <= q <= 1)%R -> fits O D a -> fits O D b -> trace_preserving D a -> trace_preserving D b -> density D rho ->
  entropies O a rho t -> entropies O b rho u -> entropies O (mixture q a b) rho v ->
  (fst v - snd v <= (1 - q) * (fst t - snd t) + q * (fst u - snd u))%R.
Proof.
  intros Hq FA FB TA TB DR V W X. pose proof (flagged_fits q O O D a b FA FB) as FF. pose proof (mixture_fits q O D a b FA FB) as FM.
  destruct (processed_cross (O + O) O D _ _ FF FM (mixture_processed q O D a b Hq FA FB)) as (m & Fm & Tm & SC).
  pose proof (processing_cross O (O + O) D m _ _ rho _ v Fm FF FM Tm (flagged_tp q O O D a b Hq TA TB) SC DR (flagged_entropies q O O D a b rho t u Hq FA FB TA TB DR V W) X) as P. cbn [fst snd] in P. lra.
Qed.
