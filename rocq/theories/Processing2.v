(** Processing n uses of a channel, and the environment's view of a channel. *)
From Verif Require Import Py Scalar PauliModel PauliSpec EncoderProofs EighExists Spectral SpectralProofs PowerSums KrausModel KrausSpec KrausProofs KrausProofs2 KrausProofs5 KrausProofs6 KrausProofs8 KrausProofs11 KrausProofs12
  ChoiModel ChannelModel ChannelSpec ChoiSpec ChoiProofs ChoiProofs2 ChoiProofs3 Sqrt EntropyProofs EntropySpec Subadd CohProofs CohProofs2 CohProofs3 CohProofs4 RelativeReal Relative Processing ProcessingSpec.
From Coq Require Import Reals Lra.
Open Scope nat_scope.
Open Scope K_scope.
Add Ring CCring45 : (s_rt CC).

(** ** composition, in terms of the sums that determine a channel *)
Lemma cross_prod O D m l x i y j : fits O D l -> (forall A, In A m -> mc A = O) ->
  cross (prod_ops m l) x i y j = bsum O (fun u => bsum O (fun v => cross m x u y v * cross l u i v j)).
Proof.
  intros Fl Fm. unfold cross, prod_ops. rewrite ksum_flat.
  transitivity (ksum (map (fun A => bsum O (fun u => bsum O (fun v => me A x u * (me A y v)^* * cross l u i v j))) m)).
  - apply ksum_ext. intros A HA. rewrite map_map. cbn [me]. rewrite (Fm A HA).
    transitivity (ksum (map (fun B => bsum O (fun u => bsum O (fun v => me A x u * (me A y v)^* * (me B u i * (me B v j)^* )))) l)).
    + apply ksum_ext. intros B HB. unfold mm. rewrite bsum_conj, <- bsum_mul_r. apply bsum_ext; intros u Hu. rewrite <- bsum_mul_l. apply bsum_ext; intros v Hv. rewrite sconj_mul. ring.
    + rewrite ksum_bsum. apply bsum_ext; intros u Hu. rewrite ksum_bsum. apply bsum_ext; intros v Hv. unfold cross. rewrite <- ksum_mul_l. reflexivity.
  - rewrite ksum_bsum. apply bsum_ext; intros u Hu. rewrite ksum_bsum. apply bsum_ext; intros v Hv. apply ksum_scale.
Qed.
Lemma fits_mc r c (m : list (marr CC)) : fits r c m -> forall A, In A m -> mc A = c.
Proof. intros F A HA. apply (in_fits _ _ _ _ F HA). Qed.
Lemma same_prod E O D m m' l l' : fits E O m -> fits E O m' -> fits O D l -> fits O D l' -> same_cross E O m m' -> same_cross O D l l' -> same_cross E D (prod_ops m l) (prod_ops m' l').
Proof.
  intros Fm Fm' Fl Fl' Hm Hl x i y j Hx Hi Hy Hj. rewrite !(cross_prod O D) by (try assumption; eapply fits_mc; eassumption).
  apply bsum_ext; intros u Hu. apply bsum_ext; intros v Hv. rewrite Hm, Hl by assumption. reflexivity.
Qed.
Lemma bsum_kron2 n k (f g : nat -> nat -> CC) :
  bsum (n * k) (fun u => bsum (n * k) (fun v => f (u / k)%nat (v / k)%nat * g (u mod k)%nat (v mod k)%nat)) = bsum n (fun u => bsum n (f u)) * bsum k (fun u => bsum k (g u)).
Proof.
  rewrite <- (bsum_kron n k (fun u => bsum n (f u)) (fun u => bsum k (g u))). apply bsum_ext; intros u Hu. apply (bsum_kron n k (f (u / k)%nat) (g (u mod k)%nat)).
Qed.
Lemma power_prod E O D m l n : fits E O m -> fits O D l -> same_cross (E ^ n) (D ^ n) (power_ops (prod_ops m l) n) (prod_ops (power_ops m n) (power_ops l n)).
Proof.
  intros Fm Fl. induction n as [|n IH].
  - intros x i y j _ _ _ _. cbn [power_ops prod_ops flat_map map app]. unfold cross. cbn. apply CC_eq; cbn; ring.
  - cbn [power_ops Nat.pow]. intros x i y j Hx Hi Hy Hj. pose proof (fits_prod E O D m l Fm Fl) as Fp. pose proof (fits_power _ _ _ n Fp) as Fpn. pose proof (fits_power _ _ _ n Fm) as Fmn. pose proof (fits_power _ _ _ n Fl) as Fln.
    rewrite (cross_tens _ _ (E ^ n) (D ^ n) x i y j Fpn). rewrite IH by (eapply mod_lt_mul; eassumption).
    rewrite (cross_prod O D m l) by (try assumption; eapply fits_mc; eassumption). rewrite (cross_prod (O ^ n) (D ^ n)) by (try assumption; eapply fits_mc; eassumption).
    rewrite (cross_prod (O * O ^ n) (D * D ^ n)); [|apply fits_tens; assumption|eapply fits_mc, fits_tens; eassumption].
    rewrite <- bsum_kron2. apply bsum_ext; intros u Hu. apply bsum_ext; intros v Hv. rewrite (cross_tens m _ (E ^ n) (O ^ n)) by exact Fmn. rewrite (cross_tens l _ (O ^ n) (D ^ n)) by exact Fln. ring.
Qed.
Lemma cross_tp O D l m : fits O D l -> fits O D m -> same_cross O D l m -> trace_preserving D l -> trace_preserving D m.
Proof.
  intros F G H T. apply (unital_iff O D m G). eapply eqm_trans; [|apply (unital_iff O D l F), T]. apply eqm_sym. apply (same_maps O D l m eye F G H).
Qed.
Lemma same_cross_sym O D l m : same_cross O D l m -> same_cross O D m l.
Proof. intros H x i y j Hx Hi Hy Hj. symmetry. apply H; assumption. Qed.
Lemma same_cross_trans O D l m k : same_cross O D l m -> same_cross O D m k -> same_cross O D l k.
Proof. intros H H' x i y j Hx Hi Hy Hj. rewrite H by assumption. apply H'; assumption. Qed.
Lemma same_cross_refl O D l : same_cross O D l l. Proof. intros x i y j _ _ _ _. reflexivity. Qed.

(** ** the processing inequality for channels that are equal as maps *)
Theorem processing_cross E O D m l c rho t u : fits E O m -> fits O D l -> fits E D c -> trace_preserving O m -> trace_preserving D l -> same_cross E D c (prod_ops m l) -> density D rho ->
  entropies O l rho t -> entropies E c rho u -> (fst u - snd u <= fst t - snd t)%R.
Proof.
  intros Fm Fl Fc Tm Tl SC DR [V1 V2] [W1 W2]. pose proof (fits_prod E O D m l Fm Fl) as Fp.
  destruct (same_maps E D c _ rho Fc Fp SC) as [M _].
  destruct (von_exists (length (prod_ops m l)) (exchange_entry (prod_ops m l) rho)) as (w & Hw); [apply (exchange_hermitian E D); [exact Fp|apply DR]|].
  assert (snd u = w) by (apply (von_unique _ _ _ _ _ _ W2 Hw); intros; apply (same_exchange E D); [exact Fc|exact Fp|exact SC|apply DR]). rewrite H.
  apply (processing E O D m l rho (fst t) (snd t) (fst u) w Fm Fl Tm Tl DR V1 V2); [|exact Hw]. apply (von_ext _ _ _ _ M W1).
Qed.
Theorem processing_power E O D m l c n rho t u : fits E O m -> fits O D l -> fits E D c -> trace_preserving O m -> trace_preserving D l -> same_cross E D c (prod_ops m l) -> density (D ^ n) rho ->
  entropies (O ^ n) (power_ops l n) rho t -> entropies (E ^ n) (power_ops c n) rho u -> (fst u - snd u <= fst t - snd t)%R.
Proof.
  intros Fm Fl Fc Tm Tl SC DR Vt Vu. pose proof (fits_prod E O D m l Fm Fl) as Fp.
  apply (processing_cross (E ^ n) (O ^ n) (D ^ n) (power_ops m n) (power_ops l n) (power_ops c n) rho); try assumption; try (apply fits_power; assumption).
  - apply (tp_power E); assumption.
  - apply (tp_power O); assumption.
  - eapply same_cross_trans; [|apply (power_prod E O D); assumption]. apply cross_power; assumption.
Qed.
Lemma processed_cross O E D a c : fits O D a -> fits E D c -> processed O E a c -> exists m, fits E O m /\ trace_preserving O m /\ same_cross E D c (prod_ops m a).
Proof.
  intros Fa Fc (m & Fm & Tm & H). exists m. split; [exact Fm|]. split; [exact Tm|]. apply cross_of_channel; [exact Fc|apply (fits_prod E O D); assumption|].
  intros rho x y Hx Hy. rewrite H by assumption. symmetry. apply (channel_prod E O D); assumption.
Qed.
Lemma processed_tp O E D a c : fits O D a -> fits E D c -> processed O E a c -> trace_preserving D a -> trace_preserving D c.
Proof.
  intros Fa Fc P T. destruct (processed_cross O E D a c Fa Fc P) as (m & Fm & Tm & SC). apply (cross_tp E D (prod_ops m a) c); [apply (fits_prod E O D); assumption|exact Fc|apply same_cross_sym, SC|]. apply (tp_prod E O D); assumption.
Qed.

(** ** what the environment sees *)
Definition comp (O D : nat) (l : list (marr CC)) : list (marr CC) := map (fun x => MA (length l) D (fun t i => me (nth t l one_by_one) x i)) (seq 0 O).
Lemma comp_fits O D l : fits (length l) D (comp O D l).
Proof. apply Forall_forall. intros A HA. unfold comp in HA. apply in_map_iff in HA. destruct HA as (x & <- & _). split; reflexivity. Qed.
Lemma comp_len O D l : length (comp O D l) = O. Proof. unfold comp. rewrite map_length, seq_length. reflexivity. Qed.
Lemma comp_cross O D l t i s j : cross (comp O D l) t i s j = bsum O (fun x => me (nth t l one_by_one) x i * (me (nth s l one_by_one) x j)^* ).
Proof. unfold cross, comp. rewrite map_map. cbn [me]. apply ksum_seq. Qed.
Lemma comp_nth O D l x : x < O -> nth x (comp O D l) one_by_one = MA (length l) D (fun t i => me (nth t l one_by_one) x i).
Proof. intros Hx. unfold comp. rewrite (nth_indep _ one_by_one (MA (length l) D (fun t i => me (nth t l one_by_one) 0%nat i))) by (rewrite map_length, seq_length; exact Hx).
  rewrite (map_nth (fun x => MA (length l) D (fun t i => me (nth t l one_by_one) x i)) (seq 0 O) 0%nat x). rewrite seq_nth by exact Hx. reflexivity. Qed.
Lemma comp_map O D l rho t s : fits O D l -> t < length l -> s < length l -> channel_map (comp O D l) rho t s = exchange_entry l rho t s.
Proof.
  intros F Ht Hs. rewrite (channel_cross (length l) D) by apply comp_fits. unfold exchange_entry. destruct (nth_fits _ _ _ t F Ht) as [-> ->].
  set (A := me (nth t l one_by_one)). set (B := me (nth s l one_by_one)).
  transitivity (bsum D (fun j => bsum D (fun i => bsum O (fun x => A x i * rho i j * (B x j)^* )))).
  - apply bsum_ext; intros j Hj. apply bsum_ext; intros i Hi. rewrite comp_cross, <- bsum_mul_r. apply bsum_ext; intros x Hx. unfold A, B. ring.
  - unfold tr. transitivity (bsum D (fun j => bsum O (fun x => bsum D (fun i => A x i * rho i j * (B x j)^* )))); [apply bsum_ext; intros; apply bsum_swap|].
    rewrite bsum_swap. apply bsum_ext; intros x Hx. unfold mm, adj. apply bsum_ext; intros j Hj. rewrite <- bsum_mul_r. reflexivity.
Qed.
Lemma comp_exchange O D l rho x y : fits O D l -> x < O -> y < O -> exchange_entry (comp O D l) rho x y = channel_map l rho x y.
Proof.
  intros F Hx Hy. unfold exchange_entry. rewrite !comp_nth by assumption. cbn [mr mc me]. unfold tr, channel_map. rewrite <- (bsum_ksum_nth l one_by_one). apply bsum_ext; intros t Ht.
  destruct (nth_fits _ _ _ t F Ht) as [_ ->]. reflexivity.
Qed.
Lemma comp_tp O D l : fits O D l -> trace_preserving D l -> trace_preserving D (comp O D l).
Proof.
  intros F T i j Hi Hj. rewrite <- (T i j Hi Hj). unfold comp. rewrite map_map. cbn [mr me]. rewrite (ksum_seq O (fun x => mm (length l) (adj (fun t k => me (nth t l one_by_one) x k)) (fun t k => me (nth t l one_by_one) x k) i j)).
  rewrite <- (bsum_ksum_nth l one_by_one). unfold mm. rewrite bsum_swap. apply bsum_ext; intros t Ht. destruct (nth_fits _ _ _ t F Ht) as [-> _]. reflexivity.
Qed.
Lemma comp_power O D l n : fits O D l -> same_cross (length l ^ n) (D ^ n) (power_ops (comp O D l) n) (comp (O ^ n) (D ^ n) (power_ops l n)).
Proof.
  intros F. induction n as [|n IH].
  - intros t i s j Ht _ Hs _. cbn [power_ops Nat.pow] in *. replace t with 0%nat by lia. replace s with 0%nat by lia. rewrite comp_cross. unfold cross. cbn. apply CC_eq; cbn; ring.
  - cbn [power_ops Nat.pow]. intros t i s j Ht Hi Hs Hj. pose proof (fits_power _ _ _ n F) as Fn. pose proof (power_len l n) as L.
    rewrite (cross_tens _ _ (length l ^ n) (D ^ n)) by (apply fits_power, comp_fits). rewrite IH by (eapply mod_lt_mul; eassumption). rewrite !comp_cross. rewrite <- L in Ht, Hs. rewrite <- L.
    rewrite !tens_nth by assumption. rewrite <- bsum_kron. apply bsum_ext; intros x Hx. unfold tens. cbn [me].
    destruct (nth_fits _ _ _ (t mod length (power_ops l n)) Fn ltac:(eapply mod_lt_mul; eassumption)) as [-> ->]. destruct (nth_fits _ _ _ (s mod length (power_ops l n)) Fn ltac:(eapply mod_lt_mul; eassumption)) as [-> ->]. rewrite sconj_mul. ring.
Qed.
(** the entropies of the two views are each other's *)
Lemma comp_entropies O D l n rho t : fits O D l -> density (D ^ n) rho -> entropies (O ^ n) (power_ops l n) rho t -> entropies (length l ^ n) (power_ops (comp O D l) n) rho (snd t, fst t).
Proof.
  intros F DR [V1 V2]. pose proof (fits_power _ _ _ n F) as Fn. pose proof (comp_fits (O ^ n) (D ^ n) (power_ops l n)) as Fc. rewrite power_len in Fc. pose proof (fits_power _ _ _ n (comp_fits O D l)) as Fp.
  pose proof (comp_power O D l n F) as SC. rewrite power_len in V2. split; cbn [fst snd].
  - apply (von_ext _ (exchange_entry (power_ops l n) rho)); [|exact V2]. intros x y Hx Hy. destruct (same_maps _ _ _ _ rho Fp Fc SC) as [M _]. rewrite M by assumption. symmetry. apply (comp_map (O ^ n)); [exact Fn|rewrite power_len; assumption..].
  - destruct (von_exists (length (power_ops (comp O D l) n)) (exchange_entry (power_ops (comp O D l) n) rho)) as (w & Hw); [apply (exchange_hermitian (length l ^ n) (D ^ n)); [exact Fp|apply DR]|].
    assert (W : von_neumann (length (comp (O ^ n) (D ^ n) (power_ops l n))) (exchange_entry (comp (O ^ n) (D ^ n) (power_ops l n)) rho) (fst t)).
    { rewrite comp_len. apply (von_ext _ (channel_map (power_ops l n) rho)); [|exact V1]. intros x y Hx Hy. symmetry. apply comp_exchange; assumption. }
    replace (fst t) with w; [exact Hw|]. apply (von_unique _ _ _ _ _ _ Hw W). intros p. apply (same_exchange (length l ^ n) (D ^ n)); [exact Fp|exact Fc|exact SC|apply DR].
Qed.
Theorem imitated_neg O D a n rho t : fits O D a -> trace_preserving D a -> environment_imitates O a -> density (D ^ n) rho -> entropies (O ^ n) (power_ops a n) rho t -> (fst t - snd t <= 0)%R.
Proof.
  intros F T (m & Fm & Tm & H) DR V. assert (P : processed (length a) O (comp O D a) a).
  { exists m. split; [exact Fm|]. split; [exact Tm|]. intros rho0 x y Hx Hy. rewrite H by assumption. apply (channel_map_same O (length a)); [exact Fm|apply same_ops_refl| |exact Hx|exact Hy]. intros i j Hi Hj. symmetry. apply comp_map; assumption. }
  destruct (processed_cross (length a) O D _ _ (comp_fits O D a) F P) as (m' & Fm' & Tm' & SC).
  pose proof (processing_power O (length a) D m' (comp O D a) a n rho (snd t, fst t) t Fm' (comp_fits O D a) F Tm' (comp_tp O D a F T) SC DR (comp_entropies O D a n rho t F DR V) V) as K. cbn [fst snd] in K. lra.
Qed.
Theorem imitates_pos O D a n rho t : fits O D a -> trace_preserving D a -> output_imitates O a -> density (D ^ n) rho -> entropies (O ^ n) (power_ops a n) rho t -> (0 <= fst t - snd t)%R.
Proof.
  intros F T (m & Fm & Tm & H) DR V. assert (P : processed O (length a) a (comp O D a)).
  { exists m. split; [exact Fm|]. split; [exact Tm|]. intros rho0 x y Hx Hy. rewrite <- H by assumption. apply comp_map; assumption. }
  destruct (processed_cross O (length a) D _ _ F (comp_fits O D a) P) as (m' & Fm' & Tm' & SC).
  pose proof (processing_power (length a) O D m' a (comp O D a) n rho t (snd t, fst t) Fm' F (comp_fits O D a) Tm' T SC DR V (comp_entropies O D a n rho t F DR V)) as K. cbn [fst snd] in K. lra.
Qed.
