(** Processing the output of a channel does not increase its coherent information. *)
From Verif Require Import Py Scalar PauliModel PauliSpec EncoderProofs EighExists Spectral SpectralProofs PowerSums KrausModel KrausSpec KrausProofs KrausProofs2 KrausProofs5 KrausProofs6 KrausProofs8 KrausProofs11 KrausProofs12
  ChoiModel ChannelModel ChannelSpec ChoiSpec ChoiProofs ChoiProofs2 ChoiProofs3 Sqrt EntropyProofs EntropySpec Subadd CohProofs CohProofs2 CohProofs3 CohProofs4 RelativeReal Relative.
From Coq Require Import Reals Lra FunctionalExtensionality.
Open Scope nat_scope.
Open Scope K_scope.
Add Ring CCring44 : (s_rt CC).

(** ** a state of two systems and its marginal *)
Section Marginal.
Variables (p r : nat) (X UA UB : array CC) (a b : nat -> R).
Hypothesis DX : density (p * r) X.
Hypothesis EA : eigen_decomposition p (trace_out_right r X) a UA.
Hypothesis EB : eigen_decomposition r (trace_out_left p r X) b UB.
Let F := kf r r UA UB.
Lemma marginal_eig : eigen_decomposition (p * r) (kf r r (trace_out_right r X) eye) (fun x => a (x / r)%nat) F.
Proof.
  split; [apply unitary_kf; [apply EA|apply EB]|]. intros i j Hi Hj. unfold F. rewrite mm_kf. unfold kf. destruct EA as [_ E].
  rewrite E, mm_eye_l by first [eapply mod_lt_mul; eassumption|eapply div_lt_mul; eassumption]. ring.
Qed.
Lemma marginal_term k l : k < p -> l < r -> (0 <= weight (p * r) X F (k * r + l) <= a k)%R.
Proof.
  intros Hk Hl. split; [exact (w_nonneg p r X UA UB DX k l Hk Hl)|]. rewrite (a_sum p r X UA UB a b EA EB k Hk).
  apply (rsum_term r (fun l => weight (p * r) X F (k * r + l))); [|exact Hl]. intros t Ht. exact (w_nonneg p r X UA UB DX k t Hk Ht).
Qed.
Lemma marginal_support x : x < p * r -> a (x / r)%nat = 0%R -> weight (p * r) X F x = 0%R.
Proof.
  intros Hx Z. assert (r <> 0)%nat by lia. assert (H1 : (x / r < p)%nat) by (apply Nat.div_lt_upper_bound; lia). assert (H2 : (x mod r < r)%nat) by (apply Nat.mod_upper_bound; lia).
  pose proof (marginal_term _ _ H1 H2) as B. rewrite Z in B. replace (x / r * r + x mod r)%nat with x in B by (rewrite (Nat.mul_comm (x / r)); apply Nat.div_mod; assumption). lra.
Qed.
Lemma marginal_logs : rsum (p * r) (fun x => weight (p * r) X F x * ln (a (x / r)%nat))%R = rsum p (fun k => a k * ln (a k))%R.
Proof.
  rewrite rsum_blocks. apply rsum_ext. intros k Hk. transitivity (rsum r (fun l => weight (p * r) X F (k * r + l) * ln (a k)))%R.
  - apply rsum_ext. intros l Hl. destruct (divmod_l r k l Hl) as [-> _]. reflexivity.
  - rewrite rsum_scale_r. f_equal. symmetry. exact (a_sum p r X UA UB a b EA EB k Hk).
Qed.
End Marginal.

(** ** processing one of the two systems *)
Definition keep (D : nat) : list (marr CC) := [MA D D eye].
Lemma keep_fits D : fits D D (keep D). Proof. repeat constructor. Qed.
Lemma keep_tp D : trace_preserving D (keep D).
Proof. intros i j Hi Hj. unfold keep. cbn [map mr me]. rewrite ksum_cons, ksum_nil. rewrite mm_eye_r by exact Hj. unfold adj, eye. rewrite (Nat.eqb_sym j i). destruct (i =? j)%nat; [rewrite sconj_1|rewrite sconj_0]; ring. Qed.
Lemma keep_map D (Z : array CC) : eqm D D (channel_map (keep D) Z) Z.
Proof.
  intros i j Hi Hj. unfold channel_map, keep. cbn [map mc me]. rewrite ksum_cons, ksum_nil.
  transitivity (mm D Z eye i j + 0); [|rewrite mm_eye_r by exact Hj; ring]. f_equal. apply mm_ext; [intros; apply mm_eye_l, Hi|]. intros k Hk. apply adj_eye.
Qed.

Section Joint.
Variables (E O D : nat) (m l : list (marr CC)) (rho S : array CC).
Hypothesis Fm : fits E O m.
Hypothesis Fl : fits O D l.
Hypothesis SR : square_root D rho S.
Let step := tens_ops m (keep D).
Let vec (B : marr CC) x := mm D (me B) S (x / D)%nat (x mod D)%nat.
Lemma joint_list k x y : joint D k S x y = ksum (map (fun B => vec B x * (vec B y)^* ) k).
Proof. unfold joint, mm at 1, adj. apply (bsum_ksum_nth k one_by_one (fun B => vec B x * (vec B y)^* )). Qed.
Lemma step_vec A B x : mc A = O -> x < E * D -> bsum (O * D) (fun k => me (tens A (MA D D eye)) x k * vec B k) = mm D (mm O (me A) (me B)) S (x / D)%nat (x mod D)%nat.
Proof.
  intros HA Hx. assert (Hd : (x mod D < D)%nat) by (apply Nat.mod_upper_bound; lia). rewrite mmA, bsum_blocks. unfold mm at 1. apply bsum_ext; intros i Hi. rewrite (bsum_one D (x mod D)%nat).
  - unfold tens, vec. cbn [me mr mc]. destruct (divmod_l D i (x mod D)%nat Hd) as [-> ->]. unfold eye. rewrite Nat.eqb_refl. ring.
  - exact Hd.
  - intros j Hj N. unfold tens. cbn [me mr mc]. destruct (divmod_l D i j Hj) as [_ ->]. unfold eye. destruct (Nat.eqb_spec (x mod D) j); [congruence|]. ring.
Qed.
Lemma joint_step : eqm (E * D) (E * D) (channel_map step (joint D l S)) (joint D (prod_ops m l) S).
Proof.
  intros x y Hx Hy. rewrite joint_list. unfold channel_map, step, tens_ops, prod_ops. rewrite !ksum_flat. apply ksum_ext. intros A HA. destruct (in_fits _ _ _ _ Fm HA) as [E1 E2].
  unfold keep. cbn [map]. rewrite ksum_cons, ksum_nil. rewrite map_map. unfold vec at 1 2. cbn [me]. rewrite E2.
  transitivity (ksum (map (fun B => bsum (O * D) (fun k => me (tens A (MA D D eye)) x k * vec B k) * (bsum (O * D) (fun k => me (tens A (MA D D eye)) y k * vec B k))^* ) l)).
  - cbn [mc tens]. rewrite E2. set (T := me (tens A (MA D D eye))).
    transitivity (mm (O * D) (mm (O * D) T (fun a b => ksum (map (fun B => vec B a * (vec B b)^* ) l))) (adj T) x y).
    { replace (joint D l S) with (fun a b => ksum (map (fun B => vec B a * (vec B b)^* ) l)) by (extensionality a; extensionality b; symmetry; apply joint_list). ring. }
    rewrite (mm_ext (O * D) _ (fun a b => ksum (map (fun B => mm (O * D) T (fun a b => vec B a * (vec B b)^* ) a b) l)) (adj T) (adj T)) by (intros; first [apply (mm_lin_r (O * D) T (fun B a b => vec B a * (vec B b)^* ))|reflexivity]).
    rewrite mm_lin_l. apply ksum_ext. intros B HB. unfold mm, adj. rewrite bsum_conj, <- bsum_mul_l. apply bsum_ext; intros k Hk. rewrite <- !bsum_mul_r. rewrite sconj_mul. apply bsum_ext; intros; ring.
  - apply ksum_ext. intros B HB. rewrite !step_vec by assumption. reflexivity.
Qed.
Lemma joint_marginal k P : fits P D k -> trace_out_right D (joint D k S) = channel_map k rho.
Proof. intros Fk. extensionality x. extensionality y. unfold joint. rewrite (X_right D (length k) (fun a i t => mm D (me (nth t k one_by_one)) S a i)). apply (out_red D P k rho S Fk SR). Qed.
End Joint.

Theorem processing E O D m l rho t1 t2 u1 u2 : fits E O m -> fits O D l -> trace_preserving O m -> trace_preserving D l -> density D rho ->
  von_neumann O (channel_map l rho) t1 -> von_neumann (length l) (exchange_entry l rho) t2 ->
  von_neumann E (channel_map (prod_ops m l) rho) u1 -> von_neumann (length (prod_ops m l)) (exchange_entry (prod_ops m l) rho) u2 -> (u1 - u2 <= t1 - t2)%R.
Proof.
  intros Fm Fl Tm Tl DR V1 V2 W1 W2. destruct (square_root_exists D rho) as (S & SR); [apply DR|].
  pose proof (fits_prod E O D m l Fm Fl) as Fp. pose proof (tp_prod E O D m l Fm Fl Tm Tl) as Tp.
  pose proof (joint_density D O l rho S Fl SR Tl DR) as DJ. pose proof (joint_density D E _ rho S Fp SR Tp DR) as DK.
  pose proof (channel_density O D l rho Fl Tl DR) as DO. pose proof (channel_density E D _ rho Fp Tp DR) as DE.
  destruct (von_exists _ _ (proj1 DJ)) as (sj & VJ). destruct (von_exists _ _ (proj1 DK)) as (sk & VK).
  assert (sj = t2) by (apply (von_unique _ _ _ _ _ _ VJ V2); intros; apply joint_traces; assumption). assert (sk = u2) by (apply (von_unique _ _ _ _ _ _ VK W2); intros; apply joint_traces; assumption). subst sj sk.
  set (XJ := joint D l S) in *. set (XK := joint D (prod_ops m l) S) in *.
  assert (MJ : trace_out_right D XJ = channel_map l rho) by (apply (joint_marginal D rho S SR l O Fl)). assert (MK : trace_out_right D XK = channel_map (prod_ops m l) rho) by (apply (joint_marginal D rho S SR _ E Fp)).
  assert (HB : forall P X, density (P * D) X -> exists U b, eigen_decomposition D (trace_out_left P D X) b U).
  { intros P X H. assert (hermitian D (trace_out_left P D X)).
    { intros i j Hi Hj. unfold adj, trace_out_left. rewrite bsum_conj. apply bsum_ext; intros t Ht. apply (proj1 H); nia. }
    destruct (spectral D _ H0) as (U & b & EB). exists U, b. exact EB. }
  destruct (von_form _ _ _ (proj1 (proj2 DJ)) VJ) as (UJ & ej & EJ & ->). destruct (von_form _ _ _ (proj1 (proj2 DK)) VK) as (UK & ek & EK & ->).
  destruct (von_form _ _ _ (proj1 (proj2 DO)) V1) as (UA & a & EA & ->). destruct (von_form _ _ _ (proj1 (proj2 DE)) W1) as (UE & c & EC & ->).
  destruct (HB O XJ DJ) as (UB & b & EB). destruct (HB E XK DK) as (UF & f & EF). rewrite <- MJ in EA. rewrite <- MK in EC.
  set (step := tens_ops m (keep D)). assert (Fs : fits (E * D) (O * D) step) by (apply fits_tens; [exact Fm|apply keep_fits]).
  assert (Ts : trace_preserving (O * D) step) by (apply (tp_tens E O D D); [exact Fm|apply keep_fits|exact Tm|apply keep_tp]).
  pose proof (joint_step E O D m l S Fm) as JS. fold step XJ XK in JS.
  assert (SS : eqm (E * D) (E * D) (channel_map step (kf D D (trace_out_right D XJ) eye)) (kf D D (trace_out_right D XK) eye)).
  { intros i j Hi Hj. unfold step. rewrite (channel_tens E O D D m (keep D) _ _ Fm (keep_fits D)). apply (kf_ext E D E D); [| |exact Hi|exact Hj].
    - rewrite MJ, MK. intros x y Hx Hy. symmetry. apply (channel_prod E O D); assumption.
    - apply keep_map. }
  assert (PA : psd O (trace_out_right D XJ)) by (rewrite MJ; apply DO).
  assert (PE : psd D (@eye CC)). { apply (psd_ext D (mm D eye (adj eye))); [|apply psd_outer]. intros i j Hi Hj. rewrite mm_eye_l by exact Hi. apply adj_eye. }
  assert (K := data_processing (E * D) (O * D) step XJ (kf D D (trace_out_right D XJ) eye) UJ (kf D D UA UB) UK (kf D D UE UF) ej (fun x => a (x / D)%nat) ek (fun x => c (x / D)%nat)
    Fs Ts (proj1 (proj2 DJ)) (psd_kf O D _ _ PA PE) EJ (marginal_eig O D XJ UA UB a b EA EB) (eigen_ext _ _ _ _ _ (eqm_sym _ _ _ _ JS) EK)
    (eigen_ext _ _ _ _ _ (eqm_sym _ _ _ _ SS) (marginal_eig E D XK UE UF c f EC EF)) (marginal_support O D XJ UA UB a b DJ EA EB)).
  assert (WE : forall j, weight (E * D) (channel_map step XJ) (kf D D UE UF) j = weight (E * D) XK (kf D D UE UF) j).
  { intros j. unfold weight, quad. f_equal. apply bsum_ext; intros x Hx. apply bsum_ext; intros y Hy. rewrite JS by assumption. reflexivity. }
  assert (K' : (rsum (O * D) (fun j => weight (O * D) XJ (kf D D UA UB) j * ln (a (j / D)%nat)) - rsum (O * D) (fun i => ej i * ln (ej i)) <=
    rsum (E * D) (fun j => weight (E * D) XK (kf D D UE UF) j * ln (c (j / D)%nat)) - rsum (E * D) (fun i => ek i * ln (ek i)))%R).
  { rewrite <- (rsum_ext (E * D) (fun j => weight (E * D) (channel_map step XJ) (kf D D UE UF) j * ln (c (j / D)%nat))%R) by (intros; rewrite WE; reflexivity). apply K.
    intros j Hj Z. rewrite WE. exact (marginal_support E D XK UE UF c f DK EC EF j Hj Z). }
  rewrite (marginal_logs O D XJ UA UB a b EA EB), (marginal_logs E D XK UE UF c f EC EF) in K'.
  pose proof (Rinv_0_lt_compat _ ln2_pos). unfold Rdiv. nra.
Qed.
