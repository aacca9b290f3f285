(** Several uses and mixtures of inputs of a channel whose output can imitate its environment. *)
From Verif Require Import Py Scalar PauliModel PauliSpec EncoderProofs EighExists Spectral SpectralProofs PowerSums KrausModel KrausSpec KrausProofs KrausProofs2 KrausProofs5 KrausProofs6 KrausProofs8 KrausProofs11 KrausProofs12
  ChoiModel ChannelModel ChannelSpec ChoiSpec ChoiProofs ChoiProofs2 ChoiProofs3 Sqrt EntropyProofs EntropySpec Subadd CohProofs CohProofs2 CohProofs3 CohProofs4 RelativeReal Relative Processing ProcessingSpec Processing2.
From Coq Require Import Reals Lra.
From Verif Require Import Processing2.
Open Scope nat_scope.
Open Scope K_scope.
Add Ring CCring47 : (s_rt CC).

(** ** a state of two systems against the product of its marginals *)
Section Product.
Variables (p r : nat) (X UA UB : array CC) (a b : nat -> R).
Hypothesis DX : density (p * r) X.
Hypothesis EA : eigen_decomposition p (trace_out_right r X) a UA.
Hypothesis EB : eigen_decomposition r (trace_out_left p r X) b UB.
Let F := kf r r UA UB.
Let q x := (a (x / r)%nat * b (x mod r)%nat)%R.
Lemma product_eig : eigen_decomposition (p * r) (kf r r (trace_out_right r X) (trace_out_left p r X)) q F.
Proof.
  split; [apply unitary_kf; [apply EA|apply EB]|]. intros i j Hi Hj. unfold F. rewrite mm_kf. unfold kf. destruct EA as [_ E1], EB as [_ E2].
  rewrite E1, E2 by first [eapply mod_lt_mul; eassumption|eapply div_lt_mul; eassumption]. unfold q. 
  replace (((a (j / r)%nat * b (j mod r)%nat)%R, 0%R) : CC) with (((a (j / r)%nat, 0%R) : CC) * ((b (j mod r)%nat, 0%R) : CC)) by (apply CC_eq; cbn; ring). ring.
Qed.
Lemma product_term k l : k < p -> l < r -> (0 <= weight (p * r) X F (k * r + l) <= a k)%R /\ (weight (p * r) X F (k * r + l) <= b l)%R.
Proof.
  intros Hk Hl. split; [exact (marginal_term p r X UA UB a b DX EA EB k l Hk Hl)|]. rewrite (b_sum p r X UA UB a b EA EB l Hl).
  apply (rsum_term p (fun k => weight (p * r) X F (k * r + l))); [|exact Hk]. intros t Ht. exact (w_nonneg p r X UA UB DX t l Ht Hl).
Qed.
Lemma product_zero k l : k < p -> l < r -> a k = 0%R \/ b l = 0%R -> weight (p * r) X F (k * r + l) = 0%R.
Proof. intros Hk Hl Z. destruct (product_term k l Hk Hl) as [B1 B2]. destruct Z as [Z|Z]; rewrite Z in *; lra. Qed.
Lemma product_support x : x < p * r -> q x = 0%R -> weight (p * r) X F x = 0%R.
Proof.
  intros Hx Z. assert (r <> 0)%nat by lia. assert (H1 : (x / r < p)%nat) by (apply Nat.div_lt_upper_bound; lia). assert (H2 : (x mod r < r)%nat) by (apply Nat.mod_upper_bound; lia).
  replace x with (x / r * r + x mod r)%nat by (rewrite (Nat.mul_comm (x / r)); symmetry; apply Nat.div_mod; assumption). apply product_zero; [assumption..|]. apply Rmult_integral, Z.
Qed.
Lemma product_logs : rsum (p * r) (fun x => weight (p * r) X F x * ln (q x))%R = (rsum p (fun k => a k * ln (a k)) + rsum r (fun l => b l * ln (b l)))%R.
Proof.
  rewrite rsum_blocks. transitivity (rsum p (fun k => rsum r (fun l => weight (p * r) X F (k * r + l) * ln (a k) + weight (p * r) X F (k * r + l) * ln (b l)))%R).
  - apply rsum_ext. intros k Hk. apply rsum_ext. intros l Hl. unfold q. destruct (divmod_l r k l Hl) as [-> ->]. destruct (product_term k l Hk Hl) as [B1 B2].
    destruct (Req_dec (a k) 0) as [Z|N]; [rewrite (product_zero k l Hk Hl (or_introl Z)); ring|]. destruct (Req_dec (b l) 0) as [Z|N']; [rewrite (product_zero k l Hk Hl (or_intror Z)); ring|]. rewrite ln_mult by lra. ring.
  - rewrite (rsum_ext p _ (fun k => a k * ln (a k) + rsum r (fun l => weight (p * r) X F (k * r + l) * ln (b l)))%R).
    + rewrite rsum_add. f_equal. rewrite rsum_swap. apply rsum_ext. intros l Hl. rewrite rsum_scale_r, (b_sum p r X UA UB a b EA EB l Hl). reflexivity.
    + intros k Hk. rewrite rsum_add. f_equal. rewrite rsum_scale_r, (a_sum p r X UA UB a b EA EB k Hk). reflexivity.
Qed.
End Product.

(** ** marginals of outputs *)
Lemma cross_diag E O m u v : fits E O m -> trace_preserving O m -> u < O -> v < O -> bsum E (fun t => cross m t u t v) = eye u v.
Proof.
  intros F T Hu Hv. replace (@eye CC u v) with (@eye CC v u) by (unfold eye; rewrite Nat.eqb_sym; reflexivity). rewrite <- (T v u Hv Hu). unfold cross. rewrite <- ksum_bsum. apply ksum_ext. intros A HA. destruct (in_fits _ _ _ _ F HA) as [-> _].
  unfold mm, adj. apply bsum_ext; intros t Ht. ring.
Qed.
Section Marg.
Variables (E1 O1 E2 O2 : nat) (m1 m2 : list (marr CC)) (X : array CC).
Hypothesis F1 : fits E1 O1 m1.
Hypothesis F2 : fits E2 O2 m2.
Let Y := channel_map (tens_ops m1 m2) X.
Lemma Y_entry x t y s : t < E2 -> s < E2 -> Y (x * E2 + t)%nat (y * E2 + s)%nat =
  bsum O1 (fun j => bsum O2 (fun v => bsum O1 (fun i => bsum O2 (fun u => cross m1 x i y j * cross m2 t u s v * X (i * O2 + u)%nat (j * O2 + v)%nat)))).
Proof.
  intros Ht Hs. unfold Y. rewrite (channel_cross (E1 * E2) (O1 * O2)) by (apply fits_tens; assumption). rewrite bsum_blocks. apply bsum_ext; intros j Hj. apply bsum_ext; intros v Hv. rewrite bsum_blocks.
  apply bsum_ext; intros i Hi. apply bsum_ext; intros u Hu. rewrite (cross_tens m1 m2 E2 O2) by exact F2.
  destruct (divmod_l E2 x t Ht) as [-> ->]. destruct (divmod_l E2 y s Hs) as [-> ->]. destruct (divmod_l O2 i u Hu) as [-> ->]. destruct (divmod_l O2 j v Hv) as [-> ->]. reflexivity.
Qed.
Lemma first_out x y : trace_preserving O2 m2 -> trace_out_right E2 Y x y = channel_map m1 (trace_out_right O2 X) x y.
Proof.
  intros T2. unfold trace_out_right at 1. rewrite (bsum_ext E2 _ _ (fun t Ht => Y_entry x t y t Ht Ht)). rewrite (channel_cross E1 O1) by exact F1.
  rewrite bsum_swap. apply bsum_ext; intros j Hj. rewrite bsum_swap. rewrite (bsum_ext O2 _ _ (fun v Hv => bsum_swap _ _ _)). rewrite bsum_swap. apply bsum_ext; intros i Hi.
  transitivity (bsum O2 (fun v => bsum O2 (fun u => cross m1 x i y j * eye u v * X (i * O2 + u)%nat (j * O2 + v)%nat))).
  - apply bsum_ext; intros v Hv. rewrite bsum_swap. apply bsum_ext; intros u Hu. rewrite <- (cross_diag E2 O2 m2 u v F2 T2 Hu Hv). rewrite <- bsum_mul_l, <- bsum_mul_r. reflexivity.
  - unfold trace_out_right. rewrite <- bsum_mul_l. apply bsum_ext; intros v Hv. rewrite (bsum_one O2 v); [unfold eye; rewrite Nat.eqb_refl; ring|exact Hv|].
    intros u Hu N. unfold eye. destruct (Nat.eqb_spec u v); [contradiction|ring].
Qed.
Lemma rest_out t s : trace_preserving O1 m1 -> t < E2 -> s < E2 -> trace_out_left E1 E2 Y t s = channel_map m2 (trace_out_left O1 O2 X) t s.
Proof.
  intros T1 Ht Hs. unfold trace_out_left at 1. rewrite (bsum_ext E1 _ _ (fun x Hx => Y_entry x t x s Ht Hs)). rewrite (channel_cross E2 O2) by exact F2.
  rewrite bsum_swap. transitivity (bsum O1 (fun j => bsum O2 (fun v => bsum O1 (fun i => bsum O2 (fun u => eye i j * cross m2 t u s v * X (i * O2 + u)%nat (j * O2 + v)%nat))))).
  - apply bsum_ext; intros j Hj. rewrite bsum_swap. apply bsum_ext; intros v Hv. rewrite bsum_swap. apply bsum_ext; intros i Hi. rewrite bsum_swap. apply bsum_ext; intros u Hu.
    rewrite <- (cross_diag E1 O1 m1 i j F1 T1 Hi Hj). rewrite <- !bsum_mul_r. reflexivity.
  - rewrite bsum_swap. apply bsum_ext; intros v Hv. transitivity (bsum O1 (fun j => bsum O2 (fun u => cross m2 t u s v * X (j * O2 + u)%nat (j * O2 + v)%nat))).
    + apply bsum_ext; intros j Hj. rewrite (bsum_one O1 j); [apply bsum_ext; intros u Hu; unfold eye; rewrite Nat.eqb_refl; ring|exact Hj|]. intros i Hi N. apply bsum_zero; intros u Hu. unfold eye. destruct (Nat.eqb_spec i j); [contradiction|ring].
    + rewrite bsum_swap. apply bsum_ext; intros u Hu. unfold trace_out_left. rewrite <- bsum_mul_l. reflexivity.
Qed.
End Marg.

(** ** marginals are states *)
Lemma first_quad p r (X : array CC) v : quad p (trace_out_right r X) v = bsum r (fun t => quad (p * r) X (fun x => if x mod r =? t then v (x / r)%nat else 0)).
Proof.
  transitivity (bsum r (fun t => bsum p (fun i => bsum p (fun j => (v i)^* * X (i * r + t)%nat (j * r + t)%nat * v j)))).
  - unfold quad, trace_out_right. symmetry. rewrite bsum_swap. apply bsum_ext; intros i Hi. rewrite bsum_swap. apply bsum_ext; intros j Hj. rewrite bsum_mul_r, bsum_mul_l. reflexivity.
  - apply bsum_ext; intros t Ht. rewrite quad_blocks. apply bsum_ext; intros i Hi. apply bsum_ext; intros j Hj. rewrite (bsum_one r t); [|exact Ht|].
    + rewrite (bsum_one r t); [|exact Ht|].
      * destruct (divmod_l r i t Ht) as [-> ->]. destruct (divmod_l r j t Ht) as [-> ->]. rewrite Nat.eqb_refl. reflexivity.
      * intros s Hs N. destruct (divmod_l r j s Hs) as [_ ->]. destruct (Nat.eqb_spec s t); [contradiction|ring].
    + intros s Hs N. apply bsum_zero; intros s' Hs'. destruct (divmod_l r i s Hs) as [_ ->]. destruct (Nat.eqb_spec s t); [contradiction|]. rewrite sconj_0. ring.
Qed.
Lemma rest_quad p r (X : array CC) v : quad r (trace_out_left p r X) v = bsum p (fun i => quad (p * r) X (fun x => if x / r =? i then v (x mod r)%nat else 0)).
Proof.
  transitivity (bsum p (fun i => bsum r (fun t => bsum r (fun s => (v t)^* * X (i * r + t)%nat (i * r + s)%nat * v s)))).
  - unfold quad, trace_out_left. symmetry. rewrite bsum_swap. apply bsum_ext; intros i Hi. rewrite bsum_swap. apply bsum_ext; intros j Hj. rewrite bsum_mul_r, bsum_mul_l. reflexivity.
  - apply bsum_ext; intros i Hi. rewrite quad_blocks. rewrite (bsum_one p i); [|exact Hi|].
    + rewrite (bsum_one p i); [|exact Hi|].
      * apply bsum_ext; intros t Ht. apply bsum_ext; intros s Hs. destruct (divmod_l r i t Ht) as [-> ->]. destruct (divmod_l r i s Hs) as [-> ->]. rewrite Nat.eqb_refl. reflexivity.
      * intros j Hj N. apply bsum_zero; intros t Ht. apply bsum_zero; intros s Hs. destruct (divmod_l r j s Hs) as [-> _]. destruct (Nat.eqb_spec j i); [contradiction|ring].
    + intros j Hj N. apply bsum_zero; intros j' Hj'. apply bsum_zero; intros t Ht. apply bsum_zero; intros s Hs. destruct (divmod_l r j t Ht) as [-> _]. destruct (Nat.eqb_spec j i); [contradiction|]. rewrite sconj_0. ring.
Qed.
Lemma first_density p r X : density (p * r) X -> density p (trace_out_right r X).
Proof.
  intros (_ & P & T). assert (P' : psd p (trace_out_right r X)) by (apply psd_quad; intros v; rewrite first_quad; apply nonneg_bsum; intros t Ht; apply psd_quad, P).
  split; [apply psd_hermitian, P'|]. split; [exact P'|]. rewrite tr_A. exact T.
Qed.
Lemma rest_density p r X : density (p * r) X -> density r (trace_out_left p r X).
Proof.
  intros (_ & P & T). assert (P' : psd r (trace_out_left p r X)) by (apply psd_quad; intros v; rewrite rest_quad; apply nonneg_bsum; intros t Ht; apply psd_quad, P).
  split; [apply psd_hermitian, P'|]. split; [exact P'|]. rewrite tr_B. exact T.
Qed.

(** ** the mutual information does not grow when both systems are processed *)
Theorem mutual E1 O1 E2 O2 m1 m2 X x1 x2 x y1 y2 y : fits E1 O1 m1 -> fits E2 O2 m2 -> trace_preserving O1 m1 -> trace_preserving O2 m2 -> density (O1 * O2) X ->
  von_neumann (O1 * O2) X x -> von_neumann O1 (trace_out_right O2 X) x1 -> von_neumann O2 (trace_out_left O1 O2 X) x2 ->
  von_neumann (E1 * E2) (channel_map (tens_ops m1 m2) X) y -> von_neumann E1 (channel_map m1 (trace_out_right O2 X)) y1 -> von_neumann E2 (channel_map m2 (trace_out_left O1 O2 X)) y2 ->
  (y1 + y2 - y <= x1 + x2 - x)%R.
Proof.
  intros F1 F2 T1 T2 DX VX VX1 VX2 VY VY1 VY2. set (st := tens_ops m1 m2) in *. assert (Fs : fits (E1 * E2) (O1 * O2) st) by (apply fits_tens; assumption). assert (Ts : trace_preserving (O1 * O2) st) by (apply (tp_tens E1 O1 E2 O2); assumption).
  pose proof (channel_density _ _ st X Fs Ts DX) as DY. set (Y := channel_map st X) in *.
  pose proof (first_density _ _ _ DX) as DX1. pose proof (rest_density _ _ _ DX) as DX2. pose proof (first_density _ _ _ DY) as DY1. pose proof (rest_density _ _ _ DY) as DY2.
  assert (M1 : eqm E1 E1 (channel_map m1 (trace_out_right O2 X)) (trace_out_right E2 Y)) by (intros i j Hi Hj; symmetry; apply (first_out E1 O1 E2 O2); assumption).
  assert (M2 : eqm E2 E2 (channel_map m2 (trace_out_left O1 O2 X)) (trace_out_left E1 E2 Y)) by (intros i j Hi Hj; symmetry; apply (rest_out E1 O1 E2 O2); assumption).
  apply (von_ext _ _ _ _ M1) in VY1. apply (von_ext _ _ _ _ M2) in VY2.
  destruct (von_form _ _ _ (proj1 (proj2 DX)) VX) as (UX & ex & EX & ->). destruct (von_form _ _ _ (proj1 (proj2 DY)) VY) as (UY & ey & EY & ->).
  destruct (von_form _ _ _ (proj1 (proj2 DX1)) VX1) as (UA & a & EA & ->). destruct (von_form _ _ _ (proj1 (proj2 DX2)) VX2) as (UB & b & EB & ->).
  destruct (von_form _ _ _ (proj1 (proj2 DY1)) VY1) as (UC & c & EC & ->). destruct (von_form _ _ _ (proj1 (proj2 DY2)) VY2) as (UF & f & EF & ->).
  assert (SS : eqm (E1 * E2) (E1 * E2) (channel_map st (kf O2 O2 (trace_out_right O2 X) (trace_out_left O1 O2 X))) (kf E2 E2 (trace_out_right E2 Y) (trace_out_left E1 E2 Y))).
  { intros i j Hi Hj. unfold st. rewrite (channel_tens E1 O1 E2 O2 m1 m2 _ _ F1 F2). apply (kf_ext E1 E2 E1 E2); assumption. }
  assert (K := data_processing (E1 * E2) (O1 * O2) st X _ UX (kf O2 O2 UA UB) UY (kf E2 E2 UC UF) ex _ ey _
    Fs Ts (proj1 (proj2 DX)) (psd_kf O1 O2 _ _ (proj1 (proj2 DX1)) (proj1 (proj2 DX2))) EX (product_eig O1 O2 X UA UB a b EA EB) EY
    (eigen_ext _ _ _ _ _ (eqm_sym _ _ _ _ SS) (product_eig E1 E2 Y UC UF c f EC EF)) (product_support O1 O2 X UA UB a b DX EA EB) (product_support E1 E2 Y UC UF c f DY EC EF)).
  cbv beta in K. rewrite (product_logs O1 O2 X UA UB a b DX EA EB) in K. fold Y in K. rewrite (product_logs E1 E2 Y UC UF c f DY EC EF) in K.
  pose proof (Rinv_0_lt_compat _ ln2_pos). unfold Rdiv. nra.
Qed.

(** ** the spread of a mixture does not grow when it is processed *)
Lemma mix_quad d k c Z v : quad d (mixture k c Z) v = bsum k (fun x => rc (c x) * quad d (Z x) v).
Proof.
  unfold quad, mixture. rewrite (bsum_ext k _ (fun x => bsum d (fun i => bsum d (fun j => rc (c x) * ((v i)^* * Z x i j * v j))))).
  - symmetry. rewrite bsum_swap. apply bsum_ext; intros i Hi. rewrite bsum_swap. apply bsum_ext; intros j Hj. rewrite <- bsum_mul_l, <- bsum_mul_r. apply bsum_ext; intros x Hx. change ((c x, 0%R) : CC) with (rc (c x)). ring.
  - intros x Hx. rewrite <- bsum_mul_l. apply bsum_ext; intros i Hi. rewrite <- bsum_mul_l. reflexivity.
Qed.
Lemma mix_weight d k c Z W j : weight d (mixture k c Z) W j = rsum k (fun x => c x * weight d (Z x) W j)%R.
Proof. unfold weight. rewrite mix_quad, fst_bsum. apply rsum_ext; intros x Hx. cbn. ring. Qed.
Lemma mix_map O D l k c Z x y : fits O D l -> channel_map l (mixture k c Z) x y = mixture k c (fun t => channel_map l (Z t)) x y.
Proof.
  intros F. unfold mixture at 2. rewrite (channel_cross O D) by exact F. rewrite (bsum_ext k _ (fun t => bsum D (fun j => bsum D (fun i => cross l x i y j * (rc (c t) * Z t i j))))).
  - symmetry. rewrite bsum_swap. apply bsum_ext; intros j Hj. rewrite bsum_swap. apply bsum_ext; intros i Hi. rewrite bsum_mul_l. reflexivity.
  - intros t Ht. rewrite (channel_cross O D) by exact F. rewrite <- bsum_mul_l. apply bsum_ext; intros j Hj. rewrite <- bsum_mul_l. apply bsum_ext; intros i Hi. change ((c t, 0%R) : CC) with (rc (c t)). ring.
Qed.
Lemma mix_density d k c Z : (forall x, x < k -> (0 <= c x)%R /\ density d (Z x)) -> rsum k c = 1%R -> density d (mixture k c Z).
Proof.
  intros H S. assert (P : psd d (mixture k c Z)).
  { apply psd_quad; intros v. rewrite mix_quad. apply nonneg_bsum; intros x Hx. destruct (H x Hx) as [C (_ & P & _)]. destruct (proj1 (psd_quad _ _) P v) as (z & Hz & ->). exists (c x * z)%R. split; [nra|apply CC_eq; cbn; ring]. }
  split; [apply psd_hermitian, P|]. split; [exact P|]. unfold tr, mixture. rewrite bsum_swap. rewrite (bsum_ext k _ (fun x => rc (c x))).
  - rewrite <- rc_sum, S. apply CC_eq; reflexivity.
  - intros x Hx. rewrite bsum_mul_l. destruct (H x Hx) as [_ (_ & _ & T)]. unfold tr in T. rewrite T. change ((c x, 0%R) : CC) with (rc (c x)). ring.
Qed.
Lemma weight_self d A e W j : eigen_decomposition d A e W -> j < d -> weight d A W j = e j.
Proof. intros H Hj. unfold weight. rewrite (eig_quad d A W e H j Hj). reflexivity. Qed.
Theorem spread E O m k c Z s sb u ub : fits E O m -> trace_preserving O m -> (forall x, x < k -> (0 <= c x)%R /\ density O (Z x)) -> rsum k c = 1%R ->
  (forall x, x < k -> von_neumann O (Z x) (s x)) -> von_neumann O (mixture k c Z) sb -> (forall x, x < k -> von_neumann E (channel_map m (Z x)) (u x)) -> von_neumann E (channel_map m (mixture k c Z)) ub ->
  (ub - rsum k (fun x => c x * u x) <= sb - rsum k (fun x => c x * s x))%R.
Proof.
  intros F T H S VS VB US UB. pose proof (mix_density O k c Z H S) as DB. set (X := mixture k c Z) in *. pose proof (channel_density _ _ m X F T DB) as DE.
  destruct (von_form _ _ _ (proj1 (proj2 DB)) VB) as (W & q & EQ & ->). destruct (von_form _ _ _ (proj1 (proj2 DE)) UB) as (W' & q' & EQ' & ->).
  assert (W1 : forall j, j < O -> q j = rsum k (fun x => c x * weight O (Z x) W j)%R). { intros j Hj. rewrite <- mix_weight. symmetry. apply (weight_self O X q W j EQ Hj). }
  assert (W2 : forall j, j < E -> q' j = rsum k (fun x => c x * weight E (channel_map m (Z x)) W' j)%R).
  { intros j Hj. rewrite <- mix_weight. rewrite <- (weight_self E _ q' W' j EQ' Hj). unfold weight, quad. f_equal. apply bsum_ext; intros a Ha. apply bsum_ext; intros b Hb. unfold X. rewrite (mix_map E O m k c Z a b F). reflexivity. }
  assert (P1 : forall x j, x < k -> (0 <= weight O (Z x) W j)%R). { intros x j Hx. destruct (H x Hx) as [_ (_ & P & _)]. unfold weight. destruct (proj1 (psd_quad _ _) P (fun i => W i j)) as (z & Hz & ->). exact Hz. }
  assert (P2 : forall x j, x < k -> (0 <= weight E (channel_map m (Z x)) W' j)%R). { intros x j Hx. destruct (H x Hx) as [_ (_ & P & _)]. unfold weight. destruct (proj1 (psd_quad _ _) (channel_psd _ _ _ _ F P) (fun i => W' i j)) as (z & Hz & ->). exact Hz. }
  assert (ONE : forall x, x < k -> (c x * (rsum O (fun j => weight O (Z x) W j * ln (q j)) + s x * ln 2) <= c x * (rsum E (fun j => weight E (channel_map m (Z x)) W' j * ln (q' j)) + u x * ln 2))%R).
  { intros x Hx. destruct (H x Hx) as [C DZ]. destruct (Req_dec (c x) 0) as [->|N]; [lra|]. apply Rmult_le_compat_l; [exact C|].
    destruct (von_form _ _ _ (proj1 (proj2 DZ)) (VS x Hx)) as (V & e & EE & ->). pose proof (channel_psd _ _ _ _ F (proj1 (proj2 DZ))) as PZ. destruct (von_form _ _ _ PZ (US x Hx)) as (V' & e' & EE' & ->).
    assert (K := data_processing E O m (Z x) X V W V' W' e q e' q' F T (proj1 (proj2 DZ)) (proj1 (proj2 DB)) EE EQ EE' EQ').
    assert (SUP : forall (w : nat -> R) z, (forall y, y < k -> (0 <= w y)%R) -> z = rsum k (fun y => c y * w y)%R -> z = 0%R -> w x = 0%R).
    { intros w z Hw -> Hz. assert (c x * w x <= 0)%R. { rewrite <- Hz. apply (rsum_term k (fun y => c y * w y)%R); [|exact Hx]. intros y Hy. pose proof (Hw y Hy). destruct (H y Hy). nra. } pose proof (Hw x Hx). nra. }
    specialize (K (fun j Hj Hz => SUP _ _ (fun y => P1 y j) (W1 j Hj) Hz) (fun j Hj Hz => SUP _ _ (fun y => P2 y j) (W2 j Hj) Hz)).
    pose proof ln2_pos. unfold Rdiv. rewrite !Rmult_assoc, !Rinv_l by lra. lra. }
  apply rsum_le in ONE. rewrite !(rsum_ext k (fun x => c x * (_ + _))%R _ (fun x _ => Rmult_plus_distr_l _ _ _)), !rsum_add in ONE.
  assert (L1 : rsum k (fun x => c x * rsum O (fun j => weight O (Z x) W j * ln (q j)))%R = rsum O (fun j => q j * ln (q j))%R).
  { rewrite (rsum_ext k _ (fun x => rsum O (fun j => c x * (weight O (Z x) W j * ln (q j)))%R)) by (intros; symmetry; apply rsum_scale). rewrite rsum_swap. apply rsum_ext; intros j Hj. rewrite (rsum_ext k _ (fun x => (c x * weight O (Z x) W j) * ln (q j))%R) by (intros; ring). rewrite rsum_scale_r, <- (W1 j Hj). reflexivity. }
  assert (L2 : rsum k (fun x => c x * rsum E (fun j => weight E (channel_map m (Z x)) W' j * ln (q' j)))%R = rsum E (fun j => q' j * ln (q' j))%R).
  { rewrite (rsum_ext k _ (fun x => rsum E (fun j => c x * (weight E (channel_map m (Z x)) W' j * ln (q' j)))%R)) by (intros; symmetry; apply rsum_scale). rewrite rsum_swap. apply rsum_ext; intros j Hj. rewrite (rsum_ext k _ (fun x => (c x * weight E (channel_map m (Z x)) W' j) * ln (q' j))%R) by (intros; ring). rewrite rsum_scale_r, <- (W2 j Hj). reflexivity. }
  rewrite L1, L2 in ONE. rewrite (rsum_ext k (fun x => c x * (s x * ln 2))%R (fun x => (c x * s x) * ln 2)%R), (rsum_ext k (fun x => c x * (u x * ln 2))%R (fun x => (c x * u x) * ln 2)%R), !rsum_scale_r in ONE by (intros; ring).
  pose proof ln2_pos. pose proof (Rinv_0_lt_compat _ ln2_pos) as I. apply (Rmult_le_compat_r _ _ _ (Rlt_le _ _ I)) in ONE. rewrite !Rmult_plus_distr_r, !Rmult_assoc, !Rinv_r in ONE by lra. unfold Rdiv. lra.
Qed.

(** ** channels whose output can imitate the environment *)
Lemma imitates_cross O D a : fits O D a -> output_imitates O a -> exists m, fits (length a) O m /\ trace_preserving O m /\ same_cross (length a) D (comp O D a) (prod_ops m a).
Proof.
  intros F (m & Fm & Tm & H). apply processed_cross; [exact F|apply comp_fits|]. exists m. split; [exact Fm|]. split; [exact Tm|]. intros rho0 x y Hx Hy. rewrite <- H by assumption. apply comp_map; assumption.
Qed.
(** the environment of n uses *)
Lemma environment O D a m n rho t : fits O D a -> fits (length a) O m -> same_cross (length a) D (comp O D a) (prod_ops m a) -> density (D ^ n) rho -> entropies (O ^ n) (power_ops a n) rho t ->
  von_neumann (length a ^ n) (channel_map (power_ops m n) (channel_map (power_ops a n) rho)) (snd t).
Proof.
  intros F Fm SC DR V. destruct (comp_entropies O D a n rho t F DR V) as [W _]. cbn [fst] in W. revert W. apply von_ext.
  pose proof (fits_power _ _ _ n F) as Fn. pose proof (fits_power _ _ _ n Fm) as Fmn. pose proof (fits_power _ _ _ n (comp_fits O D a)) as Fc.
  pose proof (fits_prod _ _ _ _ _ Fmn Fn) as Fp. pose proof (fits_power _ _ _ n (fits_prod _ _ _ _ _ Fm F)) as Fq.
  assert (S2 : same_cross (length a ^ n) (D ^ n) (power_ops (comp O D a) n) (prod_ops (power_ops m n) (power_ops a n))).
  { apply (same_cross_trans _ _ _ (power_ops (prod_ops m a) n)); [|apply (power_prod (length a) O D); assumption]. apply (cross_power (length a) D); [apply comp_fits|apply (fits_prod _ O); assumption|exact SC]. }
  intros x y Hx Hy. rewrite (proj1 (same_maps _ _ _ _ rho Fc Fp S2) x y Hx Hy). apply (channel_prod (length a ^ n) (O ^ n) (D ^ n)); assumption.
Qed.
Theorem step_apart O D a n rho t t1 t2 : fits O D a -> trace_preserving D a -> output_imitates O a -> density (D ^ S n) rho ->
  entropies (O ^ S n) (power_ops a (S n)) rho t -> entropies O a (trace_out_right (D ^ n) rho) t1 -> entropies (O ^ n) (power_ops a n) (trace_out_left D (D ^ n) rho) t2 ->
  (fst t - snd t <= (fst t1 - snd t1) + (fst t2 - snd t2))%R.
Proof.
  intros F T IM DR V V1 V2. destruct (imitates_cross O D a F IM) as (m & Fm & Tm & SC).
  pose proof (environment O D a m (S n) rho t F Fm SC DR V) as Y. cbn [Nat.pow] in DR. pose proof (first_density _ _ _ DR) as D1. pose proof (rest_density _ _ _ DR) as D2.
  pose proof (environment O D a m n _ t2 F Fm SC D2 V2) as Y2.
  assert (Y1 : von_neumann (length a) (channel_map m (channel_map a (trace_out_right (D ^ n) rho))) (snd t1)).
  { destruct V1 as [_ V1]. apply (von_ext _ (exchange_entry a (trace_out_right (D ^ n) rho))); [|exact V1]. intros x y Hx Hy. rewrite <- (comp_map O D a) by assumption.
    rewrite (proj1 (same_maps _ _ _ _ _ (comp_fits O D a) (fits_prod _ _ _ _ _ Fm F) SC) x y Hx Hy). apply (channel_prod (length a) O D); assumption. }
  pose proof (fits_power _ _ _ n F) as Fn. pose proof (fits_power _ _ _ n Fm) as Fmn. pose proof (tp_power O D a n F T) as Tn. pose proof (tp_power _ _ m n Fm Tm) as Tmn.
  set (X := channel_map (power_ops a (S n)) rho) in *. cbn [power_ops Nat.pow] in Y. 
  assert (DX : density (O * O ^ n) X) by (apply (channel_density (O * O ^ n) (D * D ^ n)); [exact (fits_power _ _ _ (S n) F)|exact (tp_power O D a (S n) F T)|exact DR]).
  assert (M1 : eqm O O (channel_map a (trace_out_right (D ^ n) rho)) (trace_out_right (O ^ n) X)) by (intros i j Hi Hj; symmetry; apply (first_out O D (O ^ n) (D ^ n)); assumption).
  assert (M2 : eqm (O ^ n) (O ^ n) (channel_map (power_ops a n) (trace_out_left D (D ^ n) rho)) (trace_out_left O (O ^ n) X)) by (intros i j Hi Hj; symmetry; apply (rest_out O D (O ^ n) (D ^ n)); assumption).
  assert (K := mutual (length a) O (length a ^ n) (O ^ n) m (power_ops m n) X (fst t1) (fst t2) (fst t) (snd t1) (snd t2) (snd t) Fm Fmn Tm Tmn DX (proj1 V)
    (von_ext _ _ _ _ M1 (proj1 V1)) (von_ext _ _ _ _ M2 (proj1 V2)) Y).
  assert (K1 : von_neumann (length a) (channel_map m (trace_out_right (O ^ n) X)) (snd t1)) by (revert Y1; apply von_ext; apply (channel_map_same (length a) O); [exact Fm|apply same_ops_refl|exact M1]).
  assert (K2 : von_neumann (length a ^ n) (channel_map (power_ops m n) (trace_out_left O (O ^ n) X)) (snd t2)) by (revert Y2; apply von_ext; apply (channel_map_same (length a ^ n) (O ^ n)); [exact Fmn|apply same_ops_refl|exact M2]).
  specialize (K K1 K2). lra.
Qed.
Lemma exchange_density O D a rho : fits O D a -> trace_preserving D a -> density D rho -> density (length a) (exchange_entry a rho).
Proof.
  intros F T DR. apply (density_ext _ (channel_map (comp O D a) rho)); [intros x y Hx Hy; apply (comp_map O D); assumption|].
  apply (channel_density (length a) D); [apply comp_fits|apply comp_tp; assumption|exact DR].
Qed.
Lemma entropies_exist O D a rho : fits O D a -> trace_preserving D a -> density D rho -> exists t, entropies O a rho t.
Proof.
  intros F T DR. destruct (von_exists O (channel_map a rho)) as (x & Hx); [apply (channel_density O D a rho F T DR)|]. destruct (von_exists (length a) (exchange_entry a rho)) as (y & Hy); [apply (exchange_hermitian O D); [exact F|apply DR]|]. exists (x, y). split; assumption.
Qed.
Theorem apart O D a n : fits O D a -> trace_preserving D a -> output_imitates O a -> forall rho t ps, density (D ^ n) rho -> entropies (O ^ n) (power_ops a n) rho t ->
  Forall2 (fun r p => entropies O a (me r) p) (marginals D n rho) ps -> (fst t - snd t <= total fst ps - total snd ps)%R.
Proof.
  intros F T IM. induction n as [|n IH]; intros rho t ps DR V H; cbn [marginals] in H.
  - inversion H. unfold total. cbn [map fold_right]. destruct V as [V1 V2]. cbn [power_ops length Nat.pow] in V1, V2.
    assert (DO : density 1 (channel_map (power_ops a 0) rho)). { apply (channel_density 1 1); [exact (fits_power _ _ _ 0 F)|exact (tp_power O D a 0 F T)|exact DR]. }
    destruct (von_bounds 1 _ _ DO V1) as [_ B1]. unfold log2 in B1. cbn [INR] in B1. rewrite ln_1 in B1. unfold Rdiv in B1.
    assert (DE : density (length (power_ops a 0)) (exchange_entry (power_ops a 0) rho)). { apply (exchange_density 1 1 (power_ops a 0)); [exact (fits_power _ _ _ 0 F)|exact (tp_power O D a 0 F T)|exact DR]. }
    destruct (von_bounds _ _ _ DE V2) as [B2 _]. lra.
  - inversion H as [|? p ? ps' H1 H2]. cbn [me] in H1. cbn [Nat.pow] in DR. pose proof (rest_density _ _ _ DR) as D2.
    destruct (entropies_exist (O ^ n) (D ^ n) (power_ops a n) _ (fits_power _ _ _ n F) (tp_power O D a n F T) D2) as (t2 & V2).
    pose proof (IH _ _ _ D2 V2 H2). pose proof (step_apart O D a n rho t p t2 F T IM DR V H1 V2). unfold total in *. cbn [map fold_right]. lra.
Qed.
Theorem mixed O D a n k c Z t tb rho : fits O D a -> trace_preserving D a -> output_imitates O a -> (forall x, x < k -> (0 <= c x)%R /\ density (D ^ n) (Z x)) -> rsum k c = 1%R ->
  eqm (D ^ n) (D ^ n) rho (mixture k c Z) -> (forall x, x < k -> entropies (O ^ n) (power_ops a n) (Z x) (t x)) -> entropies (O ^ n) (power_ops a n) rho tb ->
  (rsum k (fun x => c x * (fst (t x) - snd (t x))) <= fst tb - snd tb)%R.
Proof.
  intros F T IM H S EQ V VB. destruct (imitates_cross O D a F IM) as (m & Fm & Tm & SC).
  pose proof (fits_power _ _ _ n F) as Fn. pose proof (fits_power _ _ _ n Fm) as Fmn. pose proof (tp_power O D a n F T) as Tn. pose proof (tp_power _ _ m n Fm Tm) as Tmn.
  assert (DR : density (D ^ n) rho) by (apply (density_ext _ (mixture k c Z)); [apply eqm_sym, EQ|apply mix_density; assumption]).
  pose proof (environment O D a m n rho tb F Fm SC DR VB) as UB. assert (US : forall x, x < k -> von_neumann (length a ^ n) (channel_map (power_ops m n) (channel_map (power_ops a n) (Z x))) (snd (t x))) by (intros x Hx; apply (environment O D a); try assumption; [apply H, Hx|apply V, Hx]).
  assert (EB : eqm (O ^ n) (O ^ n) (channel_map (power_ops a n) rho) (mixture k c (fun x => channel_map (power_ops a n) (Z x)))).
  { intros x y Hx Hy. rewrite <- (mix_map (O ^ n) (D ^ n)) by exact Fn. apply (channel_map_same (O ^ n) (D ^ n)); [exact Fn|apply same_ops_refl|exact EQ|assumption..]. }
  assert (K := spread (length a ^ n) (O ^ n) (power_ops m n) k c (fun x => channel_map (power_ops a n) (Z x)) (fun x => fst (t x)) (fst tb) (fun x => snd (t x)) (snd tb) Fmn Tmn).
  assert (K1 : forall x, x < k -> (0 <= c x)%R /\ density (O ^ n) (channel_map (power_ops a n) (Z x))) by (intros x Hx; destruct (H x Hx); split; [assumption|apply (channel_density (O ^ n) (D ^ n)); assumption]).
  specialize (K K1 S (fun x Hx => proj1 (V x Hx)) (von_ext _ _ _ _ EB (proj1 VB)) US).
  assert (K2 : von_neumann (length a ^ n) (channel_map (power_ops m n) (mixture k c (fun x => channel_map (power_ops a n) (Z x)))) (snd tb)) by (revert UB; apply von_ext; apply (channel_map_same (length a ^ n) (O ^ n)); [exact Fmn|apply same_ops_refl|exact EB]).
  specialize (K K2). rewrite (rsum_ext k _ (fun x => c x * fst (t x) - c x * snd (t x))%R) by (intros; ring). rewrite rsum_sub. lra.
Qed.
