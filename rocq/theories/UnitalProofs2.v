(** C108, C109: operators that map the identity to the identity. *)
From Verif Require Import Py Scalar PauliModel PauliSpec EncoderProofs EighExists Spectral SpectralProofs PowerSums KrausModel KrausSpec KrausProofs KrausProofs2 KrausProofs5 KrausProofs6 KrausProofs8 KrausProofs11 KrausProofs12
  ChoiModel ChannelModel ChannelSpec ChoiSpec ChoiProofs ChoiProofs2 ChoiProofs3 Sqrt EntropyProofs EntropySpec Subadd CohProofs CohProofs2 CohProofs3 CohProofs4 RelativeReal Relative Processing UnitalSpec UnitalProofs.
From Coq Require Import Reals Lra.
Open Scope nat_scope.
Open Scope K_scope.
Add Ring CCring51 : (s_rt CC).

Lemma unital_map r d (ops : list (marr CC)) : fits r d ops -> forall i j, channel_map ops eye i j = ksum (map (fun A => mm (mc A) (me A) (adj (me A)) i j) ops).
Proof.
  intros F i j. unfold channel_map. apply ksum_ext. intros A HA. destruct (in_fits _ _ _ _ F HA) as [_ E]. rewrite E. unfold mm at 1 3. apply bsum_ext. intros k Hk. f_equal. apply mm_eye_r, Hk.
Qed.
Definition rgram (ops : list (marr CC)) : array CC := channel_map ops eye.
Lemma rgram_power r d ops n : fits r d ops -> 0 < d -> eqm (r * r ^ n) (r * r ^ n) (rgram (power_ops ops (S n))) (kf (r ^ n) (r ^ n) (rgram ops) (rgram (power_ops ops n))).
Proof.
  intros F Hd i j Hi Hj. cbn [power_ops]. unfold rgram. rewrite <- (channel_tens r d (r ^ n) (d ^ n)) by auto using fits_power.
  apply (channel_map_same (r * r ^ n) (d * d ^ n)); [apply fits_tens; auto using fits_power|apply same_ops_refl| |exact Hi|exact Hj].
  intros x y _ _. symmetry. apply eye_kf. pose proof (Nat.pow_nonzero d n). lia.
Qed.
Lemma rgram_same r d ops n i j : fits r d ops -> 0 < d -> i < r -> j < r -> rgram (power_ops ops n) (same_digit r i n) (same_digit r j n) = cpow (rgram ops i j) n.
Proof.
  intros F Hd Hi Hj. induction n as [|n IH].
  - cbn. unfold rgram, channel_map, mm, adj, eye. cbn. apply pair_equal_spec; split; cbn; ring.
  - pose proof (same_digit_lt r i n Hi) as Li. pose proof (same_digit_lt r j n Hj) as Lj.
    rewrite (rgram_power r d) by (first [assumption | cbn [same_digit]; nia]). cbn [same_digit cpow]. unfold kf.
    rewrite !Nat.div_add_l, !(Nat.div_small (same_digit _ _ _)), !Nat.add_0_r by lia. rewrite !(Nat.add_comm (_ * r ^ n)), !Nat.mod_add, !Nat.mod_small by lia. rewrite IH. reflexivity.
Qed.
Lemma rgram_diag (ops : list (marr CC)) r d i : fits r d ops -> exists x, (0 <= x)%R /\ rgram ops i i = ((x, 0%R) : CC).
Proof.
  intros F. unfold rgram. rewrite (unital_map r d) by exact F. clear F. induction ops as [|A ops (x & Hx & E)]; [exists 0%R; split; [lra|reflexivity]|].
  assert (B : exists y, (0 <= y)%R /\ mm (mc A) (me A) (adj (me A)) i i = ((y, 0%R) : CC)).
  { unfold mm. induction (mc A) as [|m (y & Hy & Ey)]; [exists 0%R; split; [lra|reflexivity]|]. cbn [bsum]. rewrite Ey. unfold adj.
    exists (y + (fst (me A i m) * fst (me A i m) + snd (me A i m) * snd (me A i m)))%R. split; [nra|]. destruct (me A i m). apply pair_equal_spec; split; cbn; ring. }
  destruct B as (y & Hy & Ey). exists (y + x)%R. split; [lra|]. cbn [map]. rewrite ksum_cons, Ey, E. apply pair_equal_spec; split; cbn; ring.
Qed.
(** the n-fold power maps I to I exactly when the operators do *)
Theorem unital_power r d (ops : list (marr CC)) n : fits r d ops -> 0 < d -> 1 <= n ->
  (eqm (r ^ n) (r ^ n) (channel_map (power_ops ops n) eye) eye <-> unital r ops).
Proof.
  intros F Hd Hn. split.
  - intros T i j Hi Hj. rewrite <- (unital_map r d ops F). change (rgram ops i j = eye i j).
    pose proof (T (same_digit r i n) (same_digit r j n) (same_digit_lt _ _ _ Hi) (same_digit_lt _ _ _ Hj)) as E.
    change (rgram (power_ops ops n) (same_digit r i n) (same_digit r j n) = eye (same_digit r i n) (same_digit r j n)) in E. rewrite (rgram_same r d) in E by assumption.
    destruct (Nat.eq_dec i j) as [<-|N].
    + unfold eye in *. rewrite Nat.eqb_refl in *. destruct (rgram_diag ops r d i F) as (x & Hx & Ex). rewrite Ex, cpow_real in E. rewrite Ex. apply (f_equal fst) in E. cbn in E.
      rewrite (pow_one x n) by assumption. reflexivity.
    + assert (M : same_digit r i n <> same_digit r j n).
      { destruct n as [|n]; [lia|]. cbn [same_digit]. intros C. apply N. pose proof (same_digit_lt r i n Hi). pose proof (same_digit_lt r j n Hj). nia. }
      unfold eye in *. rewrite (proj2 (Nat.eqb_neq _ _) N). rewrite (proj2 (Nat.eqb_neq _ _) M) in E. apply cpow_zero in E. exact E.
  - intros U. assert (U1 : eqm r r (rgram ops) eye) by (intros i j Hi Hj; unfold rgram; rewrite (unital_map r d ops F); apply U; assumption). clear Hn.
    change (eqm (r ^ n) (r ^ n) (rgram (power_ops ops n)) eye). induction n as [|n IH].
    + intros i j Hi Hj. cbn in Hi, Hj. assert (i = O) by lia. assert (j = O) by lia. subst. cbn. unfold rgram, channel_map, mm, adj, eye. cbn. apply pair_equal_spec; split; cbn; ring.
    + intros i j Hi Hj. cbn [Nat.pow] in Hi, Hj. rewrite (rgram_power r d) by assumption. rewrite (kf_ext r (r ^ n) r (r ^ n) _ eye _ eye U1 IH) by assumption. apply eye_kf. pose proof (Nat.pow_nonzero r n). destruct r; lia.
Qed.
Lemma eye_eigen d : eigen_decomposition d (@eye CC) (fun _ => 1%R) eye.
Proof.
  split.
  - split; intros i j Hi Hj; (rewrite mm_eye_l || rewrite mm_eye_r); try assumption; apply adj_eye.
  - intros i t Hi Ht. rewrite mm_eye_l by exact Hi. change (eye i t = eye i t * (1 : CC)). ring.
Qed.
Theorem unital_entropy d l rho s t : fits d d l -> trace_preserving d l -> unital d l -> density d rho -> von_neumann d rho s -> von_neumann d (channel_map l rho) t -> (s <= t)%R.
Proof.
  intros F T U DR V W. pose proof (channel_density d d l rho F T DR) as DO.
  destruct (von_form _ _ _ (proj1 (proj2 DR)) V) as (VA & a & EA & ->). destruct (von_form _ _ _ (proj1 (proj2 DO)) W) as (VB & b & EB & ->).
  assert (PE : psd d (@eye CC)). { apply (psd_ext d (mm d eye (adj eye))); [|apply psd_outer]. intros i j Hi Hj. rewrite mm_eye_l by exact Hi. apply adj_eye. }
  assert (UE : eqm d d (channel_map l eye) eye) by (intros i j Hi Hj; rewrite (unital_map d d l F); apply U; assumption).
  pose proof (data_processing d d l rho eye VA eye VB eye a (fun _ => 1%R) b (fun _ => 1%R) F T (proj1 (proj2 DR)) PE EA (eye_eigen d) EB (eigen_ext _ _ _ _ _ (eqm_sym _ _ _ _ UE) (eye_eigen d))
     ltac:(intros; lra) ltac:(intros; lra)) as K.
  cbv beta in K. rewrite ln_1 in K. assert (Z : forall n (f : nat -> R), rsum n (fun j => f j * 0)%R = 0%R) by (intros n f; rewrite (rsum_ext n _ (fun _ => 0 * 0)%R) by (intros; ring); rewrite rsum_scale; ring). rewrite !Z in K.
  pose proof (Rinv_0_lt_compat _ ln2_pos). unfold Rdiv. nra.
Qed.

(** the maximally mixed state is the only one of maximal entropy *)
Lemma peak_term d x : (0 < d)%R -> (0 <= x)%R -> (0 <= / d - x + (x * ln x + x * ln d))%R /\ ((/ d - x + (x * ln x + x * ln d))%R = 0%R -> x = (/ d)%R).
Proof.
  intros Hd Hx. pose proof (Rinv_0_lt_compat d Hd) as HI. destruct (Req_dec x 0) as [->|N]; [split; [lra|intros E; lra]|]. assert (P : (0 < x)%R) by lra.
  assert (Hy : (0 < / (d * x))%R) by (apply Rinv_0_lt_compat; nra). assert (EL : (ln x + ln d = - ln (/ (d * x)))%R) by (rewrite ln_Rinv by nra; rewrite (Rmult_comm d x), ln_mult by assumption; ring).
  assert (EX : (x * / (d * x) = / d)%R) by (field; lra). replace (x * ln x + x * ln d)%R with (x * - ln (/ (d * x)))%R by (rewrite <- EL; ring).
  set (y := (/ (d * x))%R) in *. split.
  - pose proof (exp_ineq1_le (ln y)) as E. rewrite exp_ln in E by exact Hy. nra.
  - intros Z. destruct (Req_dec (ln y) 0) as [L|L].
    + assert (y = 1%R) by (rewrite <- (exp_ln y Hy), L; apply exp_0). rewrite H in EX. lra.
    + pose proof (exp_ineq1 (ln y) L) as E. rewrite exp_ln in E by exact Hy. nra.
Qed.
Lemma rsum_const n (c : R) : rsum n (fun _ => c) = (INR n * c)%R.
Proof. rewrite (rsum_ext n _ (fun _ => c * 1)%R) by (intros; ring). rewrite rsum_scale. replace (rsum n (fun _ => 1%R)) with (INR n); [ring|]. induction n; [reflexivity|]. cbn [rsum]. rewrite <- IHn, S_INR. reflexivity. Qed.
Lemma peak d (e : nat -> R) : 0 < d -> (forall t, t < d -> (0 <= e t)%R) -> rsum d e = 1%R -> (ln (INR d) <= - rsum d (fun t => e t * ln (e t)))%R -> forall t, t < d -> e t = (/ INR d)%R.
Proof.
  intros Hd P T H t Ht. assert (HD : (0 < INR d)%R) by (apply (lt_INR 0); exact Hd). apply (peak_term (INR d) (e t) HD (P t Ht)).
  set (f := fun t => (/ INR d - e t + (e t * ln (e t) + e t * ln (INR d)))%R). assert (F : forall t, t < d -> (0 <= f t)%R) by (intros s Hs; apply peak_term; auto).
  pose proof (rsum_term d f t F Ht) as B. assert (S : rsum d f = (ln (INR d) + rsum d (fun t => e t * ln (e t)))%R).
  { unfold f. rewrite rsum_add, rsum_sub, rsum_add, rsum_scale_r, rsum_const, T. field. lra. }
  rewrite S in B. specialize (F t Ht). unfold f in *. lra.
Qed.
Theorem mixed_only d A : 0 < d -> density d A -> von_neumann d A (log2 (INR d)) -> eqm d d A (fun i j => rc (/ INR d) * eye i j).
Proof.
  intros Hd (HH & P & T) V. destruct (von_form _ _ _ P V) as (W & e & ED & E). pose proof (psd_eig d A W e ED P) as PE. pose proof (eig_sum d A W e ED) as TE. rewrite T in TE. cbn in TE.
  assert (Q : forall t, t < d -> e t = (/ INR d)%R). { apply peak; auto. unfold log2 in E. pose proof ln2_pos. apply (Rmult_eq_compat_r (ln 2)) in E. unfold Rdiv in E. rewrite !Rmult_assoc, Rinv_l in E by lra. lra. }
  destruct ED as [[U1 U2] EV]. intros i j Hi Hj. rewrite <- (mm_eye_r d A i j Hj). unfold mm at 1. rewrite (bsum_ext d _ (fun k => A i k * mm d W (adj W) k j)) by (intros k Hk; rewrite U2 by assumption; reflexivity).
  change (mm d A (mm d W (adj W)) i j = rc (/ INR d) * eye i j). rewrite <- mm_assoc. unfold mm at 1. rewrite (bsum_ext d _ (fun k => rc (/ INR d) * (W i k * adj W k j))).
  - rewrite bsum_mul_l. f_equal. apply U2; assumption.
  - intros k Hk. rewrite EV, Q by assumption. unfold rc. ring.
Qed.
Lemma mixed_eigen d : eigen_decomposition d (fun i j => rc (/ INR d) * eye i j) (fun _ => (/ INR d)%R) eye.
Proof.
  split; [apply eye_eigen|]. intros i t Hi Ht. rewrite (mm_eye_r d _ i t Ht). unfold rc. ring.
Qed.
Lemma mixed_density d : 0 < d -> density d (fun i j => rc (/ INR d) * eye i j).
Proof.
  intros Hd. assert (HD : (0 < / INR d)%R) by (apply Rinv_0_lt_compat, (lt_INR 0); exact Hd). split; [|split].
  - intros i j Hi Hj. unfold adj, eye. rewrite (Nat.eqb_sym j i). destruct (Nat.eqb i j); unfold rc; apply pair_equal_spec; split; cbn; ring.
  - apply (psd_ext d (mm d (fun i j => rc (sqrt (/ INR d)) * eye i j) (adj (fun i j => rc (sqrt (/ INR d)) * eye i j)))); [|apply psd_outer].
    intros i j Hi Hj. unfold mm, adj. rewrite (bsum_one d i); [|exact Hi|intros k Hk N; unfold eye; rewrite (proj2 (Nat.eqb_neq i k)) by auto; ring].
    unfold eye. rewrite Nat.eqb_refl, (Nat.eqb_sym j i). pose proof (sqrt_sqrt (/ INR d) ltac:(lra)) as Q. set (u := sqrt (/ INR d)) in *. rewrite <- Q. destruct (Nat.eqb i j); unfold rc; apply pair_equal_spec; split; cbn; ring.
  - unfold tr. rewrite (bsum_ext d _ (fun _ => rc (/ INR d))) by (intros i Hi; unfold eye; rewrite Nat.eqb_refl; ring).
    assert (G : forall n, bsum n (fun _ => rc (/ INR d)) = rc (INR n * / INR d)).
    { induction n as [|n IH]; [cbn; unfold rc; apply pair_equal_spec; split; cbn; ring|]. cbn [bsum]. rewrite IH, S_INR. unfold rc. apply pair_equal_spec; split; cbn; ring. }
    rewrite G, Rinv_r; [reflexivity|]. apply not_0_INR. lia.
Qed.
Lemma mixed_von d : 0 < d -> von_neumann d (fun i j => rc (/ INR d) * eye i j) (log2 (INR d)).
Proof.
  intros Hd. assert (HD : (0 < INR d)%R) by (apply (lt_INR 0); exact Hd). pose proof (von_of d _ _ _ (proj1 (proj2 (mixed_density d Hd))) (mixed_eigen d)) as V.
  replace (log2 (INR d)) with (- rsum d (fun _ => / INR d * ln (/ INR d)) / ln 2)%R; [exact V|]. rewrite rsum_const, ln_Rinv by exact HD. unfold log2. pose proof ln2_pos. field. lra.
Qed.
Lemma channel_scale (l : list (marr CC)) (c : CC) X i j : channel_map l (fun i j => c * X i j) i j = c * channel_map l X i j.
Proof.
  unfold channel_map. induction l as [|A l IH]; [unfold ksum; change (0 = c * 0 :> CC); ring|]. cbn [map]. rewrite !ksum_cons, IH.
  match goal with |- ?a + _ = c * (?u + ?v) => transitivity (c * u + c * v); [f_equal|ring] end.
  unfold mm. rewrite <- bsum_mul_l. apply bsum_ext. intros k Hk. rewrite (bsum_ext _ _ (fun k0 => c * (me A i k0 * X k0 k))) by (intros; ring). rewrite bsum_mul_l. ring.
Qed.
(** a trace-preserving channel that lowers no entropy maps I to I *)
Theorem unital_only d l : 0 < d -> fits d d l -> trace_preserving d l ->
  (forall rho s t, density d rho -> von_neumann d rho s -> von_neumann d (channel_map l rho) t -> (s <= t)%R) -> unital d l.
Proof.
  intros Hd F T H. pose proof (mixed_density d Hd) as DM. pose proof (channel_density d d l _ F T DM) as DO. destruct (von_exists _ _ (proj1 DO)) as (t & Vt).
  pose proof (H _ _ t DM (mixed_von d Hd) Vt) as L. pose proof (von_bounds _ _ _ DO Vt) as [_ B]. assert (t = log2 (INR d)) by lra. subst t. pose proof (mixed_only d _ Hd DO Vt) as M.
  assert (HD : (0 < INR d)%R) by (apply (lt_INR 0); exact Hd). intros i j Hi Hj. rewrite <- (unital_map d d l F i j). specialize (M i j Hi Hj).
  rewrite (channel_scale l (rc (/ INR d)) eye i j) in M. apply (f_equal (fun z => rc (INR d) * z)) in M. cbv beta in M.
  assert (G : forall z : CC, rc (INR d) * (rc (/ INR d) * z) = z). { intros z. assert (E : rc (INR d) * rc (/ INR d) = s1) by (unfold rc; apply pair_equal_spec; split; cbn; [rewrite Rmult_0_l, Rminus_0_r; apply Rinv_r; lra|ring]). transitivity (rc (INR d) * rc (/ INR d) * z); [ring|rewrite E; ring]. }
  rewrite !G in M. exact M.
Qed.
