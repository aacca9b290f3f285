(** One use of the dephrasure channel on any qubit state (C130). *)
From Verif Require Import Py Scalar PauliModel PauliSpec EncoderProofs EighExists Spectral SpectralProofs PowerSums KrausModel KrausSpec KrausProofs KrausProofs2 KrausProofs5 KrausProofs6 KrausProofs8 KrausProofs11 KrausProofs12
  ChoiModel ChannelModel ChannelSpec ChoiSpec ChoiProofs ChoiProofs2 ChoiProofs3 Sqrt EntropyProofs EntropySpec Subadd CohProofs CohProofs2 CohProofs3 CohProofs4 Processing ProcessingSpec Processing2 Degradable KnownSpec KnownProofs KnownProofs2 KnownProofs3 KnownProofs4 DephSpec MixedCalc.
From Coq Require Import Reals Lra Psatz.
Open Scope nat_scope.
Open Scope K_scope.
Add Ring CCring64 : (s_rt CC).

Lemma half_xlx y : (0 <= y)%R -> xlx (y / 2) = ((xl y - y * ln 2) / 2)%R.
Proof.
  intros H. unfold xlx, xl. destruct (Req_dec y 0) as [->|N]; [unfold Rdiv; rewrite !Rmult_0_l; lra|]. unfold Rdiv at 2. rewrite ln_mult, ln_Rinv by lra. lra.
Qed.
Lemma binary_phi r : (-1 <= r <= 1)%R -> binary_entropy ((1 + r) / 2) = (1 - phi r / ln 2)%R.
Proof. intros H. rewrite binary_form. replace (1 - (1 + r) / 2)%R with ((1 - r) / 2)%R by lra. rewrite !half_xlx by lra. unfold phi. pose proof ln2_pos. field. lra. Qed.
(** a qubit state by its determinant *)
Lemma von_two A dt : hermitian 2 A -> A 0%nat 0%nat + A 1%nat 1%nat = 1 -> A 0%nat 0%nat * A 1%nat 1%nat = rc dt + A 0%nat 1%nat * A 1%nat 0%nat -> (0 <= 4 * dt <= 1)%R ->
  von_neumann 2 A (1 - phi (sqrt (1 - 4 * dt)) / ln 2)%R.
Proof.
  intros H T E B. set (r := sqrt (1 - 4 * dt)). pose proof (sqrt_sqrt (1 - 4 * dt) ltac:(lra)) as RR. fold r in RR. assert (R0 : (0 <= r)%R) by apply sqrt_pos. assert (R1 : (r <= 1)%R) by nra.
  rewrite <- binary_phi by lra. rewrite binary_form. replace (- (xlx ((1 + r) / 2) + xlx (1 - (1 + r) / 2)) / ln 2)%R with (- sumof xlx [((1 + r) / 2)%R; ((1 - r) / 2)%R] / ln 2)%R by (unfold sumof; cbn [map fold_right]; replace (1 - (1 + r) / 2)%R with ((1 - r) / 2)%R by lra; rewrite Rplus_0_r; reflexivity).
  apply von_by_sums; [exact H|constructor; [lra|constructor; [lra|constructor]]|]. intros p. rewrite (trace_two A ((1 + r) / 2) ((1 - r) / 2)); [unfold sumof; cbn [map fold_right]; rewrite Rplus_0_r; reflexivity|lra|exact T|]. replace ((1 + r) / 2 * ((1 - r) / 2))%R with dt by nra. exact E.
Qed.
(** entries of a qubit state *)
Lemma bloch (A : array CC) : density 2 A -> exists x u w, (0 <= x <= 1)%R /\ (u * u + w * w <= x * (1 - x))%R /\ A 0%nat 0%nat = rc (1 - x) /\ A 1%nat 1%nat = rc x /\ A 0%nat 1%nat = ((u, w)%R : CC) /\ A 1%nat 0%nat = ((u, - w)%R : CC).
Proof.
  intros D. destruct (density2 A D) as (E & x & Hx & E1 & E0). destruct (A 0%nat 1%nat) as [u w] eqn:EB. exists x, u, w. split; [exact Hx|]. split; [|rewrite E; auto].
  destruct D as (_ & P & _). destruct (P (fun i => if Nat.eqb i 0 then ((- u, - w)%R : CC) else rc (1 - x))) as (y & Hy & Ey). destruct (P (fun i => if Nat.eqb i 0 then rc x else ((- u, w)%R : CC))) as (y2 & Hy2 & Ey2).
  cbn [bsum Nat.eqb] in Ey, Ey2. rewrite E, E0, E1, EB in Ey, Ey2. apply (f_equal fst) in Ey. apply (f_equal fst) in Ey2. cbn in Ey, Ey2. nra.
Qed.
Lemma dephasing_out p rho : (0 <= p <= 1)%R -> eqm 2 2 (channel_map (dephasing p) rho) (m2 (rho 0%nat 0%nat) (rc (1 - 2 * p) * rho 0%nat 1%nat) (rc (1 - 2 * p) * rho 1%nat 0%nat) (rho 1%nat 1%nat)).
Proof.
  intros Hp. assert (E : rt (1 - p) * rt (1 - p) + rt p * rt p = 1) by (rewrite !rt_rt by lra; rewrite rc_add, <- rc_1; f_equal; lra). assert (E2 : rt (1 - p) * rt (1 - p) + - (rt p * rt p) = rc (1 - 2 * p)) by (rewrite !rt_rt by lra; apply CC_eq; cbn; ring).
  rewrite <- E2. apply eqm2_of; unfold channel_map, mm, adj; two; try ring; [transitivity ((rt (1 - p) * rt (1 - p) + rt p * rt p) * rho 0%nat 0%nat); [ring|rewrite E; ring]|transitivity ((rt (1 - p) * rt (1 - p) + rt p * rt p) * rho 1%nat 1%nat); [ring|rewrite E; ring]].
Qed.
Lemma dephasing_env p rho : (0 <= p <= 1)%R -> eqm 2 2 (exchange_entry (dephasing p) rho)
  (m2 (rc (1 - p) * (rho 0%nat 0%nat + rho 1%nat 1%nat)) (rt (1 - p) * rt p * (rho 0%nat 0%nat + - rho 1%nat 1%nat)) (rt (1 - p) * rt p * (rho 0%nat 0%nat + - rho 1%nat 1%nat)) (rc p * (rho 0%nat 0%nat + rho 1%nat 1%nat))).
Proof. intros Hp. rewrite <- (rt_rt (1 - p)), <- (rt_rt p) by lra. apply eqm2_of; unfold exchange_entry, tr, mm, adj; two; ring. Qed.

Lemma bound_half p : (0 < p < 1 / 2)%R -> (optima_mixed_state_bound p <= 1 / 2)%R.
Proof.
  intros Hp. set (o := (1 - 2 * p)%R). assert (Ho : (0 < o < 1)%R) by (unfold o; lra). pose proof (rest_1 o Ho) as RB.
  assert (RW : (rest o * o = 2 * p * (1 - p) * ln ((1 - p) / p))%R).
  { unfold rest, ath. replace (1 + o)%R with (2 * (1 - p))%R by (unfold o; ring). replace (1 - o)%R with (2 * p)%R by (unfold o; ring). unfold Rdiv at 3. rewrite !ln_mult, ln_Rinv by (try apply Rinv_0_lt_compat; lra). unfold o. field. unfold o in Ho. lra. }
  unfold optima_mixed_state_bound. rewrite <- RW. replace (1 - 2 * p)%R with o by reflexivity. replace (2 - 4 * p)%R with (2 * o)%R by (unfold o; ring). set (w := rest o) in *.
  assert (DP : (0 < 2 * o - w * o)%R) by nra. apply (Rmult_le_reg_r _ _ _ DP). replace ((o - w * o) / (2 * o - w * o) * (2 * o - w * o))%R with (o - w * o)%R by (field; lra). nra.
Qed.
Theorem dephrasure_one p q rho t : (0 < p < 1 / 2)%R -> (0 <= q <= optima_mixed_state_bound p)%R -> density 2 rho -> entropies 3 (dephrasure p q) rho t ->
  (fst t - snd t <= 1 - 2 * q - (1 - q) * binary_entropy p)%R.
Proof.
  intros Hp Hq D V. pose proof ln2_pos as L2. set (o := (1 - 2 * p)%R). assert (Ho : (0 < o < 1)%R) by (unfold o; lra). pose proof (rest_1 o Ho) as RB.
  assert (RW : (rest o * o = 2 * p * (1 - p) * ln ((1 - p) / p))%R).
  { unfold rest, ath. replace (1 + o)%R with (2 * (1 - p))%R by (unfold o; ring). replace (1 - o)%R with (2 * p)%R by (unfold o; ring). unfold Rdiv at 3. rewrite !ln_mult, ln_Rinv by (try apply Rinv_0_lt_compat; lra). unfold o. field. unfold o in Ho. lra. }
  assert (Q : (q <= (1 - q) * (1 - rest o))%R /\ (q <= 1)%R).
  { destruct Hq as [Q0 Q1]. unfold optima_mixed_state_bound in Q1. rewrite <- RW in Q1. replace (1 - 2 * p)%R with o in Q1 by reflexivity. replace (2 - 4 * p)%R with (2 * o)%R in Q1 by (unfold o; ring). set (w := rest o) in *.
    assert (DP : (0 < 2 * o - w * o)%R) by nra. apply (Rmult_le_compat_r _ _ _ (Rlt_le _ _ DP)) in Q1. replace ((o - w * o) / (2 * o - w * o) * (2 * o - w * o))%R with (o - w * o)%R in Q1 by (field; lra).
    assert (Z : (q * (2 - w) <= 1 - w)%R) by (apply (Rmult_le_reg_r o); [lra|]; lra). split; [nra|nra]. }
  destruct Q as [Q Q1]. destruct Hq as [Q0 _].
  destruct (bloch rho D) as (x & u & w & Hx & Det & E00 & E11 & E01 & E10).
  set (z := Rabs (1 - 2 * x)). assert (Z2 : (z * z = (1 - 2 * x) * (1 - 2 * x))%R) by (unfold z; rewrite <- Rabs_mult, Rabs_right; [reflexivity|apply Rle_ge; pose proof (Rle_0_sqr (1 - 2 * x)) as S; unfold Rsqr in S; exact S]).
  assert (Hz : (0 <= z <= 1)%R) by (unfold z; split; [apply Rabs_pos|apply Rabs_le; lra]). set (tt := (4 * (u * u + w * w))%R). assert (Ht : (0 <= tt <= 1 - z * z)%R) by (rewrite Z2; unfold tt; nra).
  assert (OO : (0 <= o * o <= 1)%R) by nra. assert (P4 : (o * o = 1 - 4 * (p * (1 - p)))%R) by (unfold o; ring).
  (* the three entropies *)
  assert (V0 : von_neumann 2 rho (1 - phi (sqrt (z * z + tt)) / ln 2)%R).
  { replace (z * z + tt)%R with (1 - 4 * (x * (1 - x) - (u * u + w * w)))%R by (rewrite Z2; unfold tt; ring). apply von_two; [apply D|rewrite E00, E11; apply CC_eq; cbn; ring|rewrite E00, E11, E01, E10; apply CC_eq; cbn; ring|]. unfold tt in Ht. rewrite Z2 in Ht. nra. }
  assert (V1 : von_neumann 2 (channel_map (dephasing p) rho) (1 - phi (sqrt (z * z + o * o * tt)) / ln 2)%R).
  { replace (z * z + o * o * tt)%R with (1 - 4 * (x * (1 - x) - o * o * (u * u + w * w)))%R by (rewrite Z2; unfold tt; ring).
    pose proof (channel_density 2 2 _ _ (dephasing_fits p) (dephasing_tp p ltac:(lra)) D) as D1. pose proof (dephasing_out p rho ltac:(lra)) as EO. assert (EO' : forall i j, i < 2 -> j < 2 -> channel_map (dephasing p) rho i j = m2 (rho 0%nat 0%nat) (rc o * rho 0%nat 1%nat) (rc o * rho 1%nat 0%nat) (rho 1%nat 1%nat) i j) by exact EO.
    apply von_two; [apply D1|rewrite !EO' by lia; unfold m2, mat2; cbn [me Nat.eqb]; rewrite E00, E11; apply CC_eq; cbn; ring|rewrite !EO' by lia; unfold m2, mat2; cbn [me Nat.eqb]; rewrite E00, E11, E01, E10; apply CC_eq; cbn; ring|]. assert (o * o * (u * u + w * w) <= 1 * (u * u + w * w))%R by (apply Rmult_le_compat_r; nra). assert (0 <= o * o * (u * u + w * w))%R by (apply Rmult_le_pos; nra). pose proof (Rle_0_sqr (1 - 2 * x)) as S. unfold Rsqr in S. split; nra. }
  assert (V2 : von_neumann 2 (exchange_entry (dephasing p) rho) (1 - phi (join o z) / ln 2)%R).
  { unfold join. rewrite P4, Z2. replace (1 - (1 - (1 - 4 * (p * (1 - p)))) * (1 - (1 - 2 * x) * (1 - 2 * x)))%R with (1 - 4 * (p * (1 - p) * (4 * (x * (1 - x)))))%R by ring.
    pose proof (exchange_density 2 2 _ _ (dephasing_fits p) (dephasing_tp p ltac:(lra)) D) as D1. pose proof (dephasing_env p rho ltac:(lra)) as EO.
    assert (EO' : forall i j, i < 2 -> j < 2 -> exchange_entry (dephasing p) rho i j = m2 (rc (1 - p)) (rt (1 - p) * rt p * rc (1 - 2 * x)) (rt (1 - p) * rt p * rc (1 - 2 * x)) (rc p) i j).
    { intros i j Hi Hj. rewrite (EO i j Hi Hj), E00, E11. replace (rc (1 - x) + rc x) with (1 : CC) by (apply CC_eq; cbn; ring). replace (rc (1 - x) + - rc x) with (rc (1 - 2 * x)) by (apply CC_eq; cbn; ring). unfold m2, mat2. destruct i as [|[|i]]; [| |lia]; destruct j as [|[|j]]; try lia; cbn [me Nat.eqb]; ring. }
    assert (RR : rt (1 - p) * rt p * (rt (1 - p) * rt p) = rc (p * (1 - p))). { transitivity ((rt (1 - p) * rt (1 - p)) * (rt p * rt p)); [ring|]. rewrite !rt_rt by lra. rewrite rc_mul. f_equal. ring. }
    apply von_two; [apply D1|rewrite !EO' by lia; unfold m2, mat2; cbn [me Nat.eqb]; apply CC_eq; cbn; ring| |].
    - rewrite !EO' by lia. unfold m2, mat2. cbn [me Nat.eqb]. transitivity (rc (p * (1 - p) * (4 * (x * (1 - x)))) + rc (p * (1 - p)) * (rc (1 - 2 * x) * rc (1 - 2 * x))); [apply CC_eq; cbn; ring|rewrite <- RR; ring].
    - assert (0 <= 4 * (x * (1 - x)) <= 1)%R by (pose proof (Rle_0_sqr (1 - 2 * x)) as S; unfold Rsqr in S; nra). assert (0 <= 4 * (p * (1 - p)) <= 1)%R by (rewrite P4 in OO; nra). nra. }
  assert (HP : binary_entropy p = (1 - phi o / ln 2)%R). { rewrite <- (binary_sym p), <- binary_phi by lra. f_equal. unfold o. lra. }
  pose proof (flagged_entropies q 2 1 2 (dephasing p) (lost 2) rho _ _ ltac:(lra) (dephasing_fits p) (lost_fits 2) (dephasing_tp p ltac:(lra)) (lost_tp 2) D (conj V1 V2 : entropies 2 (dephasing p) rho (_, _)) (lost_entropies 2 rho _ D V0)) as W.
  pose proof (entropies_unique 3 2 _ rho _ _ (dephrasure_fits p q) (proj1 D) V W) as ->. cbn [fst snd]. rewrite HP.
  pose proof (across o z Ho Hz tt Ht) as X. assert (F : (0 <= phi (sqrt (z * z + tt)))%R). { apply phi_up. split; [apply sqrt_pos|]. apply Rle_trans with (sqrt 1); [apply sqrt_le_1_alt; lra|rewrite sqrt_1; lra]. }
  set (fa := phi (sqrt (z * z + o * o * tt))) in *. set (fb := phi (sqrt (z * z + tt))) in *. set (fj := phi (join o z)) in *. set (fo := phi o) in *. set (k := (1 - rest o)%R) in *.
  assert (G : (q * fb + (1 - q) * (fj - fo) <= (1 - q) * fa)%R). { apply (Rmult_le_compat_l (1 - q) _ _ ltac:(lra)) in X. apply (Rmult_le_compat_r fb _ _ F) in Q. lra. }
  apply (Rmult_le_reg_r (ln 2)); [exact L2|]. apply Rminus_le.
  replace (((1 - q) * (1 - fa / ln 2) + q * 0 + binary_entropy q - ((1 - q) * (1 - fj / ln 2) + q * (1 - fb / ln 2) + binary_entropy q)) * ln 2 - (1 - 2 * q - (1 - q) * (1 - fo / ln 2)) * ln 2)%R with (q * fb + (1 - q) * (fj - fo) - (1 - q) * fa)%R by (field; lra). lra.
Qed.
