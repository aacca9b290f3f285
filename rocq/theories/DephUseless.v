(** When the environment of the dephrasure channel can imitate the receiver (C131). *)
From Verif Require Import Py Scalar PauliModel PauliSpec EncoderProofs EighExists Spectral SpectralProofs PowerSums KrausModel KrausSpec KrausProofs KrausProofs2 KrausProofs5 KrausProofs6 KrausProofs8 KrausProofs11 KrausProofs12
  ChoiModel ChannelModel ChannelSpec ChoiSpec ChoiProofs ChoiProofs2 ChoiProofs3 Sqrt EntropyProofs EntropySpec Subadd CohProofs CohProofs2 CohProofs3 CohProofs4 Processing ProcessingSpec Processing2 Degradable KnownSpec KnownProofs KnownProofs2 KnownProofs3 KnownProofs4 DephSpec DephMax.
From Coq Require Import Reals Lra Psatz.
Open Scope nat_scope.
Open Scope K_scope.
Add Ring CCring65 : (s_rt CC).

(** the environment holds (1-q) E + q rho.  From rho it passes on the dephased state with probability a+b and from E it
    finds out the value of the qubit without ever being wrong *)
Definition guess (p a b y : R) : list (marr CC) :=
  let s := rt (1 - (a + b)) in let nb := - rt b in let u := rt y * rt p in let v := rt y * rt (1 - p) in let nv := - (rt y * rt (1 - p)) in let f := rt (1 - 2 * y * p) in let g := rt (1 - 2 * y * (1 - p)) in
  [MA 3 4 (fun i j => match i, j with 0, 2 => rt a | 1, 3 => rt a | _, _ => s0 end)%nat; MA 3 4 (fun i j => match i, j with 0, 2 => rt b | 1, 3 => nb | _, _ => s0 end)%nat;
   MA 3 4 (fun i j => match i, j with 0, 0 => u | 0, 1 => v | _, _ => s0 end)%nat; MA 3 4 (fun i j => match i, j with 1, 0 => u | 1, 1 => nv | _, _ => s0 end)%nat;
   MA 3 4 (fun i j => match i, j with 2, 0 => f | _, _ => s0 end)%nat; MA 3 4 (fun i j => match i, j with 2, 1 => g | _, _ => s0 end)%nat;
   MA 3 4 (fun i j => match i, j with 2, 2 => s | _, _ => s0 end)%nat; MA 3 4 (fun i j => match i, j with 2, 3 => s | _, _ => s0 end)%nat].
Section Guess.
Variables (p a b y : R).
Hypothesis Hp : (0 <= p <= 1)%R.
Hypothesis Ha : (0 <= a)%R.
Hypothesis Hb : (0 <= b)%R.
Hypothesis Hab : (a + b <= 1)%R.
Hypothesis Hy : (0 <= y)%R.
Hypothesis Hy0 : (2 * y * p <= 1)%R.
Hypothesis Hy1 : (2 * y * (1 - p) <= 1)%R.
Lemma guess_fits : fits 3 4 (guess p a b y). Proof. repeat constructor. Qed.
Ltac twoc := two; rewrite ?sconj_mul, ?sconj_opp, ?rt_conj, ?sconj_0.
Lemma guess_tp : trace_preserving 4 (guess p a b y).
Proof.
  pose proof (rt_rt a Ha) as Ea. pose proof (rt_rt b Hb) as Eb. pose proof (rt_rt y Hy) as Ey. pose proof (rt_rt p ltac:(lra)) as Ep. pose proof (rt_rt (1 - p) ltac:(lra)) as Eq. pose proof (rt_rt (1 - (a + b)) ltac:(lra)) as Es.
  pose proof (rt_rt (1 - 2 * y * p) ltac:(lra)) as E0. pose proof (rt_rt (1 - 2 * y * (1 - p)) ltac:(lra)) as E1.
  intros i j Hi Hj. unfold mm, adj, eye, guess. destruct i as [|[|[|[|i]]]]; try lia; destruct j as [|[|[|[|j]]]]; try lia; cbn [map fold_right mr mc me bsum Nat.eqb] ; twoc.
  all: try ring.
  - transitivity (rt y * rt y * (rt p * rt p) + rt y * rt y * (rt p * rt p) + rt (1 - 2 * y * p) * rt (1 - 2 * y * p)); [ring|]. rewrite Ey, Ep, E0. apply CC_eq; cbn; ring.
  - transitivity (rt y * rt y * (rt (1 - p) * rt (1 - p)) + rt y * rt y * (rt (1 - p) * rt (1 - p)) + rt (1 - 2 * y * (1 - p)) * rt (1 - 2 * y * (1 - p))); [ring|]. rewrite Ey, Eq, E1. apply CC_eq; cbn; ring.
  - transitivity (rt a * rt a + rt b * rt b + rt (1 - (a + b)) * rt (1 - (a + b))); [ring|]. rewrite Ea, Eb, Es. apply CC_eq; cbn; ring.
  - transitivity (rt a * rt a + rt b * rt b + rt (1 - (a + b)) * rt (1 - (a + b))); [ring|]. rewrite Ea, Eb, Es. apply CC_eq; cbn; ring.
Qed.
Definition guessed (X : array CC) : array CC :=
  let r := rt p * rt (1 - p) in
  dsum 2 (m2 (rc (a + b) * X 2%nat 2%nat + rc y * (rc p * X 0%nat 0%nat + r * (X 0%nat 1%nat + X 1%nat 0%nat) + rc (1 - p) * X 1%nat 1%nat)) (rc (a - b) * X 2%nat 3%nat)
    (rc (a - b) * X 3%nat 2%nat) (rc (a + b) * X 3%nat 3%nat + rc y * (rc p * X 0%nat 0%nat + - (r * (X 0%nat 1%nat + X 1%nat 0%nat)) + rc (1 - p) * X 1%nat 1%nat)))
    (fun _ _ => rc (1 - 2 * y * p) * X 0%nat 0%nat + rc (1 - 2 * y * (1 - p)) * X 1%nat 1%nat + rc (1 - (a + b)) * (X 2%nat 2%nat + X 3%nat 3%nat)).
Lemma guess_map X : eqm 3 3 (channel_map (guess p a b y) X) (guessed X).
Proof.
  intros i j Hi Hj. unfold guessed. rewrite <- (rt_rt (1 - (a + b))), <- (rt_rt (1 - 2 * y * p)), <- (rt_rt (1 - 2 * y * (1 - p))) by lra. replace (rc (a + b)) with (rt a * rt a + rt b * rt b) by (rewrite !rt_rt by assumption; apply rc_add).
  replace (rc (a - b)) with (rt a * rt a + - (rt b * rt b)) by (rewrite !rt_rt by assumption; apply CC_eq; cbn; ring). rewrite <- (rt_rt y), <- (rt_rt (1 - p)), <- (rt_rt p) by lra.
  unfold channel_map, mm, adj, guess, dsum, m2. destruct i as [|[|[|i]]]; try lia; destruct j as [|[|[|j]]]; try lia; twoc; ring.
Qed.
End Guess.
Theorem dephrasure_imitated p q : (0 <= p <= 1 / 2)%R -> (useless_bound p <= q <= 1)%R -> environment_imitates 3 (dephrasure p q).
Proof.
  intros Hp [Hq Hq1]. unfold useless_bound in Hq. assert (B : (1 - 2 * p <= q * (2 - 2 * p))%R). { apply (Rmult_le_compat_r (2 - 2 * p)) in Hq; [|lra]. replace ((1 - 2 * p) / (2 - 2 * p) * (2 - 2 * p))%R with (1 - 2 * p)%R in Hq by (field; lra). exact Hq. }
  assert (Q0 : (0 <= q)%R) by nra.
  assert (EX : exists a b y, (0 <= a)%R /\ (0 <= b)%R /\ (a + b <= 1)%R /\ (0 <= y)%R /\ (2 * y * p <= 1)%R /\ (2 * y * (1 - p) <= 1)%R /\ (q * (a - b) = (1 - q) * (1 - 2 * p))%R /\ (q * (a + b) + (1 - q) * (4 * (p * (1 - p)) * y) = 1 - q)%R).
  { destruct (Rle_dec (1 / 2) q) as [H|H].
    - exists ((1 - q) / q * (1 - p))%R, ((1 - q) / q * p)%R, 0%R. assert (S : (0 <= (1 - q) / q)%R) by (apply Rmult_le_pos; [lra|left; apply Rinv_0_lt_compat; lra]). assert (S1 : ((1 - q) / q <= 1)%R) by (apply (Rmult_le_reg_r q); [lra|]; unfold Rdiv; rewrite Rmult_assoc, Rinv_l; lra).
      repeat split; try nra; field; lra.
    - assert (P0 : (0 < p)%R) by nra. set (x := ((1 - q) * (1 - 2 * p) / q)%R). assert (X : (q * x = (1 - q) * (1 - 2 * p))%R). { unfold x. destruct (Req_dec q 0) as [->|N]; [|field; exact N]. assert (p = 1 / 2)%R as -> by lra. lra. }
      assert (X1 : (0 <= x <= 1)%R). { destruct (Req_dec q 0) as [->|N]; [unfold x, Rdiv; rewrite Rinv_0; lra|]. assert (0 < q)%R by lra. split; apply (Rmult_le_reg_l q); try assumption; rewrite X; nra. }
      set (y := ((1 - 2 * q) / ((1 - q) * (4 * (p * (1 - p)))))%R). assert (PP : (0 < p * (1 - p))%R) by nra. assert (DP : (0 < (1 - q) * (4 * (p * (1 - p))))%R) by (apply Rmult_lt_0_compat; lra). assert (Y : ((1 - q) * (4 * (p * (1 - p))) * y = 1 - 2 * q)%R) by (unfold y; field; lra).
      assert (Y0 : (0 <= y)%R) by (apply Rmult_le_pos; [lra|left; apply Rinv_0_lt_compat, DP]).
      assert (Y1 : (2 * y * (1 - p) <= 1)%R). { apply (Rmult_le_reg_l ((1 - q) * (2 * p))); [apply Rmult_lt_0_compat; lra|]. replace ((1 - q) * (2 * p) * (2 * y * (1 - p)))%R with ((1 - q) * (4 * (p * (1 - p))) * y)%R by ring. rewrite Y. lra. }
      exists ((1 + x) / 2)%R, ((1 - x) / 2)%R, y. split; [lra|]. split; [lra|]. split; [lra|]. split; [exact Y0|]. split; [nra|]. split; [exact Y1|]. split; [rewrite <- X; field|]. rewrite <- Rmult_assoc, Y. lra. }
  destruct EX as (a & b & y & Ha & Hb & Hab & Hy & Hy0 & Hy1 & X1 & X2). assert (Hp1 : (0 <= p <= 1)%R) by lra. assert (Hqq : (0 <= q <= 1)%R) by lra.
  exists (guess p a b y). split; [apply guess_fits|]. split; [apply guess_tp; assumption|]. intros rho i j Hi Hj.
  pose proof (flagged_out q 2 1 2 (dephasing p) (lost 2) rho Hqq (dephasing_fits p) (lost_fits 2)) as EO. pose proof (flagged_env q 2 1 2 (dephasing p) (lost 2) rho Hqq (dephasing_fits p) (lost_fits 2)) as EE.
  transitivity (dsum 2 (fun k l => rc (1 - q) * m2 (rho 0%nat 0%nat) (rc (1 - 2 * p) * rho 0%nat 1%nat) (rc (1 - 2 * p) * rho 1%nat 0%nat) (rho 1%nat 1%nat) k l) (fun _ _ => rc q * (rho 0%nat 0%nat + rho 1%nat 1%nat)) i j).
  { unfold dephrasure. rewrite (EO i j Hi Hj). apply (dsum_ext 2 1); try assumption.
    - intros k l Hk Hl. rewrite (dephasing_out p rho Hp1 k l Hk Hl). reflexivity.
    - intros k l Hk Hl. replace k with O by lia. replace l with O by lia. rewrite lost_map. cbn [bsum]. ring. }
  set (env := dsum 2 (fun k l => rc (1 - q) * m2 (rc (1 - p) * (rho 0%nat 0%nat + rho 1%nat 1%nat)) (rt (1 - p) * rt p * (rho 0%nat 0%nat + - rho 1%nat 1%nat)) (rt (1 - p) * rt p * (rho 0%nat 0%nat + - rho 1%nat 1%nat)) (rc p * (rho 0%nat 0%nat + rho 1%nat 1%nat)) k l) (fun k l => rc q * rho k l)).
  assert (EV : eqm 4 4 (exchange_entry (dephrasure p q) rho) env).
  { intros k l Hk Hl. unfold dephrasure, env. rewrite (EE k l Hk Hl). apply (dsum_ext 2 2); try assumption.
    - intros k' l' Hk' Hl'. rewrite (dephasing_env p rho Hp1 k' l' Hk' Hl'). reflexivity.
    - intros k' l' Hk' Hl'. rewrite lost_exchange by assumption. reflexivity. }
  rewrite (channel_map_same 3 4 _ _ _ _ (guess_fits p a b y) (same_ops_refl _) EV i j Hi Hj), (guess_map p a b y Hp1 Ha Hb Hab Hy Hy0 Hy1 env i j Hi Hj).
  pose proof (rt_rt (1 - p) ltac:(lra)) as E1. pose proof (rt_rt p ltac:(lra)) as E2. unfold guessed, env, dsum, m2, mat2. set (r00 := rho 0%nat 0%nat). set (r01 := rho 0%nat 1%nat). set (r10 := rho 1%nat 0%nat). set (r11 := rho 1%nat 1%nat).
  assert (F1 : rc (1 - q) = rc q * rc (a + b) + rc (1 - q) * (rc 4 * (rc p * rc (1 - p)) * rc y)) by (rewrite !rc_mul, rc_add; f_equal; lra).
  assert (F2 : rc (1 - q) * rc (1 - 2 * p) = rc q * rc (a - b)) by (rewrite !rc_mul; f_equal; lra).
  assert (R2 : rt p * rt (1 - p) * (rt (1 - p) * rt p) = rc p * rc (1 - p)) by (rewrite <- E1, <- E2; ring).
  assert (R4 : rc 4 = (1 + 1) * (1 + 1)) by (apply CC_eq; cbn; ring).
  destruct i as [|[|[|i]]]; try lia; destruct j as [|[|[|j]]]; try lia; cbn -[car sadd smul s0 s1 sopp sconj rt rc r00 r01 r10 r11].
  all: try reflexivity; fold r00 r01 r10 r11.
  - transitivity (rc q * rc (a + b) * r00 + rc (1 - q) * rc y * ((1 + 1) * (rc p * rc (1 - p)) * (r00 + r11) + (1 + 1) * (rt p * rt (1 - p) * (rt (1 - p) * rt p)) * (r00 + - r11))); [|ring]. rewrite R2. rewrite F1 at 1. rewrite R4. ring.
  - transitivity (rc (1 - q) * rc (1 - 2 * p) * r01); [ring|]. rewrite F2. ring.
  - transitivity (rc (1 - q) * rc (1 - 2 * p) * r10); [ring|]. rewrite F2. ring.
  - transitivity (rc q * rc (a + b) * r11 + rc (1 - q) * rc y * ((1 + 1) * (rc p * rc (1 - p)) * (r00 + r11) + - ((1 + 1) * (rt p * rt (1 - p) * (rt (1 - p) * rt p)) * (r00 + - r11)))); [|ring]. rewrite R2. rewrite F1 at 1. rewrite R4. ring.
  - transitivity ((rc (1 - 2 * y * p) * (rc (1 - q) * rc (1 - p)) + rc (1 - 2 * y * (1 - p)) * (rc (1 - q) * rc p) + rc (1 - (a + b)) * rc q) * (r00 + r11)); [|ring]. f_equal. rewrite !rc_mul, !rc_add. f_equal. lra.
Qed.
