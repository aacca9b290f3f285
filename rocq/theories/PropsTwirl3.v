(** The law of the fidelity estimate over many trials (PyQCodes/device_adaptor.py L225-272). *)
From Verif Require Import Py Scalar PauliModel PauliSpec EncoderProofs CircuitModel CircuitSpec CircuitProofs CircuitProofs2 ChannelModel OptimModel DeviceModel DeviceSpec DeviceProofs DeviceProofs2 DeviceProofs3 DeviceProofs4 DeviceProofs5 DeviceProofs6 PropsDevice TwirlSpec TwirlProofs4 TwirlSpec3 TwirlProofs5 PropsTwirl.
From Coq Require Import Reals Lra Permutation.
Open Scope R_scope.

Lemma reset_new a w a1 w1 : a_real a = false -> set_register_to_zero a false w = Ok (a1, w1) -> placed (seq 0 (a_numb a)) (a_register a1) w1.
Proof.
  intros RD H. unfold set_register_to_zero in H. rewrite RD in H. unfold deallocate_all in H. destruct (guard _ _); [|discriminate]. cbn [bind] in H. destruct (allocate_qureg _ _) as [w2 l] eqn:E. injection H as <- <-. destruct (allocate_qubits _ _ _ _ E) as [Q L]. apply placed_new; [exact Q|exact L].
Qed.
Lemma one_trial a ch eps cheat w : estimate_average_fidelity a ch 1 eps cheat w = do (a1, w1, z) <- trial a ch eps cheat w; Ok (a1, w1, if z : bool then 1 else 0).
Proof.
  unfold estimate_average_fidelity. change (Z.to_nat 1) with 1%nat. cbn [trials]. destruct (trial a ch eps cheat w) as [[[a1 w1] z]|]; [|reflexivity]. cbn [bind Z.eqb]. f_equal. f_equal. destruct z; cbn [INR]; field.
Qed.

Section Law.
Variables (n : nat) (eps : R) (cheat : bool) (g : list nat -> world -> res world) (V : list nat -> @state CC -> @state CC) (m : Z) (ps : list nat) (A : list bool -> list bool -> CC).
Hypothesis N1 : (1 <= n)%nat.
Hypothesis EP : 0 < eps.
Hypothesis AV : acts_as n g V.
Hypothesis KV : keeps_norm n V.
Hypothesis RB : IZR m - 1 < log2 (1 / eps) / INR n <= IZR m.
Hypothesis M1 : (1 <= m)%Z.
Hypothesis VA : is_matrix n (V ps) A.
Let step a := estimate_average_fidelity a (Two g) 1 eps cheat.
Let ranges := design_ranges n (Z.to_nat (2 * m + 1)).
Let mu := average_fidelity n A + (/ 2 ^ n) ^ Z.to_nat (2 * m) * (hadamard_fidelity n A - average_fidelity n A).
Definition ready (a : adaptor) (w : world) : Prop :=
  a_real a = false /\ can_start a cheat w /\ a_numb a = n /\ (exists a1 w1, set_register_to_zero a cheat w = Ok (a1, w1) /\ placed ps (a_register a1) w1) /\ w_prob w <> 0.
Lemma step_law a w : ready a w -> exists p, succeeds (step a) w p /\ (forall d, p d <> 1 -> exists o a' w', step a (with_luck w d o) = Ok (a', w', 0)) /\
  (forall d o a' w' r, step a (with_luck w d o) = Ok (a', w', r) -> ready a' w' /\ (r = 1 \/ r = 0)) /\ expected ranges p = mu.
Proof.
  intros (RD & CS & AN & (a1 & w1 & RS & PL) & W0). destruct (reset_run a cheat w CS) as (a1' & w1' & RS0 & AZ & AN1 & AR1 & P1 & O1 & D1 & CH). rewrite RS in RS0. injection RS0 as <- <-. pose proof AZ as (PE & ND & LN & KZ).
  assert (NDQ : NoDup (w_qubits w1)) by (apply (Permutation_NoDup PE ND)).
  destruct (C144_expected a cheat w eps g V m CS) as (p & ps' & a1' & w1' & RS' & PL' & SW & HA); [rewrite AN; exact N1|exact EP|rewrite AN; exact AV|rewrite AN; exact KV|rewrite AN; exact RB|].
  rewrite RS in RS'. injection RS' as <- <-. assert (ps' = ps) as -> by (apply (placed_unique _ _ _ _ NDQ PL' PL)). exists p. split; [exact SW|]. split; [|split].
  - intros d P. exists (repeat true n). destruct (SW d (repeat true n)) as (a' & w' & r & E & R & R1 & _ & _). exists a', w'. unfold step. rewrite E. destruct R as [->| ->]; [reflexivity|]. exfalso. apply P. specialize (R1 eq_refl).
    rewrite one_trial in E. destruct (trial a (Two g) eps cheat (with_luck w d (repeat true n))) as [[[a2 w2] z]|] eqn:T; [|discriminate]. cbn [bind] in E. injection E as <- <- Z. destruct z; [|lra].
    assert (PW : w_prob w2 = w_prob w). { change (w_prob w) with (w_prob (with_luck w d (repeat true n))). subst n. apply (trial_ones a cheat _ eps g V a2 w2); try assumption. intros i Hi. cbn [with_luck w_outcomes]. rewrite (nth_indep _ false true) by (rewrite repeat_length; exact Hi). apply nth_repeat. }
    rewrite PW in R1. apply (Rmult_eq_reg_l (w_prob w)); [lra|exact W0].
  - intros d o a' w' r E. unfold step in E. rewrite one_trial in E. destruct (trial a (Two g) eps cheat (with_luck w d o)) as [[[a2 w2] z]|] eqn:T; [|discriminate]. cbn [bind] in E. injection E as <- <- Z. split; [|destruct z; auto].
    assert (CSL : can_start a cheat (with_luck w d o)) by exact CS.
    destruct (trials_run n eps cheat g V N1 EP AV KV 1 a (with_luck w d o) 0 CSL AN (or_introl RD)) as (a3 & w3 & z3 & T3 & CS3 & AN3 & AR3 & PR3 & _). cbn [trials] in T3. rewrite T in T3. cbn [bind] in T3. injection T3 as <- <- _.
    split; [congruence|]. split; [exact CS3|]. split; [exact AN3|]. split; [|apply PR3; exact W0].
    rewrite <- AN in N1, AV, KV. destruct (trial_run a cheat (with_luck w d o) eps g V CSL N1 EP AV KV) as (a4 & w4 & w5 & phases & ps4 & w6 & z4 & x4 & RS4 & AZ4 & AN4 & AR4 & PL4 & E4 & TR4 & Q4 & _). rewrite T in TR4. injection TR4 as <- <- _.
    rewrite (reset_luck _ _ _ _ _ d o RS) in RS4. injection RS4 as <- <-. destruct (reset_run a1 cheat w2 CS3) as (a6 & w7 & RS6 & AZ6 & AN6 & AR6 & _ & _ & _ & CH6). exists a6, w7. split; [exact RS6|].
    destruct cheat.
    + destruct (CH6 (or_introl eq_refl)) as [-> Q6]. unfold placed. rewrite Q6, Q4. exact PL.
    + assert (ps = seq 0 (a_numb a)) as -> by (apply (placed_unique _ _ _ _ NDQ PL), (reset_new a w a1 w1 RD RS)). replace (a_numb a) with (a_numb a1) by congruence. apply (reset_new a1 w2 a6 w7); [congruence|exact RS6].
  - rewrite AN in HA. destruct (HA A VA) as [_ E]. apply (E M1).
Qed.
Lemma law N a w f v : ready a w -> (has_mean step (expected ranges) N a w f v <-> v = coins N mu f).
Proof.
  apply (coin_law step (expected ranges) ready mu).
  - intros f1 f2 E. apply expected_ext, E.
  - intros p c b. apply expected_affine, ranges_positive.
  - intros a0 w0 R. apply R.
  - intros a0 w0 R. destruct (step_law a0 w0 R) as (p & SW & FA & NX & ME). exists p. split; [exact SW|]. split; [exact FA|]. split; [|exact ME]. intros d o a' w' r E. apply (NX d o a' w' r E).
Qed.
End Law.

(** ** C147 *)
(** An estimate with N trials is the mean of N estimates with one trial each. *)
Theorem C147_mean a ch eps cheat w N : (1 <= N)%nat -> 0 < eps ->
  estimate_average_fidelity a ch (Z.of_nat N) eps cheat w =
  do (a', w', l) <- one_by_one (fun a => estimate_average_fidelity a ch 1 eps cheat) N a w; Ok (a', w', sum_of l / INR N).
Proof.
  intros N1 EP. assert (G : forall k a w, one_by_one (fun a => estimate_average_fidelity a ch 1 eps cheat) k a w = one_by_one (fun a w => do (a1, w1, z) <- trial a ch eps cheat w; Ok (a1, w1, if z : bool then 1 else 0)) k a w).
  { induction k as [|k IH]; intros a0 w0; [reflexivity|]. cbn [one_by_one]. rewrite one_trial. destruct (do (a1, w1, z) <- trial a0 ch eps cheat w0; Ok (a1, w1, if z : bool then 1 else 0)) as [[[a1 w1] r]|]; [|reflexivity]. cbn [bind]. rewrite IH. reflexivity. }
  rewrite G. clear G. unfold estimate_average_fidelity. rewrite Nat2Z.id. rewrite <- INR_IZR_INZ. replace (Z.of_nat N =? 0)%Z with false by (symmetry; apply Z.eqb_neq; lia). clear N1.
  assert (G : forall k a w, (do (a1, w1, z) <- trials k a ch eps cheat w 0; Ok (a1, w1, INR z)) = (do (a', w', l) <- one_by_one (fun a w => do (a1, w1, z) <- trial a ch eps cheat w; Ok (a1, w1, if z : bool then 1 else 0)) k a w; Ok (a', w', sum_of l))).
  { induction k as [|k IH]; intros a0 w0; [reflexivity|]. cbn [trials one_by_one]. destruct (trial a0 ch eps cheat w0) as [[[a1 w1] z]|]; [|reflexivity]. cbn [bind]. rewrite trials_count. specialize (IH a1 w1).
    destruct (trials k a1 ch eps cheat w1 0) as [[[a2 w2] z2]|], (one_by_one _ k a1 w1) as [[[a3 w3] l3]|]; cbn [bind] in *; try congruence. injection IH as -> -> IH. f_equal. f_equal. unfold sum_of in *. cbn [fold_right]. rewrite <- IH, plus_INR. destruct z; cbn [INR]; ring. }
  specialize (G N a w). destruct (trials N a ch eps cheat w 0) as [[[a2 w2] z2]|], (one_by_one _ N a w) as [[[a3 w3] l3]|]; cbn [bind] in *; try congruence.
Qed.
Print Assumptions C147_mean.
(** On a simulator, for epsilon < 1, the N values returned by the single trials have the law of N independent coin flips,
    with a probability mu within epsilon^2 of the average fidelity: their law gives a mean to every function of these
    values, and no other mean. *)
Theorem C147_law a cheat w epsilon g V : a_real a = false -> can_start a cheat w -> w_prob w <> 0 -> (1 <= a_numb a)%nat -> 0 < epsilon < 1 -> acts_as (a_numb a) g V -> keeps_norm (a_numb a) V ->
  exists ps a1 w1 rounds, set_register_to_zero a cheat w = Ok (a1, w1) /\ placed ps (a_register a1) w1 /\ numb_times (a_numb a) epsilon = Ok (Z.of_nat rounds) /\
    forall A, is_matrix (a_numb a) (V ps) A -> exists mu, 0 <= mu <= 1 /\ Rabs (mu - average_fidelity (a_numb a) A) <= epsilon ^ 2 /\
      forall N f v, has_mean (fun a => estimate_average_fidelity a (Two g) 1 epsilon cheat) (expected (design_ranges (a_numb a) rounds)) N a w f v <-> v = coins N mu f.
Proof.
  intros RD CS W0 N1 EP AV KV. destruct (reset_run a cheat w CS) as (a1 & w1 & RS & AZ & AN1 & AR1 & P1 & O1 & D1 & CH). pose proof AZ as (PE & ND & LN & KZ).
  set (ps := map (qpos (w_qubits w1)) (a_register a1)). assert (PL : placed ps (a_register a1) w1) by (apply placed_exists; [intros q Hq; apply (Permutation_in _ PE), Hq|reflexivity]).
  set (x := log2 (1 / epsilon) / INR (a_numb a)). set (m := (- Int_part (- x))%Z). assert (RB : IZR m - 1 < x <= IZR m) by (unfold m; rewrite opp_IZR; pose proof (base_Int_part (- x)); lra).
  assert (X0 : 0 < x). { unfold x. apply Rdiv_lt_0_compat; [|apply lt_0_INR; lia]. unfold log2. apply Rdiv_lt_0_compat; rewrite <- ln_1; apply ln_increasing; try lra. apply (Rmult_lt_reg_r epsilon); [lra|]. replace (1 / epsilon * epsilon) with 1 by (field; lra). lra. }
  assert (M1 : (1 <= m)%Z). { assert (L : IZR 0 < IZR m) by lra. apply lt_IZR in L. lia. }
  exists ps, a1, w1, (Z.to_nat (2 * m + 1)). split; [exact RS|]. split; [exact PL|]. split. { rewrite Z2Nat.id by lia. apply round_count; [exact N1|lra|exact RB]. }
  intros A VA. exists (average_fidelity (a_numb a) A + (/ 2 ^ a_numb a) ^ Z.to_nat (2 * m) * (hadamard_fidelity (a_numb a) A - average_fidelity (a_numb a) A)).
  destruct (C144_expected a cheat w epsilon g V m CS N1 (proj1 EP) AV KV RB) as (p & ps' & a1' & w1' & RS' & PL' & SW & HA). rewrite RS in RS'. injection RS' as <- <-. assert (ps' = ps) as -> by (apply (placed_unique _ _ _ _ (Permutation_NoDup PE ND) PL' PL)).
  destruct (HA A VA) as [B E]. specialize (E M1). cbn zeta in B. split; [|split; [rewrite <- E; exact B|]].
  - assert (LR : length (a_register a1) = a_numb a) by congruence. assert (KV' : forall psi, CircuitSpec.inner (a_numb a) (V ps psi) (V ps psi) = CircuitSpec.inner (a_numb a) psi psi) by (intros psi; apply KV).
    pose proof (average_bounds (a_register a1) (a_numb a) LR A (V ps) VA KV') as BA. pose proof (hadamard_bounds (a_register a1) (w_qubits w1) (a_numb a) LR PE ND A (V ps) VA KV') as BH.
    assert (0 < 2 ^ a_numb a) by (apply pow_lt; lra). assert (1 <= 2 ^ a_numb a) by (apply pow_R1_Rle; lra). assert (S : 0 <= (/ 2 ^ a_numb a) ^ Z.to_nat (2 * m) <= 1).
    { split; [apply pow_le, Rlt_le, Rinv_0_lt_compat; assumption|]. rewrite <- (pow1 (Z.to_nat (2 * m))). apply pow_incr. split; [apply Rlt_le, Rinv_0_lt_compat; assumption|]. rewrite <- Rinv_1. apply Rinv_le_contravar; lra. }
    set (F := average_fidelity _ _) in *. set (G := hadamard_fidelity _ _) in *. set (s := (_ ^ _)) in *. nra.
  - intros N f v. apply (law (a_numb a) epsilon cheat g V m ps A N1 (proj1 EP) AV KV RB M1 VA). split; [exact RD|]. split; [exact CS|]. split; [reflexivity|]. split; [|exact W0]. exists a1, w1. split; assumption.
Qed.
Print Assumptions C147_law.

(** The expected estimate of N trials is mu itself, its mean squared error is at most 1/(4N) + epsilon^4, and it is off by
    epsilon^2 + delta or more with a probability of at most 1/(4 N delta^2). *)
Theorem C147_error a cheat w epsilon g V N : a_real a = false -> can_start a cheat w -> w_prob w <> 0 -> (1 <= a_numb a)%nat -> 0 < epsilon < 1 -> acts_as (a_numb a) g V -> keeps_norm (a_numb a) V -> (1 <= N)%nat ->
  exists ps a1 w1 rounds, set_register_to_zero a cheat w = Ok (a1, w1) /\ placed ps (a_register a1) w1 /\ numb_times (a_numb a) epsilon = Ok (Z.of_nat rounds) /\
    forall A, is_matrix (a_numb a) (V ps) A ->
      let mean f v := has_mean (fun a => estimate_average_fidelity a (Two g) 1 epsilon cheat) (expected (design_ranges (a_numb a) rounds)) N a w f v in
      let F := average_fidelity (a_numb a) A in
      (exists mu, mean (fun l => sum_of l / INR N) mu /\ Rabs (mu - F) <= epsilon ^ 2) /\
      (exists e, mean (fun l => (sum_of l / INR N - F) ^ 2) e /\ e <= 1 / (4 * INR N) + epsilon ^ 4) /\
      forall delta, 0 < delta -> exists q, mean (fun l => if Rlt_dec (Rabs (sum_of l / INR N - F)) (epsilon ^ 2 + delta) then 0 else 1) q /\ q <= 1 / (4 * INR N * delta ^ 2).
Proof.
  intros RD CS W0 N1 EP AV KV NN. destruct (C147_law a cheat w epsilon g V RD CS W0 N1 EP AV KV) as (ps & a1 & w1 & rounds & RS & PL & NT & H). exists ps, a1, w1, rounds. split; [exact RS|]. split; [exact PL|]. split; [exact NT|]. intros A VA.
  destruct (H A VA) as (mu & MU & CL & LAW). cbn zeta. destruct (coin_errors mu _ _ N NN MU CL) as (H1 & H2 & H3). split; [|split].
  - exists mu. split; [|exact CL]. apply LAW. symmetry. exact H1.
  - eexists. split; [apply LAW; reflexivity|]. replace (epsilon ^ 4) with ((epsilon ^ 2) ^ 2) by ring. exact H2.
  - intros delta D. eexists. split; [apply LAW; reflexivity|]. apply (H3 delta D).
Qed.
Print Assumptions C147_error.

(** A Z gate on one qubit with epsilon = 1/2: with 100 trials the mean squared error of the estimate (of 1/3) is
    3/1600 + 1/144, less than 1/400 + 1/16. *)
Example C147_case :
  let w := one_world [] [] in let a := adaptor_init [0%nat] false in
  a_real a = false /\ can_start a true w /\ w_prob w <> 0 /\ acts_as 1 zchan zact /\ keeps_norm 1 zact /\
  has_mean (fun a => estimate_average_fidelity a (Two zchan) 1 (1 / 2) true) (expected [3; 3; 3]%nat) 100 a w (fun l => (sum_of l / 100 - average_fidelity 1 zmatrix) ^ 2) (3 / 1600 + 1 / 144).
Proof.
  set (w := one_world [] []). set (a := adaptor_init [0%nat] false). cbn zeta.
  assert (CS : can_start a true w). { destruct (one_zero false [] []) as (P1 & P2 & P3 & _). split; [exact P1|]. split; assumption. }
  assert (W0 : w_prob w <> 0) by (cbn; lra).
  split; [reflexivity|]. split; [exact CS|]. split; [exact W0|]. split; [apply zchan_acts|]. split; [apply zact_norm|].
  assert (L : 1 / (1 / 2) = 2) by field. assert (RB : IZR 1 - 1 < log2 (1 / (1 / 2)) / INR 1 <= IZR 1).
  { rewrite L. cbn [INR]. unfold log2. assert (0 < ln 2) by (rewrite <- ln_1; apply ln_increasing; lra). replace (ln 2 / ln 2 / 1) with 1 by (field; lra). lra. }
  assert (VA : is_matrix 1 (zact [0%nat]) zmatrix) by exact z_is_matrix.
  apply (law 1 (1 / 2) true zchan zact 1 [0%nat] zmatrix (le_n 1) ltac:(lra) (zchan_acts 1) (zact_norm 1) RB ltac:(lia) VA 100 a w).
  - split; [reflexivity|]. split; [exact CS|]. split; [reflexivity|]. split; [|exact W0]. eexists a, _. split; [reflexivity|]. repeat constructor.
  - rewrite z_average, z_hadamard. assert (I : INR 100 = 100) by (rewrite INR_IZR_INZ; reflexivity). rewrite (coins_ext 100 _ _ (fun l => (sum_of l / INR 100 - 1 / 3) ^ 2)) by (intros; rewrite I; reflexivity). rewrite coins_error by lia. rewrite I. change (Z.to_nat (2 * 1)) with 2%nat. cbn [pow]. field.
Qed.
Print Assumptions C147_case.
