(** The fidelity estimate of noisy circuits (PyQCodes/device_adaptor.py L225-272, PyQCodes/README.md L170-201). *)
From Verif Require Import Py Scalar PauliModel PauliSpec EncoderProofs CircuitModel CircuitSpec CircuitProofs CircuitProofs2 ChannelModel OptimModel ChoiProofs2 DeviceModel DeviceSpec DeviceProofs DeviceProofs2 DeviceProofs3 DeviceProofs4 DeviceProofs5 DeviceProofs6 PropsDevice TwirlSpec TwirlSpec3 TwirlSpec4 TwirlProofs TwirlProofs2 TwirlProofs3 TwirlProofs4 TwirlProofs5 TwirlProofs6 PropsTwirl PropsTwirl3.
From Coq Require Import Reals Lra Permutation.
Open Scope R_scope.
Add Ring CCring83 : (s_rt CC).

Lemma both_length {X Y} (P : X -> Y -> Prop) l l' : Forall2 P l l' -> length l = length l'.
Proof. induction 1; cbn; congruence. Qed.
Section Noise.
Variables (n : nat) (eps : R) (cheat : bool) (circuits : list (list nat -> world -> res world)) (Vs : list (list nat -> @state CC -> @state CC)) (As : list (list bool -> list bool -> CC)) (q : list R) (m : Z) (ps : list nat).
Hypothesis N1 : (1 <= n)%nat.
Hypothesis EP : 0 < eps.
Hypothesis RB : IZR m - 1 < log2 (1 / eps) / INR n <= IZR m.
Hypothesis CV : Forall2 (fun g V => acts_as n g V /\ keeps_norm n V) circuits Vs.
Hypothesis VA : Forall2 (fun (V : list nat -> @state CC -> @state CC) A => is_matrix n (V ps) A) Vs As.
Let ranges := design_ranges n (Z.to_nat (2 * m + 1)).
Let step a := estimate_average_fidelity a (Two (noisy circuits)) 1 eps cheat.
Let index (d : list nat) := (nth (length ranges) d 0 mod length circuits)%nat.
Hypothesis LC : length q = length circuits.
Lemma step_index a w d o : can_start a cheat w -> a_numb a = n -> step a (with_luck w d o) = estimate_average_fidelity a (Two (numbered circuits (index d))) 1 eps cheat (with_luck w d o).
Proof.
  intros CS AN. unfold step. rewrite !one_trial. pose proof (trial_noisy a cheat (with_luck w d o) eps circuits m CS ltac:(rewrite AN; exact N1) EP ltac:(rewrite AN; exact RB)) as T. rewrite AN in T. cbn zeta in T. rewrite T. reflexivity.
Qed.
(** the probability that circuit number i makes a trial count *)
Definition chance (a1 : adaptor) (w1 : world) (i : nat) (d : list nat) : R :=
  let u := state_after a1 w1 n (Z.to_nat (2 * m + 1)) d in Cmod (CircuitSpec.inner n u (nth i Vs (fun _ psi => psi) ps u)) ^ 2.
Lemma chance_succeeds a w a1 w1 i : can_start a cheat w -> a_numb a = n -> set_register_to_zero a cheat w = Ok (a1, w1) -> placed ps (a_register a1) w1 ->
  succeeds (estimate_average_fidelity a (Two (numbered circuits i)) 1 eps cheat) w (chance a1 w1 i).
Proof.
  intros CS AN RS PL. destruct (numbered_acts n circuits Vs i CV) as [AV KV]. pose proof (trial_overlap a cheat w eps (numbered circuits i) (nth i Vs (fun _ psi => psi)) m a1 w1 ps CS ltac:(rewrite AN; exact N1) EP ltac:(rewrite AN; exact AV) ltac:(rewrite AN; exact KV) ltac:(rewrite AN; exact RB) RS PL) as T. rewrite AN in T. exact T.
Qed.
Lemma noisy_succeeds a w a1 w1 : can_start a cheat w -> a_numb a = n -> set_register_to_zero a cheat w = Ok (a1, w1) -> placed ps (a_register a1) w1 ->
  succeeds (step a) w (fun d => chance a1 w1 (index d) d).
Proof.
  intros CS AN RS PL d o. rewrite (step_index a w d o CS AN). apply (chance_succeeds a w a1 w1 (index d) CS AN RS PL d o).
Qed.
Lemma noisy_mean a w a1 w1 : can_start a cheat w -> a_numb a = n -> set_register_to_zero a cheat w = Ok (a1, w1) -> placed ps (a_register a1) w1 ->
  noisy_expected ranges q (fun d => chance a1 w1 (index d) d) = weighted q (fun i => expected ranges (chance a1 w1 i)).
Proof.
  intros CS AN RS PL. destruct (reset_run a cheat w CS) as (a1' & w1' & RS0 & AZ & AN1 & _). rewrite RS in RS0. injection RS0 as <- <-. destruct AZ as (PE & ND & LN & KZ).
  unfold noisy_expected. rewrite <- expected_weighted. apply expected_len. intros d Ld. apply weighted_ext. intros i Hi. unfold index. rewrite app_nth2, Ld, Nat.sub_diag by lia. cbn [nth]. rewrite Nat.mod_small by (rewrite <- LC; exact Hi). unfold chance, state_after.
  rewrite (after_prefix (a_register a1) (w_qubits w1) n); [reflexivity|congruence|]. rewrite Ld. unfold ranges. apply (ranges_length (a_register a1) n); congruence.
Qed.
Lemma chance_close a w a1 w1 i : can_start a cheat w -> w_prob w <> 0 -> a_numb a = n -> set_register_to_zero a cheat w = Ok (a1, w1) -> placed ps (a_register a1) w1 ->
  Rabs (expected ranges (chance a1 w1 i) - average_fidelity n (nth i As identity)) <= eps ^ 2 /\
  ((1 <= m)%Z -> expected ranges (chance a1 w1 i) = average_fidelity n (nth i As identity) + (/ 2 ^ n) ^ Z.to_nat (2 * m) * (hadamard_fidelity n (nth i As identity) - average_fidelity n (nth i As identity))).
Proof.
  intros CS W0 AN RS PL. pose proof (chance_succeeds a w a1 w1 i CS AN RS PL) as S. destruct (numbered_acts n circuits Vs i CV) as [AV KV]. pose proof (numbered_matrix n ps Vs As i VA) as MA.
  destruct (reset_run a cheat w CS) as (a1' & w1' & RS0 & AZ & AN1 & _). rewrite RS in RS0. injection RS0 as <- <-. destruct AZ as (PE & ND & LN & KZ).
  destruct (C144_expected a cheat w eps (numbered circuits i) (nth i Vs (fun _ psi => psi)) m CS) as (p & ps' & a1' & w1' & RS' & PL' & SW & HA); [rewrite AN; exact N1|exact EP|rewrite AN; exact AV|rewrite AN; exact KV|rewrite AN; exact RB|].
  rewrite RS in RS'. injection RS' as <- <-. assert (ps' = ps) as -> by (apply (placed_unique _ _ _ _ (Permutation_NoDup PE ND) PL' PL)).
  rewrite AN in HA. specialize (HA _ MA). cbn zeta in HA. fold ranges in HA. rewrite (expected_ext ranges (chance a1 w1 i) p (succeeds_unique _ _ _ _ W0 S SW)). exact HA.
Qed.
Hypothesis M1 : (1 <= m)%Z.
Hypothesis D : distribution q.
Hypothesis LQ : length q = length As.
Let mu := weighted q (fun i => average_fidelity n (nth i As identity) + (/ 2 ^ n) ^ Z.to_nat (2 * m) * (hadamard_fidelity n (nth i As identity) - average_fidelity n (nth i As identity))).
Lemma noisy_step a w : ready n cheat ps a w -> exists p, succeeds (step a) w p /\ (forall d, p d <> 1 -> exists o a' w', step a (with_luck w d o) = Ok (a', w', 0)) /\
  (forall d o a' w' r, step a (with_luck w d o) = Ok (a', w', r) -> ready n cheat ps a' w') /\ noisy_expected ranges q p = mu.
Proof.
  intros R. pose proof R as (RD & CS & AN & (a1 & w1 & RS & PL) & W0). exists (fun d => chance a1 w1 (index d) d). split; [apply (noisy_succeeds a w a1 w1 CS AN RS PL)|].
  assert (EACH : forall i, exists p, succeeds (estimate_average_fidelity a (Two (numbered circuits i)) 1 eps cheat) w p /\ (forall d, p d <> 1 -> exists o a' w', estimate_average_fidelity a (Two (numbered circuits i)) 1 eps cheat (with_luck w d o) = Ok (a', w', 0)) /\
    (forall d o a' w' r, estimate_average_fidelity a (Two (numbered circuits i)) 1 eps cheat (with_luck w d o) = Ok (a', w', r) -> ready n cheat ps a' w' /\ (r = 1 \/ r = 0))).
  { intros i. destruct (numbered_acts n circuits Vs i CV) as [AV KV]. destruct (step_law n eps cheat (numbered circuits i) (nth i Vs (fun _ psi => psi)) m ps (nth i As identity) N1 EP AV KV RB M1 (numbered_matrix n ps Vs As i VA) a w R) as (p & S & F & X & _). exists p. auto. }
  split; [|split].
  - intros d P. destruct (EACH (index d)) as (p & S & F & _). rewrite (succeeds_unique _ _ _ _ W0 (chance_succeeds a w a1 w1 (index d) CS AN RS PL) S d) in P. destruct (F d P) as (o & a' & w' & E). exists o, a', w'. rewrite (step_index a w d o CS AN). exact E.
  - intros d o a' w' r E. rewrite (step_index a w d o CS AN) in E. destruct (EACH (index d)) as (p & _ & _ & X). apply (X d o a' w' r E).
  - rewrite (noisy_mean a w a1 w1 CS AN RS PL). apply weighted_ext. intros i _. apply (chance_close a w a1 w1 i CS W0 AN RS PL), M1.
Qed.
Lemma noisy_law N a w f v : ready n cheat ps a w -> (has_mean step (noisy_expected ranges q) N a w f v <-> v = coins N mu f).
Proof.
  apply (coin_law step (noisy_expected ranges q) (ready n cheat ps) mu).
  - intros f1 f2 E. unfold noisy_expected. apply expected_ext. intros d. apply weighted_ext. intros i _. apply E.
  - intros p c b. unfold noisy_expected. rewrite <- expected_affine by apply ranges_positive. apply expected_ext. intros d. rewrite weighted_affine, (proj2 D). ring.
  - intros a0 w0 R. apply R.
  - exact noisy_step.
Qed.
End Noise.

(** ** C148 *)
(** A circuit that runs circuit i with probability q[i]: the expected probability that a trial counts is within epsilon^2 of
    the average fidelity of the channel this is. *)
Theorem C148_expected a cheat w epsilon circuits Vs q m : can_start a cheat w -> w_prob w <> 0 -> (1 <= a_numb a)%nat -> 0 < epsilon ->
  Forall2 (fun g V => acts_as (a_numb a) g V /\ keeps_norm (a_numb a) V) circuits Vs -> distribution q -> length q = length circuits ->
  IZR m - 1 < log2 (1 / epsilon) / INR (a_numb a) <= IZR m ->
  exists p ps a1 w1, set_register_to_zero a cheat w = Ok (a1, w1) /\ placed ps (a_register a1) w1 /\ succeeds_with a (Two (noisy circuits)) epsilon cheat w p /\
    forall As, Forall2 (fun (V : list nat -> @state CC -> @state CC) A => is_matrix (a_numb a) (V ps) A) Vs As ->
      Rabs (noisy_expected (design_ranges (a_numb a) (Z.to_nat (2 * m + 1))) q p - noisy_fidelity (a_numb a) q As) <= epsilon ^ 2.
Proof.
  intros CS W0 N1 EP CV D LQ RB. destruct (reset_run a cheat w CS) as (a1 & w1 & RS & AZ & AN1 & AR1 & P1 & O1 & D1 & CH). pose proof AZ as (PE & ND & LN & KZ).
  set (ps := map (qpos (w_qubits w1)) (a_register a1)). assert (PL : placed ps (a_register a1) w1) by (apply placed_exists; [intros x Hx; apply (Permutation_in _ PE), Hx|reflexivity]).
  exists (fun d => chance (a_numb a) Vs m ps a1 w1 (nth (length (design_ranges (a_numb a) (Z.to_nat (2 * m + 1)))) d 0 mod length circuits)%nat d), ps, a1, w1. split; [exact RS|]. split; [exact PL|].
  split; [apply (noisy_succeeds (a_numb a) epsilon cheat circuits Vs m ps N1 EP RB CV a w a1 w1 CS eq_refl RS PL)|]. intros As VA.
  rewrite (noisy_mean (a_numb a) cheat circuits Vs q m ps N1 LQ a w a1 w1 CS eq_refl RS PL). assert (LA : length q = length As) by (rewrite LQ, (both_length _ _ _ CV), (both_length _ _ _ VA); reflexivity). rewrite (noisy_mixture _ _ _ D LA).
  apply weighted_close; [exact D|]. intros i _. apply (chance_close (a_numb a) epsilon cheat circuits Vs As m ps N1 EP RB CV VA a w a1 w1 i CS W0 eq_refl RS PL).
Qed.
Print Assumptions C148_expected.
(** On a simulator, for epsilon < 1, the trials are independent coin flips; with N trials the mean squared error of the
    estimate is at most 1/(4N) + epsilon^4, and it is off by epsilon^2 + delta or more with a probability of at most
    1/(4 N delta^2). *)
Theorem C148_error a cheat w epsilon circuits Vs q N : a_real a = false -> can_start a cheat w -> w_prob w <> 0 -> (1 <= a_numb a)%nat -> 0 < epsilon < 1 ->
  Forall2 (fun g V => acts_as (a_numb a) g V /\ keeps_norm (a_numb a) V) circuits Vs -> distribution q -> length q = length circuits -> (1 <= N)%nat ->
  exists ps a1 w1 rounds, set_register_to_zero a cheat w = Ok (a1, w1) /\ placed ps (a_register a1) w1 /\ numb_times (a_numb a) epsilon = Ok (Z.of_nat rounds) /\
    forall As, Forall2 (fun (V : list nat -> @state CC -> @state CC) A => is_matrix (a_numb a) (V ps) A) Vs As ->
      let mean f v := has_mean (fun a => estimate_average_fidelity a (Two (noisy circuits)) 1 epsilon cheat) (noisy_expected (design_ranges (a_numb a) rounds) q) N a w f v in
      let F := noisy_fidelity (a_numb a) q As in
      exists mu, 0 <= mu <= 1 /\ Rabs (mu - F) <= epsilon ^ 2 /\ (forall f v, mean f v <-> v = coins N mu f) /\
      mean (fun l => sum_of l / INR N) mu /\
      (exists e, mean (fun l => (sum_of l / INR N - F) ^ 2) e /\ e <= 1 / (4 * INR N) + epsilon ^ 4) /\
      forall delta, 0 < delta -> exists r, mean (fun l => if Rlt_dec (Rabs (sum_of l / INR N - F)) (epsilon ^ 2 + delta) then 0 else 1) r /\ r <= 1 / (4 * INR N * delta ^ 2).
Proof.
  intros RD CS W0 N1 EP CV D LQ NN. destruct (reset_run a cheat w CS) as (a1 & w1 & RS & AZ & AN1 & AR1 & P1 & O1 & D1 & CH). pose proof AZ as (PE & ND & LN & KZ).
  set (ps := map (qpos (w_qubits w1)) (a_register a1)). assert (PL : placed ps (a_register a1) w1) by (apply placed_exists; [intros y Hy; apply (Permutation_in _ PE), Hy|reflexivity]).
  set (x := log2 (1 / epsilon) / INR (a_numb a)). set (m := (- Int_part (- x))%Z). assert (RB : IZR m - 1 < x <= IZR m) by (unfold m; rewrite opp_IZR; pose proof (base_Int_part (- x)); lra).
  assert (X0 : 0 < x). { unfold x. apply Rdiv_lt_0_compat; [|apply lt_0_INR; lia]. unfold log2. apply Rdiv_lt_0_compat; rewrite <- ln_1; apply ln_increasing; try lra. apply (Rmult_lt_reg_r epsilon); [lra|]. replace (1 / epsilon * epsilon) with 1 by (field; lra). lra. }
  assert (M1 : (1 <= m)%Z). { assert (L : IZR 0 < IZR m) by lra. apply lt_IZR in L. lia. }
  exists ps, a1, w1, (Z.to_nat (2 * m + 1)). split; [exact RS|]. split; [exact PL|]. split. { rewrite Z2Nat.id by lia. apply round_count; [exact N1|lra|exact RB]. }
  intros As VA. cbn zeta. assert (LA : length q = length As) by (rewrite LQ, (both_length _ _ _ CV), (both_length _ _ _ VA); reflexivity).
  set (part := fun i => average_fidelity (a_numb a) (nth i As identity) + (/ 2 ^ a_numb a) ^ Z.to_nat (2 * m) * (hadamard_fidelity (a_numb a) (nth i As identity) - average_fidelity (a_numb a) (nth i As identity))).
  assert (MU : 0 <= weighted q part <= 1).
  { apply weighted_between; [exact D|]. intros i _. destruct (numbered_acts (a_numb a) circuits Vs i CV) as [_ KV]. apply (mixture_bounds (a_register a1) (w_qubits w1) (a_numb a) _ (nth i Vs (fun _ psi => psi) ps)); [congruence|exact PE|exact ND|apply numbered_matrix, VA|intros psi; apply KV]. }
  assert (CL : Rabs (weighted q part - noisy_fidelity (a_numb a) q As) <= epsilon ^ 2).
  { rewrite (noisy_mixture _ _ _ D LA). apply weighted_close; [exact D|]. intros i _. destruct (chance_close (a_numb a) epsilon cheat circuits Vs As m ps N1 (proj1 EP) RB CV VA a w a1 w1 i CS W0 eq_refl RS PL) as [C E]. rewrite (E M1) in C. exact C. }
  exists (weighted q part). split; [exact MU|]. split; [exact CL|].
  assert (R : ready (a_numb a) cheat ps a w) by (split; [exact RD|]; split; [exact CS|]; split; [reflexivity|]; split; [exists a1, w1; split; assumption|exact W0]).
  assert (LAW : forall f v, has_mean (fun a => estimate_average_fidelity a (Two (noisy circuits)) 1 epsilon cheat) (noisy_expected (design_ranges (a_numb a) (Z.to_nat (2 * m + 1))) q) N a w f v <-> v = coins N (weighted q part) f)
    by (intros f v; apply (noisy_law (a_numb a) epsilon cheat circuits Vs As q m ps N1 (proj1 EP) RB CV VA LQ M1 D N a w f v R)).
  split; [exact LAW|]. destruct (coin_errors _ _ _ N NN MU CL) as (H1 & H2 & H3). split; [|split].
  - apply LAW. symmetry. exact H1.
  - eexists. split; [apply LAW; reflexivity|]. replace (epsilon ^ 4) with ((epsilon ^ 2) ^ 2) by ring. exact H2.
  - intros delta DD. eexists. split; [apply LAW; reflexivity|]. apply (H3 delta DD).
Qed.
Print Assumptions C148_error.

(** The example of the README: bit flips with probability 1/10 on one qubit, epsilon = 0.001, 500 trials.  The average
    fidelity is 14/15; the mean squared error of the estimate is at most 1/2000 + 10^-12. *)
Definition xchan (register : list nat) (w : world) : res world :=
  match register with q :: _ => do p <- position q (w_qubits w); Ok (set_wave w (apply_gate hh ii [] GX p (w_wave w))) | [] => Ok w end.
Definition idle (register : list nat) (w : world) : res world := Ok w.
Definition xact (ps : list nat) (psi : @state CC) : @state CC := match ps with [O] => fun y => psi [negb (getb y 0)] | _ => psi end.
Definition xmatrix (y x : list bool) : CC := if Bool.eqb (getb y 0) (getb x 0) then s0 else s1.
Lemma xact_norm : keeps_norm 1 xact.
Proof. intros ps psi. destruct ps as [|[|p] [|p' ps]]; try reflexivity. unfold CircuitSpec.inner, xact. cbn [isum getb nth negb]. ring. Qed.
Lemma xchan_acts : acts_as 1 xchan xact.
Proof.
  split.
  - intros ps psi phi E. destruct ps as [|[|p] [|p' ps]]; try exact E. intros y Hy. cbn [xact]. apply E. reflexivity.
  - intros ps register w Q ND PE PL. unfold qubits in Q. destruct (w_qubits w) as [|x [|]] eqn:EQ; try discriminate. apply Permutation_sym, Permutation_length_1_inv in PE. subst register.
    assert (ps = [0%nat]) as ->. { apply (placed_unique ps [0%nat] [x] w); [rewrite EQ; constructor; [intros []|constructor]|exact PL|]. unfold placed. rewrite EQ. repeat constructor. }
    unfold xchan. rewrite EQ. cbn [position]. rewrite Nat.eqb_refl. cbn [bind]. eexists. split; [reflexivity|]. split; [repeat split|]. intros y Hy. cbn [set_wave w_wave xact]. destruct y as [|b [|]]; try discriminate.
    unfold apply_gate. destruct b; cbn [forallb getb nth setb negb gate_entry map seq length Nat.eqb]; ring.
Qed.
Lemma idle_acts n : acts_as n idle (fun _ psi => psi) /\ keeps_norm n (fun _ psi => psi).
Proof. split; [split; [intros ps psi phi E; exact E|intros ps register w _ _ _ _; exists w; repeat split; intros y _; reflexivity]|intros ps psi; reflexivity]. Qed.
Lemma x_is_matrix : is_matrix 1 (xact [0%nat]) xmatrix.
Proof. intros psi y Hy. destruct y as [|b [|]]; try discriminate. unfold xact, xmatrix. cbn [isum getb nth]. destruct b; cbn [Bool.eqb negb]; ring. Qed.
Lemma id_is_matrix n : is_matrix n (fun psi => psi) identity.
Proof. intros psi y Ly. unfold identity. symmetry. apply isum_ket2, Ly. Qed.
Lemma bit_flip_fidelity p : noisy_fidelity 1 [p; 1 - p] [xmatrix; identity] = (2 + (1 - p) * 4) / 6.
Proof.
  unfold noisy_fidelity. cbn [weighted nth isum].
  assert (T1 : sadd (xmatrix [false] [false]) (xmatrix [true] [true]) = (s0 : CC)) by (unfold xmatrix; cbn [getb nth Bool.eqb]; ring). assert (T2 : sadd (identity [false] [false]) (identity [true] [true]) = rc 2).
  { change (identity [false] [false]) with (s1 : CC). change (identity [true] [true]) with (s1 : CC). apply CC_eq; cbn; ring. }
  rewrite T1, T2, (proj2 (Cmod_0 s0) eq_refl), Cmod_rc, Rabs_right by lra. cbn [pow]. field.
Qed.
Example C148_case :
  let w := one_world [] [] in let a := adaptor_init [0%nat] false in
  noisy_fidelity 1 [1 / 10; 9 / 10] [xmatrix; identity] = 14 / 15 /\
  exists rounds e, numb_times 1 (1 / 1000) = Ok (Z.of_nat rounds) /\
    has_mean (fun a => estimate_average_fidelity a (Two (noisy [xchan; idle])) 1 (1 / 1000) false) (noisy_expected (design_ranges 1 rounds) [1 / 10; 9 / 10]) 500 a w (fun l => (sum_of l / INR 500 - 14 / 15) ^ 2) e /\
    e <= 1 / 2000 + 1 / 1000000000000.
Proof.
  set (w := one_world [] []). set (a := adaptor_init [0%nat] false). cbn zeta.
  assert (FI : noisy_fidelity 1 [1 / 10; 9 / 10] [xmatrix; identity] = 14 / 15). { replace (9 / 10) with (1 - 1 / 10) by field. rewrite bit_flip_fidelity. field. }
  split; [exact FI|]. assert (CS : can_start a false w). { destruct (one_zero false [] []) as (_ & _ & _ & K). exists [false]. exact K. }
  destruct (C148_error a false w (1 / 1000) [xchan; idle] [xact; fun _ psi => psi] [1 / 10; 9 / 10] 500 eq_refl CS ltac:(cbn; lra) (le_n 1) ltac:(lra)) as (ps & a1 & w1 & rounds & RS & PL & NT & H).
  - constructor; [split; [exact xchan_acts|exact xact_norm]|]. constructor; [apply idle_acts|constructor].
  - split; [repeat constructor; lra|unfold sum_of; cbn [fold_right]; field].
  - reflexivity.
  - lia.
  - assert (ps = [0%nat]) as ->. { pose proof (reset_new a w a1 w1 eq_refl RS) as P0. destruct (reset_run a false w CS) as (a2 & w2 & RS2 & (PE & ND & _) & _). rewrite RS in RS2. injection RS2 as <- <-. apply (placed_unique _ _ _ _ (Permutation_NoDup PE ND) PL P0). }
    destruct (H [xmatrix; identity]) as (mu & _ & _ & _ & _ & (e & E & EB) & _); [constructor; [exact x_is_matrix|constructor; [apply id_is_matrix|constructor]]|].
    change (a_numb a) with 1%nat in *. rewrite FI in E. exists rounds, e. split; [exact NT|]. split; [exact E|]. assert (I : INR 500 = 500) by (rewrite INR_IZR_INZ; reflexivity). rewrite I in EB. lra.
Qed.
Print Assumptions C148_case.
