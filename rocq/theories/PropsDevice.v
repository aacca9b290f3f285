(** Properties of the device adaptor (PyQCodes/device_adaptor.py) and of QDeviceChannel
    (PyQCodes/find_codes.py). *)
From Verif Require Import Py Scalar PauliModel PauliSpec EncoderProofs CircuitModel CircuitSpec CircuitProofs ChannelModel OptimModel ChoiProofs2 DeviceModel DeviceSpec DeviceProofs DeviceProofs2 DeviceProofs3 DeviceProofs4 DeviceProofs5 DeviceProofs6.
From Coq Require Import Reals Lra Permutation.
From Coq Require String.
Import String.StringSyntax.
Delimit Scope string_scope with string.
Open Scope nat_scope.
Add Ring CCring23 : (s_rt CC).

(** ** C61 *)
(** the register may be part of the engine's qubits; every random choice is covered *)
Theorem C61_inverse register real_device epsilon w w' phases : registered register w ->
  approximate_unitary_two_design (adaptor_init register real_device) epsilon w = Ok (w', phases) ->
  same_engine w w' /\
  exists w'', inverse_of_unitary_two_design (adaptor_init register real_device) phases w' = Ok w'' /\ same_engine w w'' /\ eqs (qubits w) (w_wave w'') (w_wave w).
Proof.
  intros (ND & NQ & I) H. unfold approximate_unitary_two_design in H. cbn [adaptor_init a_numb a_register] in H. destruct (numb_times (length register) epsilon) as [m|]; [|discriminate]. cbn [bind] in H.
  destruct (rounds_run register (w_qubits w) (length register) eq_refl ND I (Z.to_nat m) (w_draws w)) as (Cf & Cb & d' & used & _ & _ & _ & CA & RF & RB). rewrite (RF w eq_refl eq_refl) in H. cbn [bind] in H. injection H as <- <-.
  split; [repeat split|]. rewrite (RB _ (set_draws (set_wave w (gacts (w_qubits w) Cf (w_wave w))) d')) by reflexivity. eexists. split; [reflexivity|]. split; [repeat split|]. apply CA.
Qed.
Theorem C61_returns register real_device epsilon w : registered register w -> register <> [] -> (0 < epsilon)%R ->
  exists w' phases, approximate_unitary_two_design (adaptor_init register real_device) epsilon w = Ok (w', phases).
Proof.
  intros (ND & NQ & I) NE EP. destruct (numb_times_ok (length register) epsilon) as [m M]; [destruct register; [contradiction|cbn; lia]|exact EP|].
  destruct (rounds_run register (w_qubits w) (length register) eq_refl ND I (Z.to_nat m) (w_draws w)) as (Cf & Cb & d' & used & _ & _ & _ & CA & RF & RB). unfold approximate_unitary_two_design. cbn [adaptor_init a_numb a_register]. rewrite M. cbn [bind]. rewrite (RF w eq_refl eq_refl). do 2 eexists. reflexivity.
Qed.
(** with the same random choices the circuit is one unitary, whatever the state: inner
    products are kept *)
Theorem C61_unitary register real_device epsilon w w' phases psi : registered register w ->
  approximate_unitary_two_design (adaptor_init register real_device) epsilon w = Ok (w', phases) ->
  exists v', approximate_unitary_two_design (adaptor_init register real_device) epsilon (set_wave w psi) = Ok (v', phases) /\
    inner (qubits w) (w_wave w') (w_wave v') = inner (qubits w) (w_wave w) psi.
Proof.
  intros (ND & NQ & I) H. unfold approximate_unitary_two_design in *. cbn [adaptor_init a_numb a_register] in *. destruct (numb_times (length register) epsilon) as [m|]; [|discriminate]. cbn [bind] in *.
  destruct (rounds_run register (w_qubits w) (length register) eq_refl ND I (Z.to_nat m) (w_draws w)) as (Cf & Cb & d' & used & _ & OF & _ & CA & RF & RB). rewrite (RF w eq_refl eq_refl) in H. cbn [bind] in H. injection H as <- <-.
  rewrite (RF (set_wave w psi) eq_refl eq_refl). cbn [bind]. eexists. split; [reflexivity|]. cbn [set_draws set_wave w_wave]. apply gacts_inner, OF.
Qed.
(** how many rounds: 2 * ceiling(log2(1/epsilon)/n) + 1, none when that is negative, with
    one phase for each qubit and each ordered pair of qubits *)
Theorem C61_phases register real_device epsilon w w' phases m : registered register w ->
  approximate_unitary_two_design (adaptor_init register real_device) epsilon w = Ok (w', phases) ->
  (IZR m - 1 < log2 (1 / epsilon) / INR (length register) <= IZR m)%R ->
  length phases = Z.to_nat (2 * m + 1) /\ Forall (design_phases (length register)) phases.
Proof.
  intros (ND & NQ & I) H B. unfold approximate_unitary_two_design, numb_times in H. cbn [adaptor_init a_numb a_register] in H. destruct (length register =? 0); [discriminate|]. destruct (Req_EM_T epsilon 0); [discriminate|]. destruct (Rltb epsilon 0); [discriminate|]. cbn [bind] in H.
  assert (E : ceiling (log2 (1 / epsilon) / INR (length register)) = m).
  { unfold ceiling. set (x := (log2 (1 / epsilon) / INR (length register))%R) in *. pose proof (base_Int_part (- x)) as [B1 B2]. assert (IZR (Int_part (- x)) <= - x)%R by lra. assert (- x - 1 < IZR (Int_part (- x)))%R by lra.
    assert (L1 : (IZR (- Int_part (- x)) < IZR (m + 1))%R) by (rewrite opp_IZR, plus_IZR; lra). assert (L2 : (IZR (m - 1) < IZR (- Int_part (- x)))%R) by (rewrite opp_IZR, minus_IZR; lra). apply lt_IZR in L1, L2. lia. }
  rewrite E in H. destruct (design_rounds register (length register) (Z.to_nat (2 * m + 1)) w) as [[w2 used]|] eqn:ER; [|discriminate]. cbn [bind] in H. injection H as _ <-.
  rewrite (rounds_rows register (length register) eq_refl _ _ _ _ ER). destruct (rows_phases (length register) (Z.to_nat (2 * m + 1)) (w_draws w)) as [R1 R2]. rewrite rev_length. split; [exact R1|]. apply Forall_rev, R2.
Qed.
(** every such choice of phases can be drawn *)
Theorem C61_every_choice register real_device epsilon w phases m : registered register w -> register <> [] -> (0 < epsilon)%R ->
  (IZR m - 1 < log2 (1 / epsilon) / INR (length register) <= IZR m)%R -> length phases = Z.to_nat (2 * m + 1) -> Forall (design_phases (length register)) phases ->
  exists draws, forall later, exists w', approximate_unitary_two_design (adaptor_init register real_device) epsilon (set_draws w (draws ++ later)) = Ok (w', phases).
Proof.
  intros RG NE EP B LP FP. destruct (rows_any (length register) (rev phases)) as (ds & E); [apply Forall_rev, FP|]. exists ds. intros later.
  assert (RG' : registered register (set_draws w (ds ++ later))) by exact RG.
  destruct (C61_returns register real_device epsilon _ RG' NE EP) as (w' & ph & H). exists w'. rewrite H. f_equal. f_equal.
  pose proof (proj1 (C61_phases _ _ _ _ _ _ m RG' H B)) as LH.
  unfold approximate_unitary_two_design in H. apply bind_ok in H. destruct H as (k & _ & H). apply bind_ok in H. destruct H as ([w2 used] & H & [= <- <-]).
  cbn [adaptor_init a_numb a_register] in H. pose proof (rounds_rows register (length register) eq_refl _ _ _ _ H) as RR. pose proof (rows_phases (length register) (Z.to_nat k) (w_draws (set_draws w (ds ++ later)))) as [RL _]. rewrite <- RR in RL. rewrite rev_length in LH.
  replace (Z.to_nat k) with (length (rev phases)) in RR by (rewrite rev_length; lia). cbn [w_draws set_draws] in RR. rewrite E in RR. rewrite RR. apply rev_involutive.
Qed.
(** epsilon must be positive *)
Theorem C61_bad_epsilon register real_device epsilon w : register <> [] -> (epsilon <= 0)%R ->
  approximate_unitary_two_design (adaptor_init register real_device) epsilon w = Err (if Req_EM_T epsilon 0 then ZeroDivisionError else ValueError).
Proof.
  intros NE EP. unfold approximate_unitary_two_design, numb_times. cbn [adaptor_init a_numb a_register]. destruct register as [|q r]; [contradiction|]. cbn [length Nat.eqb].
  destruct (Req_EM_T epsilon 0); [reflexivity|]. unfold Rltb. destruct (Rlt_dec epsilon 0); [reflexivity|lra].
Qed.
Print Assumptions C61_inverse.
Print Assumptions C61_returns.
Print Assumptions C61_unitary.
Print Assumptions C61_phases.
Print Assumptions C61_every_choice.
Print Assumptions C61_bad_epsilon.

(** ** C62 *)
Theorem C62_range a channel ntimes epsilon cheat w a' w' r : (1 <= ntimes)%Z ->
  estimate_average_fidelity a channel ntimes epsilon cheat w = Ok (a', w', r) -> exists j : nat, (Z.of_nat j <= ntimes)%Z /\ r = (INR j / IZR ntimes)%R.
Proof.
  intros N H. unfold estimate_average_fidelity in H. destruct (trials (Z.to_nat ntimes) a channel epsilon cheat w 0) as [[[a1 w1] z]|] eqn:E; [|discriminate]. cbn [bind] in H. destruct (Z.eqb_spec ntimes 0); [lia|]. injection H as <- <- <-. apply trials_le in E. exists z. split; [lia|reflexivity].
Qed.
Theorem C62_zero a channel epsilon cheat w : estimate_average_fidelity a channel 0 epsilon cheat w = Err ZeroDivisionError.
Proof. reflexivity. Qed.
(** a negative number of trials is not refused *)
Theorem C62_negative a channel ntimes epsilon cheat w : (ntimes < 0)%Z -> estimate_average_fidelity a channel ntimes epsilon cheat w = Ok (a, w, 0%R).
Proof.
  intros N. unfold estimate_average_fidelity. replace (Z.to_nat ntimes) with 0 by lia. cbn [trials bind]. destruct (Z.eqb_spec ntimes 0); [lia|]. cbn [INR]. unfold Rdiv. rewrite Rmult_0_l. reflexivity.
Qed.
(** the channel that does nothing *)
Theorem C62_identity a cheat w epsilon ntimes g : can_start a cheat w -> 1 <= a_numb a -> (0 < epsilon)%R -> (1 <= ntimes)%Z -> acts_as (a_numb a) g (fun _ psi => psi) ->
  exists a' w', estimate_average_fidelity a (Two g) ntimes epsilon cheat w = Ok (a', w', 1%R) /\ w_prob w' = w_prob w.
Proof.
  intros CS N1 EP NT AV. destruct (trials_run (a_numb a) epsilon cheat g (fun _ psi => psi) N1 EP AV ltac:(intros ps psi; reflexivity) (Z.to_nat ntimes) a w 0 CS eq_refl) as (a1 & w1 & z1 & T & _ & _ & _ & _ & H); [right; intros; apply eqs_refl|].
  destruct H as [-> P]; [intros; apply eqs_refl|]. exists a1, w1. unfold estimate_average_fidelity. rewrite T. cbn [bind]. destruct (Z.eqb_spec ntimes 0); [lia|]. split; [|exact P]. f_equal. f_equal. cbn [Nat.add]. rewrite INR_IZR_INZ, Z2Nat.id by lia. apply Rinv_r. apply IZR_neq. lia.
Qed.
(** on a simulator an estimate of a channel that keeps norms always returns *)
Theorem C62_returns a cheat w epsilon ntimes g V : can_start a cheat w -> a_real a = false -> 1 <= a_numb a -> (0 < epsilon)%R -> ntimes <> 0%Z -> acts_as (a_numb a) g V -> keeps_norm (a_numb a) V ->
  exists a' w' r, estimate_average_fidelity a (Two g) ntimes epsilon cheat w = Ok (a', w', r).
Proof.
  intros CS RD N1 EP NT AV KV. destruct (trials_run (a_numb a) epsilon cheat g V N1 EP AV KV (Z.to_nat ntimes) a w 0 CS eq_refl (or_introl RD)) as (a1 & w1 & z1 & T & _). unfold estimate_average_fidelity. rewrite T. cbn [bind]. destruct (Z.eqb_spec ntimes 0); [lia|]. eauto.
Qed.
Print Assumptions C62_range.
Print Assumptions C62_zero.
Print Assumptions C62_negative.
Print Assumptions C62_identity.
Print Assumptions C62_returns.

(** ** C63 *)
Theorem C63_simulator_partial a cheat w : a_real a = false -> can_start a cheat w ->
  exists a1 w1, set_register_to_zero a cheat w = Ok (a1, w1) /\ all_zero a1 w1 /\ a_numb a1 = a_numb a /\ w_prob w1 = w_prob w.
Proof. intros _ CS. destruct (reset_run a cheat w CS) as (a1 & w1 & RS & AZ & AN & AR & P1 & O1 & D1 & _). exists a1, w1. auto. Qed.
(** after any number of trials the next one starts from |0...0> *)
Theorem C63_each_trial_partial a cheat w epsilon ntimes g V a' w' r : a_real a = false -> can_start a cheat w -> 1 <= a_numb a -> (0 < epsilon)%R -> acts_as (a_numb a) g V -> keeps_norm (a_numb a) V ->
  estimate_average_fidelity a (Two g) ntimes epsilon cheat w = Ok (a', w', r) ->
  exists a1 w1, set_register_to_zero a' cheat w' = Ok (a1, w1) /\ all_zero a1 w1 /\ a_numb a1 = a_numb a.
Proof.
  intros RD CS N1 EP AV KV H. destruct (trials_run (a_numb a) epsilon cheat g V N1 EP AV KV (Z.to_nat ntimes) a w 0 CS eq_refl (or_introl RD)) as (a1 & w1 & z1 & T & CS1 & AN & _). unfold estimate_average_fidelity in H. rewrite T in H. cbn [bind] in H. destruct (ntimes =? 0)%Z; [discriminate|]. injection H as <- <- _.
  destruct (reset_run a1 cheat w1 CS1) as (a2 & w2 & RS & AZ & AN2 & _). exists a2, w2. split; [exact RS|]. split; [exact AZ|congruence].
Qed.
(** a register in superposition cannot be reset without cheat *)
Theorem C63_superposition_partial a w x y : a_real a = false -> length x = qubits w -> length y = qubits w -> x <> y -> w_wave w x <> s0 -> w_wave w y <> s0 ->
  set_register_to_zero a false w = Err RuntimeError.
Proof. intros RD LX LY N NX NY. unfold set_register_to_zero. rewrite RD, (not_classical w x y LX LY N NX NY). reflexivity. Qed.
(** on a real device nothing is done *)
Theorem C63_real_partial a cheat w : a_real a = true -> set_register_to_zero a cheat w = Ok (a, w).
Proof. intros H. unfold set_register_to_zero. rewrite H. reflexivity. Qed.
(** the same for a device as the constructor makes it: only real_device=True lets a register in superposition pass *)
Theorem C63_constructed_partial register real_device w x y : length x = qubits w -> length y = qubits w -> x <> y -> w_wave w x <> s0 -> w_wave w y <> s0 ->
  set_register_to_zero (adaptor_init register real_device) false w = (if real_device then Ok (adaptor_init register real_device, w) else Err RuntimeError).
Proof.
  intros Lx Ly N X Y. destruct real_device; [apply C63_real_partial; reflexivity|].
  apply (C63_superposition_partial (adaptor_init register false) w x y); auto.
Qed.
Print Assumptions C63_constructed_partial.
Print Assumptions C63_simulator_partial.
Print Assumptions C63_each_trial_partial.
Print Assumptions C63_superposition_partial.
Print Assumptions C63_real_partial.

(** ** C75 *)
(** one trial: with u the state the design makes from |0...0>, it counts with probability
    |<u|V u>|^2 *)
Theorem C75_trial a cheat w epsilon g V : can_start a cheat w -> 1 <= a_numb a -> (0 < epsilon)%R -> acts_as (a_numb a) g V -> keeps_norm (a_numb a) V ->
  exists a1 w1 w2 phases ps w' r, set_register_to_zero a cheat w = Ok (a1, w1) /\ all_zero a1 w1 /\ placed ps (a_register a1) w1 /\
    approximate_unitary_two_design a1 epsilon w1 = Ok (w2, phases) /\
    let overlap := inner (a_numb a) (w_wave w2) (V ps (w_wave w2)) in
    estimate_average_fidelity a (Two g) 1 epsilon cheat w = Ok (a1, w', r) /\ (r = 0%R \/ r = 1%R) /\
    (r = 1%R -> w_prob w' = (w_prob w * Cmod overlap ^ 2)%R) /\
    (overlap <> s0 -> (forall i, nth i (w_outcomes w) false = false) -> r = 1%R).
Proof.
  intros CS N1 EP AV KV. destruct (trial_run a cheat w epsilon g V CS N1 EP AV KV) as (a1 & w1 & w2 & phases & ps & w5 & z & x & RS & AZ & AN1 & AR & PL & E2 & TR & Q5 & B1 & B2 & _).
  exists a1, w1, w2, phases, ps, w5, (if z then 1%R else 0%R). split; [exact RS|]. split; [exact AZ|]. split; [exact PL|]. split; [exact E2|]. cbn zeta. split; [|split; [destruct z; auto|split]].
  - unfold estimate_average_fidelity. change (Z.to_nat 1) with 1. cbn [trials]. rewrite TR. cbn [bind Z.eqb]. f_equal. f_equal. destruct z; cbn [INR]; field.
  - destruct z; [intros _; apply B1; reflexivity|lra].
  - intros NZ OZ. rewrite (B2 NZ OZ). reflexivity.
Qed.
(** the trials follow one another: m + k trials are m trials and then k more *)
Theorem C75_more a channel m k epsilon cheat w a' w' r : (1 <= m)%Z -> (1 <= k)%Z ->
  estimate_average_fidelity a channel (m + k) epsilon cheat w = Ok (a', w', r) <->
  exists a1 w1 r1 r2, estimate_average_fidelity a channel m epsilon cheat w = Ok (a1, w1, r1) /\ estimate_average_fidelity a1 channel k epsilon cheat w1 = Ok (a', w', r2) /\
    (r * IZR (m + k) = r1 * IZR m + r2 * IZR k)%R.
Proof.
  intros Hm Hk. unfold estimate_average_fidelity. rewrite Z2Nat.inj_add by lia. rewrite trials_app. rewrite !(proj2 (Z.eqb_neq _ 0)) by lia.
  assert (Pm : IZR m <> 0%R) by (apply IZR_neq; lia). assert (Pk : IZR k <> 0%R) by (apply IZR_neq; lia). assert (Ps : IZR (m + k) <> 0%R) by (apply IZR_neq; lia).
  destruct (trials (Z.to_nat m) a channel epsilon cheat w 0) as [[[a1 w1] z1]|]; cbn [bind]; [|split; [discriminate|intros (? & ? & ? & ? & ? & _); discriminate]].
  rewrite trials_count. destruct (trials (Z.to_nat k) a1 channel epsilon cheat w1 0) as [[[a2 w2] z2]|] eqn:E2; cbn [bind].
  - split.
    + intros H. injection H as <- <- <-. exists a1, w1, (INR z1 / IZR m)%R, (INR z2 / IZR k)%R. split; [reflexivity|]. rewrite E2. split; [reflexivity|]. rewrite plus_INR. field. repeat split; assumption.
    + intros (a3 & w3 & r1 & r2 & H1 & H2 & H3). injection H1 as <- <- <-. rewrite E2 in H2. cbn [bind] in H2. injection H2 as <- <- <-. f_equal. f_equal. rewrite plus_INR. apply (Rmult_eq_reg_r (IZR (m + k))); [|exact Ps]. rewrite H3. field. repeat split; assumption.
  - split; [discriminate|]. intros (a3 & w3 & r1 & r2 & H1 & H2 & _). injection H1 as <- <- <-. rewrite E2 in H2. discriminate.
Qed.
(** the estimate for a code is the estimate for decoder after channel after encoder *)
Theorem C75_error_code register real_device encoder circuit_chan decoder n V1 V2 V3 ntimes epsilon w :
  acts_as n encoder V1 -> acts_as n circuit_chan V2 -> acts_as n decoder V3 ->
  exists total, acts_as n total (fun ps psi => V3 ps (V2 ps (V1 ps psi))) /\
    estimate_average_fidelity_error_code (device_chan_init register (Two circuit_chan) real_device) (Two encoder) (Two decoder) ntimes epsilon w =
    estimate_average_fidelity (adaptor_init register real_device) (Two total) ntimes epsilon false w.
Proof.
  intros A1 A2 A3. exists (fun register w => do w1 <- encoder register w; do w2 <- circuit_chan register w1; decoder register w2). split; [|reflexivity].
  apply (acts_as_ext _ (fun register w => do w2 <- (do w1 <- encoder register w; circuit_chan register w1); decoder register w2)); [intros r v; destruct (encoder r v); reflexivity|]. exact (acts_as_comp n _ _ _ _ (acts_as_comp n _ _ _ _ A1 A2) A3).
Qed.
Theorem C75_channel register real_device circuit_chan ntimes epsilon cheat w :
  estimate_average_fidelity_channel (device_chan_init register circuit_chan real_device) ntimes epsilon cheat w = estimate_average_fidelity (adaptor_init register real_device) circuit_chan ntimes epsilon cheat w.
Proof. reflexivity. Qed.
Print Assumptions C75_channel.
Print Assumptions C75_trial.
Print Assumptions C75_more.
Print Assumptions C75_error_code.

(** ** C64 *)
(** a function of three arguments cannot be the channel *)
Lemma C64_three a f ntimes epsilon cheat w a' w' r : (0 <= ntimes)%Z -> estimate_average_fidelity a (Three f) ntimes epsilon cheat w <> Ok (a', w', r).
Proof.
  intros N H. unfold estimate_average_fidelity in H. destruct (Z.eqb_spec ntimes 0) as [->|NZ]; [discriminate|]. destruct (Z.to_nat ntimes) as [|m] eqn:E; [lia|]. cbn [trials] in H. unfold trial in H.
  destruct (set_register_to_zero a cheat w) as [[a1 w1]|]; [|discriminate]. cbn [bind] in H. destruct (approximate_unitary_two_design a1 epsilon w1) as [[w2 ph]|]; [|discriminate]. discriminate.
Qed.
(** the optimisation never returns, whatever scipy does: its objective always raises *)
Theorem C64_refuted diffev d encoder decoder ntimes epsilon numb_parameters bounds optimizer maxiter w a' w' o : dev_reports diffev -> (0 <= ntimes)%Z ->
  optimize_encoder_decoder_average_fidelity diffev d encoder decoder ntimes epsilon numb_parameters bounds optimizer maxiter w <> Ok (a', w', o).
Proof.
  intros DR N H. unfold optimize_encoder_decoder_average_fidelity in H. destruct (assert_ _); [|discriminate]. cbn [bind] in H. destruct (String.eqb optimizer "diffev"); [|discriminate].
  match type of H with bind (diffev ?f ?b ?m ?s) _ = _ => destruct (diffev f b m s) as [[[a1 w1] r1]|] eqn:E; [|discriminate]; destruct (DR f b m s a1 w1 r1 E) as (_ & points & a2 & w2 & F) end. cbn beta in F. apply C64_three in F; [exact F|exact N].
Qed.
(** what the objective raises in an ordinary state is TypeError, at every parameter *)
Theorem C64_type_error_partial a f w ntimes epsilon : can_start a false w -> 1 <= a_numb a -> (0 < epsilon)%R -> (1 <= ntimes)%Z ->
  estimate_average_fidelity a (Three f) ntimes epsilon false w = Err TypeError.
Proof.
  intros CS N1 EP NT. unfold estimate_average_fidelity. destruct (Z.to_nat ntimes) as [|m] eqn:E; [lia|]. cbn [trials]. unfold trial. destruct (reset_run a false w CS) as (a1 & w1 & RS & (PE & ND & LN & _) & AN & _). rewrite RS. cbn [bind].
  destruct (design_spec a1 epsilon w1 PE ND LN ltac:(lia) EP) as (Cf & Cb & d' & phases & _ & _ & _ & RF & _). rewrite RF. reflexivity.
Qed.
Theorem C64_optimizer_partial diffev d encoder decoder ntimes epsilon numb_parameters bounds optimizer maxiter w :
  (length bounds <> fst numb_parameters + snd numb_parameters -> optimize_encoder_decoder_average_fidelity diffev d encoder decoder ntimes epsilon numb_parameters bounds optimizer maxiter w = Err AssertionError) /\
  (length bounds = fst numb_parameters + snd numb_parameters -> optimizer <> "diffev"%string -> optimize_encoder_decoder_average_fidelity diffev d encoder decoder ntimes epsilon numb_parameters bounds optimizer maxiter w = Err ValueError).
Proof.
  unfold optimize_encoder_decoder_average_fidelity. split.
  - intros H. rewrite (proj2 (Nat.eqb_neq _ _) H). reflexivity.
  - intros H N. rewrite (proj2 (Nat.eqb_eq _ _) H). cbn [assert_ bind]. destruct (String.eqb_spec optimizer "diffev"); [contradiction|reflexivity].
Qed.
Print Assumptions C64_refuted.
Print Assumptions C64_type_error_partial.
Print Assumptions C64_optimizer_partial.

(** ** The Z gate as a channel, on one qubit *)
Definition zchan (register : list nat) (w : world) : res world := match register with q :: _ => execute w (PhaseGate [] PI q) | [] => Ok w end.
Definition zact (ps : list nat) (psi : @state CC) : @state CC := match ps with p :: _ => apply_phase [] PI p psi | [] => psi end.
Lemma zact_norm n : keeps_norm n zact.
Proof.
  intros [|p ps] psi; [reflexivity|]. apply isum_ext. intros y _. unfold zact, apply_phase. cbn [forallb andb]. destruct (getb y p); [|reflexivity]. rewrite sconj_mul. pose proof (cexp_unit PI) as U. transitivity (smul (smul (sconj (cexp PI)) (cexp PI)) (smul (sconj (psi y)) (psi y)) : CC); [ring|rewrite U; ring].
Qed.
Lemma placed_pos register w p ps q qs : NoDup (w_qubits w) -> register = q :: qs -> placed (p :: ps) register w -> position q (w_qubits w) = Ok p.
Proof.
  intros ND -> PL. inversion PL as [|? ? ? ? E]; subst. assert (I : In q (w_qubits w)) by (apply (nth_error_In _ _ E)). destruct (pos_ok _ _ I) as (P1 & P2 & P3). rewrite P1. f_equal.
  assert (LP : p < length (w_qubits w)) by (apply nth_error_Some; rewrite E; discriminate). apply (NoDup_nth (w_qubits w) 0); [exact ND|exact P2|exact LP|]. rewrite P3. symmetry. apply nth_error_nth, E.
Qed.
Lemma zchan_acts n : acts_as n zchan zact.
Proof.
  split.
  - intros [|p ps] psi phi E; [exact E|]. intros y Hy. unfold zact, apply_phase. rewrite (E y Hy). reflexivity.
  - intros ps register w Q ND PE PL. destruct register as [|q qs]; [inversion PL; subst; exists w; repeat split; intros y _; reflexivity|]. destruct ps as [|p ps]; [inversion PL|].
    cbn [zchan execute mapM bind]. rewrite (placed_pos _ _ _ _ _ _ (Permutation_NoDup PE ND) eq_refl PL). cbn [bind]. eexists. split; [reflexivity|]. split; [repeat split|]. intros y _. reflexivity.
Qed.
Lemma times_one : numb_times 1 1 = Ok 1%Z.
Proof.
  unfold numb_times. cbn [Nat.eqb]. destruct (Req_EM_T 1 0); [lra|]. unfold Rltb. destruct (Rlt_dec 1 0); [lra|]. f_equal. assert (E : (log2 (1 / 1) / INR 1 = 0)%R). { unfold log2. replace (1 / 1)%R with 1%R by field. rewrite ln_1. cbn. unfold Rdiv. ring. }
  rewrite E. unfold ceiling. rewrite Ropp_0. assert (I : Int_part 0 = 0%Z). { unfold Int_part. rewrite <- (tech_up 0 1); [reflexivity|cbn; lra|cbn; lra]. } rewrite I. reflexivity.
Qed.
Definition one_qubit (w : world) (q : nat) : Prop := w_qubits w = [q].
(** H Z H maps basis states to other ones *)
Lemma z_overlap real q w w2 phases ps x : one_qubit w q -> approximate_unitary_two_design (Adaptor [q] 1 real) 1 w = Ok (w2, phases) -> placed ps [q] w ->
  is_ket 1 x (w_wave w) -> inner 1 (w_wave w2) (zact ps (w_wave w2)) = s0.
Proof.
  intros Q H PL. unfold approximate_unitary_two_design in H. cbn [a_numb a_register] in H. rewrite times_one in H. cbn [bind] in H. change (Z.to_nat 1) with 1 in H. cbn [design_rounds] in H. set (d := w_draws w) in H. set (ph := nth (hd 0 d mod 3) phases3 0%R).
  assert (ER : design_round [q] 1 d = Ok ([PhaseGate [] ph q; Hadamard q], [ph], tl d)) by reflexivity. rewrite ER in H. clearbody ph. cbn [bind] in H. unfold execute_all in H. unfold one_qubit in Q. repeat (progress (cbn [bind foldM execute set_wave set_draws w_qubits position mapM design_rounds] in H; rewrite ?Q, ?Nat.eqb_refl in H)). injection H as <- _.
  intros (LX & z & Z & E). cbn [set_wave set_draws w_wave]. unfold placed in PL. rewrite Q in PL. destruct ps as [|p [|]]; [inversion PL| |inversion PL as [|? ? ? ? ? PL']; inversion PL']. assert (p = 0) as -> by (inversion PL as [|? ? ? ? E0]; subst; destruct p as [|[|]]; [reflexivity|discriminate|discriminate]).
  set (psi := w_wave w) in *. set (u := apply_gate hh ii [] GH 0 (apply_phase [] ph 0 psi)).
  assert (U0 : u [false] = smul hh (sadd (psi [false]) (smul (cexp ph) (psi [true])))) by (unfold u, apply_gate, apply_phase; cbn [forallb getb nth gate_entry setb length seq map Nat.eqb andb]; ring).
  assert (U1 : u [true] = smul hh (sadd (psi [false]) (sopp (smul (cexp ph) (psi [true]))))) by (unfold u, apply_gate, apply_phase; cbn [forallb getb nth gate_entry setb length seq map Nat.eqb andb]; ring).
  unfold inner. cbn [isum]. unfold zact, apply_phase. cbn [forallb getb nth andb]. rewrite U0, U1. assert (CP : cexp PI = sopp s1) by (unfold cexp; rewrite cos_PI, sin_PI; apply CC_eq; cbn; ring). rewrite CP, (E [false] eq_refl), (E [true] eq_refl).
  unfold sscale, ket. destruct x as [|[|] [|]]; try discriminate; destruct (list_eq_dec bool_dec [false] _) as [A|A], (list_eq_dec bool_dec [true] _) as [B|B]; try discriminate; try (exfalso; apply A; reflexivity); try (exfalso; apply B; reflexivity);
    repeat (progress rewrite ?sconj_mul, ?sconj_add, ?sconj_opp, ?sconj_0, ?sconj_1); rewrite hh_conj; ring.
Qed.
Lemma one_register a w : all_zero a w -> a_numb a = 1 -> exists q, a = Adaptor [q] 1 (a_real a) /\ one_qubit w q.
Proof.
  intros (PE & ND & LN & _) N. destruct a as [register k rd]. cbn in *. subst k. destruct register as [|q [|]]; try discriminate. exists q. split; [reflexivity|]. apply Permutation_length_1_inv in PE. exact PE.
Qed.
Lemma z_trial_zero a cheat w : can_start a cheat w -> a_numb a = 1 -> w_prob w <> 0%R -> exists a1 w1, trial a (Two zchan) 1 cheat w = Ok (a1, w1, false) /\ w_prob w1 <> 0%R /\ w_qubits w1 <> [] /\ is_ket 1 [true] (w_wave w1) /\ a_numb a1 = 1 /\ a_real a1 = a_real a /\
  (exists q, a1 = Adaptor [q] 1 (a_real a) /\ w_qubits w1 = [q]).
Proof.
  intros CS N P. destruct (trial_run a cheat w 1 zchan zact CS ltac:(lia) ltac:(lra)) as (a1 & w1 & w2 & phases & ps & w5 & z & x & RS & AZ & AN1 & AR & PL & E2 & TR & Q5 & B1 & B2 & B3 & B4 & B5 & K); [apply zchan_acts|apply zact_norm|].
  destruct (one_register a1 w1 AZ ltac:(congruence)) as (q & EA & OQ). rewrite EA in E2, PL. assert (QW : qubits w1 = 1) by (unfold qubits; rewrite OQ; reflexivity). pose proof AZ as (_ & _ & _ & KZ). rewrite QW in KZ. pose proof (z_overlap _ q w1 w2 phases ps _ OQ E2 PL KZ) as OV.
  assert (ZF : z = false). { destruct z; [|reflexivity]. exfalso. apply (B4 P). rewrite (B1 eq_refl), N, OV, (proj2 (Cmod_0 s0) eq_refl). ring. } subst z.
  exists a1, w5. split; [exact TR|]. split; [apply B4, P|]. rewrite Q5, OQ. split; [discriminate|]. rewrite QW in K, B5. split; [|split; [congruence|split; [exact AR|exists q; rewrite <- AR; auto]]].
  destruct K as (LX & K). destruct x as [|[|] [|]]; try discriminate; [split; [reflexivity|exact K]|]. exfalso. assert (false = true) by (apply B5; reflexivity). discriminate.
Qed.
(** the world of one qubit in |0>, with any outcomes and random numbers *)
Definition one_world (outcomes : list bool) (draws : list nat) : world := World [0] 1 (zero_ket 1) 1 outcomes draws.
Lemma one_zero real outcomes draws : all_zero (adaptor_init [0] real) (one_world outcomes draws).
Proof.
  split; [apply Permutation_refl|]. split; [repeat constructor; auto|]. split; [reflexivity|]. split; [reflexivity|]. exists s1. split; [unfold Cmod; cbn; replace (1 * 1 + 0 * 0)%R with 1%R by ring; apply sqrt_1|]. intros y _. unfold sscale, zero_ket. change (repeat false 1) with (zeros 1). cbn [qubits one_world w_qubits length w_wave]. unfold zero_ket, zeros. ring.
Qed.
(** on a real device the second trial of a Z gate starts from |1>: for all random numbers
    and outcomes the estimate of two trials is 1/2, and on a simulator it is 0 *)
Theorem C63_refuted outcomes draws :
  let w := one_world outcomes draws in
  acts_as 1 zchan zact /\ keeps_norm 1 zact /\ all_zero (adaptor_init [0] true) w /\
  (exists a' w', estimate_average_fidelity (adaptor_init [0] false) (Two zchan) 2 1 false w = Ok (a', w', 0%R)) /\
  (exists a' w', estimate_average_fidelity (adaptor_init [0] true) (Two zchan) 2 1 false w = Ok (a', w', (1 / 2)%R)) /\
  exists a1 w1, estimate_average_fidelity (adaptor_init [0] true) (Two zchan) 1 1 false w = Ok (a1, w1, 0%R) /\
    set_register_to_zero a1 false w1 = Ok (a1, w1) /\ ~ all_zero a1 w1.
Proof.
  intros w. split; [apply zchan_acts|]. split; [apply zact_norm|]. split; [apply one_zero|]. assert (P : w_prob w <> 0%R) by (cbn; lra).
  destruct (z_trial_zero (adaptor_init [0] true) false w (one_zero true outcomes draws) eq_refl P) as (a1 & w1 & T1 & P1 & _ & K1 & N1 & R1 & q & EA & EQ).
  split; [|split].
  - assert (CS : can_start (adaptor_init [0] false) false w) by (cbn; destruct (one_zero false outcomes draws) as (_ & _ & _ & K); eexists; exact K).
    destruct (z_trial_zero (adaptor_init [0] false) false w CS eq_refl P) as (b1 & v1 & S1 & PV & _ & KV & NV & RV & q' & EB & EV). assert (CS1 : can_start b1 false v1) by (unfold can_start; rewrite RV; cbn; unfold qubits; rewrite EV; eexists; exact KV).
    destruct (z_trial_zero b1 false v1 CS1 NV PV) as (b2 & v2 & S2 & _). exists b2, v2. unfold estimate_average_fidelity. change (Z.to_nat 2) with 2. cbn [trials]. rewrite S1. cbn [bind]. rewrite S2. cbn [bind Z.eqb INR]. f_equal. f_equal. field.
  - assert (RS : set_register_to_zero a1 false w1 = Ok (a1, w1)) by (apply C63_real_partial; exact R1). assert (QW : qubits w1 = 1) by (unfold qubits; rewrite EQ; reflexivity).
    destruct (trial_rest a1 w1 1 zact zchan) as (ps & w2 & phases & w3 & w4 & w5 & bits & PL & E2 & E3 & E4 & E5 & LB & Q5 & H1 & H2 & H3 & H4 & H5).
    { rewrite EA, EQ. apply Permutation_refl. } { rewrite EA. repeat constructor; auto. } { rewrite EA. reflexivity. } { lia. } { lra. } { rewrite QW. apply (is_ket_norm _ _ _ K1). } { apply zchan_acts. } { apply zact_norm. }
    pose proof E2 as E2'. pose proof PL as PL'. rewrite EA in E2', PL'. pose proof (z_overlap _ q w1 w2 phases ps _ EQ E2' PL' K1) as OV. destruct K1 as (LX & z & Z & KE).
    assert (BZ : forallb negb bits = true).
    { rewrite QW in H1. rewrite N1 in LB. destruct bits as [|b [|]]; try discriminate. destruct b; [|reflexivity]. exfalso. assert (AR : arrange (a_register a1) (w_qubits w1) [true] = [true]). { rewrite EA, EQ. cbn [a_register arrange map]. unfold qpos. cbn [position]. rewrite Nat.eqb_refl. reflexivity. }
      specialize (H1 [true] z eq_refl Z KE AR). rewrite AR in H2, H3. apply H2. rewrite H1, OV, (proj2 (Cmod_0 s0) eq_refl) in H3. assert (X : (Cmod (w_wave w4 [true]) ^ 2 = 0)%R) by (apply (Rmult_eq_reg_l (w_prob w1)); [rewrite <- H3; ring|exact P1]). destruct (Req_dec (Cmod (w_wave w4 [true])) 0) as [Y|Y]; [exact Y|]. apply (pow_nonzero _ 2) in Y. contradiction. }
    exists a1, w5. unfold estimate_average_fidelity. change (Z.to_nat 2) with 2. cbn [trials]. rewrite T1. cbn [bind]. unfold trial at 1. rewrite RS. cbn [bind]. rewrite E2. cbn [bind]. rewrite call_two, E3. cbn [bind]. rewrite E4. cbn [bind]. rewrite E5. cbn [bind]. rewrite BZ. cbn [Z.eqb INR]. reflexivity.
  - exists a1, w1. split; [|split; [apply C63_real_partial; exact R1|]].
    + unfold estimate_average_fidelity. change (Z.to_nat 1) with 1. cbn [trials]. rewrite T1. cbn [bind Z.eqb INR]. f_equal. f_equal. field.
    + intros (_ & _ & _ & KZ). assert (QW : qubits w1 = 1) by (unfold qubits; rewrite EQ; reflexivity). rewrite QW in KZ. destruct KZ as (_ & z & Z & KE), K1 as (_ & z' & Z' & KE'). specialize (KE [true] eq_refl). rewrite (KE' [true] eq_refl) in KE. unfold sscale, ket in KE. cbn [zeros repeat] in KE.
      destruct (list_eq_dec bool_dec [true] [true]) as [_|N]; [|contradiction]. destruct (list_eq_dec bool_dec [true] [false]) as [N|_]; [discriminate|]. assert (z' = s0) by (transitivity (smul z' s1 : CC); [ring|rewrite KE; ring]). subst z'. rewrite (proj2 (Cmod_0 s0) eq_refl) in Z'. lra.
Qed.
Print Assumptions C63_refuted.

(** ** Cases *)
Example C61_case : exists w w' phases, registered [5; 3] w /\ qubits w = 3 /\ approximate_unitary_two_design (adaptor_init [5; 3] false) (1/8) w = Ok (w', phases) /\ length phases = 5.
Proof.
  exists (World [3; 4; 5] 6 (zero_ket 3) 1 [] [1; 2; 1; 1]). set (w := World _ _ _ _ _ _). assert (RG : registered [5; 3] w).
  { split; [repeat constructor; cbn; intuition lia|]. split; [repeat constructor; cbn; intuition lia|]. intros q; cbn; intuition. }
  destruct (C61_returns [5; 3] false (1/8) w RG ltac:(discriminate) ltac:(lra)) as (w' & phases & H). exists w', phases. split; [exact RG|]. split; [reflexivity|]. split; [exact H|].
  refine (eq_trans (proj1 (C61_phases [5; 3] false (1/8) w w' phases 2 RG H _)) eq_refl). unfold log2. replace (1 / (1 / 8))%R with (2 ^ 3)%R by field. rewrite ln_pow by lra. cbn [length INR]. assert (0 < ln 2)%R by (rewrite <- ln_1; apply ln_increasing; lra). replace ((1 + 1 + 1) * ln 2 / ln 2)%R with 3%R by (field; lra). lra.
Qed.
Example C62_case : exists w, can_start (adaptor_init [0] false) false w /\ acts_as 1 (fun _ w => Ok w) (fun _ psi => psi).
Proof.
  exists (one_world [true] [2]). split; [cbn; destruct (one_zero false [true] [2]) as (_ & _ & _ & K); eexists; exact K|]. split; [auto|]. intros ps register w _ _ _ _. exists w. split; [reflexivity|]. split; [repeat split|apply eqs_refl].
Qed.
(** a superposition that cannot be reset *)
Example C63_case : exists w, set_register_to_zero (adaptor_init [0] false) false w = Err RuntimeError.
Proof.
  exists (World [0] 1 (fun _ => hh) 1 [] []). assert (N : hh <> s0) by (unfold hh; intros E; injection E as E; pose proof (sqrt_lt_R0 2 ltac:(lra)); pose proof (Rinv_0_lt_compat _ H); lra). apply (C63_superposition_partial _ _ [false] [true]); auto; discriminate.
Qed.
Example C75_case : can_start (adaptor_init [0] false) false (one_world [] []) /\ acts_as 1 zchan zact /\ keeps_norm 1 zact.
Proof. split; [cbn; destruct (one_zero false [] []) as (_ & _ & _ & K); eexists; exact K|]. split; [apply zchan_acts|apply zact_norm]. Qed.
(** a differential evolution that evaluates one point *)
Definition one_call : dev_diffev := fun f bounds _ s => do (a, w, y) <- f (map fst bounds) s; Ok (a, w, Run y (map fst bounds) true).
Example C64_case : dev_reports one_call /\ forall encoder decoder,
  optimize_encoder_decoder_average_fidelity one_call (device_chan_init [0] (Two zchan) false) (Three encoder) (Three decoder) 10 1 (1, 1) [(0, 1); (0, 1)]%R "diffev"%string 5 (one_world [] []) = Err TypeError.
Proof.
  split.
  - intros f bounds maxiter s a w r H. unfold one_call in H. destruct (f (map fst bounds) s) as [[[a1 w1] y]|] eqn:E; [|discriminate]. cbn [bind] in H. injection H as <- <- <-. split; [exists [map fst bounds]; cbn [dev_called]; rewrite E; reflexivity|]. exists [], a1, w1. cbn [dev_called r_x r_fun]. exact E.
  - intros encoder decoder. unfold optimize_encoder_decoder_average_fidelity, one_call. cbn [fst snd length Nat.add Nat.eqb assert_ bind String.eqb Ascii.eqb Bool.eqb]. rewrite C64_type_error_partial; [reflexivity| |cbn; lia|lra|lia]. cbn. destruct (one_zero false [] []) as (_ & _ & _ & K). eexists. exact K.
Qed.
