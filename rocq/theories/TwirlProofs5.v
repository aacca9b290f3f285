(** Proofs about the law of the fidelity estimate. *)
From Verif Require Import Py Scalar PauliModel PauliSpec EncoderProofs CircuitModel CircuitSpec CircuitProofs CircuitProofs2 OptimModel DeviceModel DeviceSpec DeviceProofs DeviceProofs2 DeviceProofs3 DeviceProofs4 DeviceProofs5 TwirlSpec TwirlSpec3 PropsTwirl.
From Coq Require Import Reals Lra Permutation.
Open Scope R_scope.

(** ** coin flips *)
Lemma coins_ext N mu : forall f g, (forall l, length l = N -> f l = g l) -> coins N mu f = coins N mu g.
Proof. induction N as [|N IH]; intros f g H; cbn [coins]; [apply H; reflexivity|]. f_equal; f_equal; apply IH; intros l L; apply H; cbn; lia. Qed.
Lemma coins_scale N mu c : forall f, coins N mu (fun l => c * f l) = c * coins N mu f.
Proof. induction N as [|N IH]; intros f; cbn [coins]; [reflexivity|]. rewrite !IH. ring. Qed.
Lemma coins_le N mu : 0 <= mu <= 1 -> forall f g, (forall l, length l = N -> f l <= g l) -> coins N mu f <= coins N mu g.
Proof.
  intros M. induction N as [|N IH]; intros f g H; cbn [coins]; [apply H; reflexivity|].
  pose proof (IH (fun l => f (1 :: l)) (fun l => g (1 :: l)) ltac:(intros; apply H; cbn; lia)). pose proof (IH (fun l => f (0 :: l)) (fun l => g (0 :: l)) ltac:(intros; apply H; cbn; lia)). nra.
Qed.
Lemma coins_sum N mu : forall c, coins N mu (fun l => c + sum_of l) = c + INR N * mu.
Proof.
  induction N as [|N IH]; intros c; [cbn; ring|]. cbn [coins]. rewrite (coins_ext N mu (fun l => c + sum_of (1 :: l)) (fun l => (c + 1) + sum_of l)) by (intros; unfold sum_of; cbn [fold_right]; ring). rewrite (coins_ext N mu (fun l => c + sum_of (0 :: l)) (fun l => c + sum_of l)) by (intros; unfold sum_of; cbn [fold_right]; ring).
  rewrite !IH, S_INR. ring.
Qed.
Lemma coins_square N mu : forall c, coins N mu (fun l => (c + sum_of l) ^ 2) = (c + INR N * mu) ^ 2 + INR N * (mu * (1 - mu)).
Proof.
  induction N as [|N IH]; intros c; [cbn; ring|]. cbn [coins]. rewrite (coins_ext N mu (fun l => (c + sum_of (1 :: l)) ^ 2) (fun l => ((c + 1) + sum_of l) ^ 2)) by (intros; unfold sum_of; cbn [fold_right]; ring). rewrite (coins_ext N mu (fun l => (c + sum_of (0 :: l)) ^ 2) (fun l => (c + sum_of l) ^ 2)) by (intros; unfold sum_of; cbn [fold_right]; ring).
  rewrite !IH, S_INR. ring.
Qed.
Lemma coins_error N mu F : (1 <= N)%nat -> coins N mu (fun l => (sum_of l / INR N - F) ^ 2) = mu * (1 - mu) / INR N + (mu - F) ^ 2.
Proof.
  intros N1. assert (P : 0 < INR N) by (apply lt_0_INR; lia). rewrite (coins_ext N mu _ (fun l => / INR N ^ 2 * ((- INR N * F) + sum_of l) ^ 2)) by (intros; field; lra). rewrite coins_scale, coins_square. field. lra.
Qed.
Lemma variance_bound mu : mu * (1 - mu) <= / 4.
Proof. pose proof (pow2_ge_0 (mu - / 2)). nra. Qed.

(** ** expected values *)
Lemma expected_affine r : forall p c b, Forall (fun k => 0 < k)%nat r -> expected r (fun d => c * p d + b) = c * expected r p + b.
Proof.
  induction r as [|k r IH]; intros p c b F; cbn [expected]; [reflexivity|]. inversion F as [|? ? K0 F']; subst. assert (P : 0 < INR k) by (apply lt_0_INR; exact K0).
  assert (S : forall l : list nat, fold_right Rplus 0 (map (fun i => expected r (fun d => c * p (i :: d) + b)) l) = c * fold_right Rplus 0 (map (fun i => expected r (fun d => p (i :: d))) l) + INR (length l) * b).
  { induction l as [|i l IHl]; [cbn; ring|]. cbn [map fold_right]. rewrite IHl, (IH (fun d => p (i :: d)) c b F'). change (length (i :: l)) with (S (length l)). rewrite S_INR. ring. }
  rewrite S, seq_length. field. lra.
Qed.

(** ** successes *)
Lemma succeeds_unique e w p p' : w_prob w <> 0 -> succeeds e w p -> succeeds e w p' -> forall d, p d = p' d.
Proof.
  intros W S S' d. destruct (S d []) as (a1 & w1 & r1 & E1 & R1 & A1 & B1 & C1). destruct (S' d []) as (a2 & w2 & r2 & E2 & R2 & A2 & B2 & C2). rewrite E1 in E2. injection E2 as <- <- <-.
  assert (N : forall i, nth i (@nil bool) false = false) by (intros [|]; reflexivity).
  destruct (Req_dec (p d) 0) as [P|P], (Req_dec (p' d) 0) as [P'|P']; try congruence.
  - rewrite (C1 P W) in B2. specialize (B2 P' N). lra.
  - rewrite (C2 P' W) in B1. specialize (B1 P N). lra.
  - specialize (B1 P N). rewrite (A1 B1) in A2. specialize (A2 B1). apply (Rmult_eq_reg_l (w_prob w)); assumption.
Qed.

(** ** engine outcomes equal to 1 *)
Lemma measure_ones l : forall w w' bits, measure_all w l = Ok (w', bits) -> norm2 (qubits w) (w_wave w) = 1 -> (forall i, (i < length l)%nat -> nth i (w_outcomes w) false = true) -> forallb negb bits = true -> w_prob w' = w_prob w.
Proof.
  induction l as [|q l IH]; intros w w' bits H N1 O B; cbn [measure_all] in H; [injection H as <- _; reflexivity|].
  unfold measure in H. destruct (position q (w_qubits w)) as [p|] eqn:EPo; [|discriminate]. cbn [bind] in H. fold (qubits w) in H.
  assert (HD : hd false (w_outcomes w) = true) by (specialize (O 0%nat ltac:(cbn; lia)); destruct (w_outcomes w); exact O). rewrite HD in H.
  set (b := outcome (qubits w) p (w_wave w) true) in H. set (pr := norm2 (qubits w) (project p b (w_wave w))) in H. set (w1 := World _ _ _ _ _ _) in H.
  destruct (measure_all w1 l) as [[w2 bs]|] eqn:E; [|discriminate]. cbn [bind] in H. injection H as <- <-. cbn [forallb] in B. apply andb_prop in B. destruct B as [B0 B].
  assert (PR : pr = 1). { unfold pr, b, outcome in *. destruct (Req_EM_T (norm2 (qubits w) (project p true (w_wave w))) 0) as [Z|Z]; [|discriminate]. rewrite (norm2_split (qubits w) p true), Z, Rplus_0_l in N1. exact N1. }
  rewrite (IH w1 w2 bs E); [cbn [w1 w_prob]; rewrite PR; ring| | |exact B].
  - change (qubits w1) with (qubits w). cbn [w1 w_wave]. rewrite norm2_scale. fold pr. rewrite PR. change ((/ sqrt 1)%R, 0%R) with (rc (/ sqrt 1)). rewrite Cmod_rc, sqrt_1, Rinv_1, Rabs_R1. ring.
  - intros i Hi. specialize (O (S i) ltac:(cbn; lia)). cbn [w1 w_outcomes]. destruct (w_outcomes w) as [|o os]; [discriminate|exact O].
Qed.
Lemma trial_ones a cheat w eps g V a' w' : can_start a cheat w -> (1 <= a_numb a)%nat -> 0 < eps -> acts_as (a_numb a) g V -> keeps_norm (a_numb a) V ->
  (forall i, (i < a_numb a)%nat -> nth i (w_outcomes w) false = true) -> trial a (Two g) eps cheat w = Ok (a', w', true) -> w_prob w' = w_prob w.
Proof.
  intros CS N1 EP AV KV O H. destruct (reset_run a cheat w CS) as (a1 & w1 & RS & AZ & AN & AR & P1 & O1 & D1 & _). pose proof AZ as (PE & ND & LN & KZ).
  assert (QN : qubits w1 = a_numb a) by (unfold qubits; rewrite <- (Permutation_length PE); congruence).
  destruct (trial_rest a1 w1 eps V g PE ND LN ltac:(lia) EP (is_ket_norm _ _ _ KZ)) as (ps & w2 & phases & w3 & w4 & w5 & bits & PL & E2 & E3 & E4 & E5 & LB & Q5 & T1 & T2 & T3 & T4 & T5); [rewrite QN; exact AV|rewrite QN; exact KV|].
  unfold trial in H. rewrite RS in H. cbn [bind] in H. rewrite E2 in H. cbn [bind] in H. rewrite call_two, E3 in H. cbn [bind] in H. rewrite E4 in H. cbn [bind] in H. rewrite E5 in H. injection H as <- <- HB.
  destruct AV as (_ & AV). destruct (design_spec a1 eps w1 PE ND LN ltac:(lia) EP) as (Cf & Cb & d' & ph & OF & OB & CA & RF & RB). rewrite E2 in RF. injection RF as -> ->. set (w2 := set_draws _ _) in *.
  destruct (AV ps (a_register a1) w2 QN ND PE PL) as (w3' & G & (S1 & S2 & S3 & S4) & EW). rewrite E3 in G. injection G as <-. cbn in S1, S3, S4. rewrite (RB w3 S1) in E4. injection E4 as <-.
  rewrite <- P1. transitivity (w_prob (set_wave w3 (gacts (w_qubits w1) Cb (w_wave w3)))); [|cbn; congruence]. apply (measure_ones _ _ _ _ E5); [|intros i Hi; cbn [set_wave w_outcomes]; rewrite S4, O1; apply O; congruence|exact HB].
  cbn [set_wave w_wave]. unfold qubits. cbn [set_wave w_qubits]. rewrite S1. fold (qubits w1). unfold norm2.
  assert (GB : forall f h, inner (qubits w1) (gacts (w_qubits w1) Cb f) (gacts (w_qubits w1) Cb h) = inner (qubits w1) f h) by (intros f h; unfold qubits; apply gacts_inner, OB).
  rewrite GB. rewrite QN. rewrite (inner_ext (a_numb a) _ _ _ _ EW EW), KV. rewrite <- QN. change (w_wave w2) with (gacts (w_qubits w1) Cf (w_wave w1)). rewrite <- GB. rewrite (inner_ext (qubits w1) _ _ _ _ (CA (w_wave w1)) (CA (w_wave w1))). apply (is_ket_norm _ _ _ KZ).
Qed.
Lemma allocate_qubits m : forall w w' l, allocate_qureg m w = (w', l) -> w_qubits w' = w_qubits w ++ l /\ length l = m.
Proof.
  induction m as [|m IH]; intros w w' l H; cbn [allocate_qureg] in H; [injection H as <- <-; rewrite app_nil_r; auto|]. destruct (allocate_qureg m (allocate w)) as [w1 l1] eqn:E. injection H as <- <-. destruct (IH _ _ _ E) as [Q L]. rewrite Q. cbn [allocate w_qubits length]. rewrite <- app_assoc. split; [reflexivity|lia].
Qed.
Lemma placed_new n l w : w_qubits w = l -> length l = n -> placed (seq 0 n) l w.
Proof.
  intros Q L. unfold placed. rewrite Q. clear Q w. assert (G : forall k l2, Forall2 (fun p q => nth_error (l2 ++ l) p = Some q) (seq (length l2) k) (firstn k l) \/ (length l < k)%nat).
  { intros k. subst n. revert l. induction k as [|k IH]; intros l l2; [left; constructor|]. destruct l as [|x l]; [right; cbn; lia|]. destruct (IH l (l2 ++ [x])) as [I|I]; [left|right; cbn; lia]. cbn [seq firstn]. constructor; [rewrite nth_error_app2, Nat.sub_diag by lia; reflexivity|].
    rewrite app_length in I. cbn [length] in I. rewrite Nat.add_1_r, <- app_assoc in I. exact I. }
  destruct (G n []) as [I|I]; [|lia]. rewrite <- L in I at 2. rewrite firstn_all in I. exact I.
Qed.

(** ** from one trial to many *)
Section Law.
Variables (step : adaptor -> world -> res (adaptor * world * R)) (mean : (list nat -> R) -> R) (ready : adaptor -> world -> Prop) (mu : R).
Hypothesis mean_ext : forall f g, (forall d, f d = g d) -> mean f = mean g.
Hypothesis mean_affine : forall p c b, mean (fun d => c * p d + b) = c * mean p + b.
Hypothesis live : forall a w, ready a w -> w_prob w <> 0.
Hypothesis step_law : forall a w, ready a w -> exists p, succeeds (step a) w p /\ (forall d, p d <> 1 -> exists o a' w', step a (with_luck w d o) = Ok (a', w', 0)) /\
  (forall d o a' w' r, step a (with_luck w d o) = Ok (a', w', r) -> ready a' w') /\ mean p = mu.
Lemma coin_law N : forall a w f v, ready a w -> (has_mean step mean N a w f v <-> v = coins N mu f).
Proof.
  induction N as [|N IH]; intros a w f v R; [reflexivity|]. destruct (step_law a w R) as (p & SW & FA & NX & ME). pose proof (live a w R) as W0.
  assert (EQ : forall v1 v0, mean (fun d => p d * v1 + (1 - p d) * v0) = mu * v1 + (1 - mu) * v0).
  { intros v1 v0. rewrite (mean_ext _ (fun d => (v1 - v0) * p d + v0)) by (intros; ring). rewrite mean_affine. rewrite ME. ring. }
  cbn [has_mean coins]. split.
  - intros (p' & v1 & v0 & SW' & FA' & H & ->). rewrite <- EQ. apply mean_ext. intros d. rewrite <- (succeeds_unique _ _ _ _ W0 SW SW' d).
    assert (E1 : p d <> 0 -> v1 d = coins N mu (fun l => f (1 :: l))).
    { intros P. destruct (SW d []) as (a' & w' & r & E & RR & _ & B & _). specialize (B P ltac:(intros [|]; reflexivity)). subst r. specialize (H d [] a' w' 1 E). apply (IH a' w') in H; [|apply (NX d [] a' w' 1 E)]. destruct (Req_EM_T 1 1); [exact H|contradiction]. }
    assert (E0 : p d <> 1 -> v0 d = coins N mu (fun l => f (0 :: l))).
    { intros P. destruct (FA d P) as (o & a' & w' & E). specialize (H d o a' w' 0 E). apply (IH a' w') in H; [|apply (NX d o a' w' 0 E)]. destruct (Req_EM_T 0 1); [lra|exact H]. }
    destruct (Req_dec (p d) 0) as [P0|P0].
    + rewrite P0, (E0 ltac:(lra)). ring.
    + rewrite (E1 P0). destruct (Req_dec (p d) 1) as [P1|P1]; [rewrite P1; ring|]. rewrite (E0 P1). reflexivity.
  - intros ->. exists p, (fun _ => coins N mu (fun l => f (1 :: l))), (fun _ => coins N mu (fun l => f (0 :: l))). split; [exact SW|]. split; [exact FA|]. split; [|symmetry; apply EQ].
    intros d o a' w' r E. pose proof (NX d o a' w' r E) as R'. assert (RR : r = 0 \/ r = 1). { destruct (SW d o) as (a2 & w2 & r2 & E' & RR & _). rewrite E in E'. injection E' as -> -> ->. exact RR. }
    destruct RR as [-> | ->]; apply (IH a' w' _ _ R'); destruct (Req_EM_T _ _); try reflexivity; lra.
Qed.
End Law.
(** the mean, the mean squared error and the probability of a large error of the estimate *)
Lemma coin_errors mu F e N : (1 <= N)%nat -> 0 <= mu <= 1 -> Rabs (mu - F) <= e ->
  coins N mu (fun l => sum_of l / INR N) = mu /\ coins N mu (fun l => (sum_of l / INR N - F) ^ 2) <= 1 / (4 * INR N) + e ^ 2 /\
  forall delta, 0 < delta -> coins N mu (fun l => if Rlt_dec (Rabs (sum_of l / INR N - F)) (e + delta) then 0 else 1) <= 1 / (4 * INR N * delta ^ 2).
Proof.
  intros NN MU CL. assert (P : 0 < INR N) by (apply lt_0_INR; lia).
  assert (VB : mu * (1 - mu) / INR N <= 1 / (4 * INR N)). { replace (1 / (4 * INR N)) with (/ 4 / INR N) by (field; lra). apply Rmult_le_compat_r; [apply Rlt_le, Rinv_0_lt_compat, P|apply variance_bound]. }
  split; [|split].
  - rewrite (coins_ext N mu _ (fun l => / INR N * (0 + sum_of l))) by (intros; field; lra). rewrite coins_scale, coins_sum. field. lra.
  - rewrite coins_error by exact NN. assert ((mu - F) ^ 2 <= e ^ 2). { rewrite <- (pow2_abs (mu - F)). apply pow_incr. split; [apply Rabs_pos|exact CL]. } lra.
  - intros delta D. assert (D2 : 0 < delta ^ 2) by (apply pow_lt, D).
    apply Rle_trans with (coins N mu (fun l => / delta ^ 2 * (sum_of l / INR N - mu) ^ 2)).
    + apply coins_le; [exact MU|]. intros l _. assert (0 <= / delta ^ 2 * (sum_of l / INR N - mu) ^ 2) by (apply Rmult_le_pos; [apply Rlt_le, Rinv_0_lt_compat, D2|apply pow2_ge_0]). destruct (Rlt_dec _ _) as [C|C]; [assumption|].
      apply (Rmult_le_reg_l (delta ^ 2)); [exact D2|]. rewrite <- Rmult_assoc, Rinv_r by lra. rewrite Rmult_1_r, Rmult_1_l. rewrite <- (pow2_abs (sum_of l / INR N - mu)). apply pow_incr. split; [lra|].
      pose proof (Rabs_triang (sum_of l / INR N - mu) (mu - F)) as T. replace (sum_of l / INR N - mu + (mu - F)) with (sum_of l / INR N - F) in T by ring. lra.
    + rewrite coins_scale, coins_error by exact NN. replace (mu - mu) with 0 by ring. replace (1 / (4 * INR N * delta ^ 2)) with (/ delta ^ 2 * (1 / (4 * INR N))) by (field; lra). apply Rmult_le_compat_l; [apply Rlt_le, Rinv_0_lt_compat, D2|]. lra.
Qed.
