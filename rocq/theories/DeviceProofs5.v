(** Whole trials and estimates. *)
From Verif Require Import Py Scalar PauliModel PauliSpec EncoderProofs CircuitModel CircuitSpec CircuitProofs CircuitProofs2 OptimModel ChoiProofs2 DeviceModel DeviceSpec DeviceProofs DeviceProofs2 DeviceProofs3 DeviceProofs4.
From Coq Require Import Reals Lra Permutation.
Open Scope nat_scope.
Add Ring CCring22 : (s_rt CC).

Lemma getb_zeros k m : getb (zeros k) m = false.
Proof. unfold getb, zeros. revert m. induction k; intros [|m]; cbn; auto. Qed.
Lemma norm2_pos n psi x : length x = n -> psi x <> s0 -> (0 < norm2 n psi)%R.
Proof.
  intros LX N. rewrite norm2_sum. assert (C : (0 < Cmod (psi x) ^ 2)%R). { assert (Cmod (psi x) <> 0%R) by (rewrite Cmod_0; exact N). assert (0 <= Cmod (psi x))%R by apply sqrt_pos. nra. }
  apply Rlt_le_trans with (1 := C). set (f := fun y => if list_eq_dec bool_dec y x then (Cmod (psi y) ^ 2)%R else 0%R). replace (Cmod (psi x) ^ 2)%R with (f x) by (unfold f; destruct (list_eq_dec bool_dec x x); [reflexivity|contradiction]). rewrite <- (nsum_one n x f LX); unfold f.
  - apply nsum_le. intros y _. destruct (list_eq_dec bool_dec y x); [lra|apply pow2_ge_0].
  - intros y _ Ny. destruct (list_eq_dec bool_dec y x); [contradiction|reflexivity].
Qed.
(** outcomes of zeros are obeyed when |0...0> has an amplitude *)
Lemma measure_all_zeros l : forall w w' bits, measure_all w l = Ok (w', bits) -> w_wave w (zeros (qubits w)) <> s0 -> (forall i, nth i (w_outcomes w) false = false) -> forallb negb bits = true.
Proof.
  induction l as [|q l IH]; intros w w' bits H NZ OZ; cbn [measure_all] in H; [injection H as _ <-; reflexivity|].
  unfold measure in H. destruct (position q (w_qubits w)) as [p|] eqn:EPo; [|discriminate]. cbn [bind] in H. fold (qubits w) in H.
  assert (LZ : length (zeros (qubits w)) = qubits w) by apply repeat_length.
  assert (PZ : project p false (w_wave w) (zeros (qubits w)) = w_wave w (zeros (qubits w))) by (unfold project; rewrite getb_zeros; reflexivity).
  assert (PP : (0 < norm2 (qubits w) (project p false (w_wave w)))%R) by (apply (norm2_pos _ _ _ LZ); rewrite PZ; exact NZ).
  assert (OB : outcome (qubits w) p (w_wave w) (hd false (w_outcomes w)) = false).
  { replace (hd false (w_outcomes w)) with (nth 0 (w_outcomes w) false) by (destruct (w_outcomes w); reflexivity). rewrite OZ. unfold outcome. destruct (Req_EM_T _ 0); [lra|reflexivity]. }
  rewrite OB in H. set (w1 := World _ _ _ _ _ _) in H. destruct (measure_all w1 l) as [[w2 b2]|] eqn:E; [|discriminate]. cbn [bind] in H. injection H as _ <-. cbn [forallb negb andb]. apply (IH _ _ _ E).
  - unfold qubits, w1. cbn [w_qubits w_wave]. fold (qubits w). unfold sscale. rewrite PZ. intros Z. apply (f_equal Cmod) in Z. rewrite Cmod_mul in Z. change (Cmod (rc (/ sqrt (norm2 (qubits w) (project p false (w_wave w))))) * Cmod (w_wave w (zeros (qubits w))) = Cmod s0)%R in Z. rewrite Cmod_rc, (proj2 (Cmod_0 s0) eq_refl) in Z.
    apply Rmult_integral in Z. destruct Z as [Z|Z]; [|apply Cmod_0 in Z; contradiction]. apply (Rabs_no_R0 (/ sqrt (norm2 (qubits w) (project p false (w_wave w))))); [|exact Z]. apply Rinv_neq_0_compat. pose proof (sqrt_lt_R0 _ PP). lra.
  - intros i. cbn [w1 w_outcomes]. specialize (OZ (S i)). destruct (w_outcomes w); [destruct i; reflexivity|exact OZ].
Qed.
Lemma call_two g register w : call2 (Two g) register w = g register w. Proof. reflexivity. Qed.

(** one trial on a register in |0...0> *)
Lemma trial_run a cheat w eps g V : can_start a cheat w -> 1 <= a_numb a -> (0 < eps)%R -> acts_as (a_numb a) g V -> keeps_norm (a_numb a) V ->
  exists a1 w1 w2 phases ps w5 z x, set_register_to_zero a cheat w = Ok (a1, w1) /\ all_zero a1 w1 /\ a_numb a1 = a_numb a /\ a_real a1 = a_real a /\
    placed ps (a_register a1) w1 /\ approximate_unitary_two_design a1 eps w1 = Ok (w2, phases) /\
    trial a (Two g) eps cheat w = Ok (a1, w5, z) /\ w_qubits w5 = w_qubits w1 /\
    (z = true -> w_prob w5 = (w_prob w * Cmod (inner (a_numb a) (w_wave w2) (V ps (w_wave w2))) ^ 2)%R) /\
    (inner (a_numb a) (w_wave w2) (V ps (w_wave w2)) <> s0 -> (forall i, nth i (w_outcomes w) false = false) -> z = true) /\
    ((forall ps psi, eqs (a_numb a) (V ps psi) psi) -> z = true /\ w_prob w5 = w_prob w) /\
    (w_prob w <> 0%R -> w_prob w5 <> 0%R) /\
    (z = true <-> x = zeros (qubits w1)) /\ is_ket (qubits w1) x (w_wave w5).
Proof.
  intros CS N1 EP AV KV. destruct (reset_run a cheat w CS) as (a1 & w1 & RS & AZ & AN & AR & P1 & O1 & D1 & _). pose proof AZ as (PE & ND & LN & KZ).
  assert (QN : qubits w1 = a_numb a) by (unfold qubits; rewrite <- (Permutation_length PE); congruence).
  destruct (trial_rest a1 w1 eps V g PE ND LN ltac:(lia) EP (is_ket_norm _ _ _ KZ)) as (ps & w2 & phases & w3 & w4 & w5 & bits & PL & E2 & E3 & E4 & E5 & LB & Q5 & T1 & T2 & T3 & T4 & T5); [rewrite QN; exact AV|rewrite QN; exact KV|].
  exists a1, w1, w2, phases, ps, w5, (forallb negb bits), (arrange (a_register a1) (w_qubits w1) bits). split; [exact RS|]. split; [exact AZ|]. split; [exact AN|]. split; [exact AR|]. split; [exact PL|]. split; [exact E2|].
  assert (AZB : forallb negb bits = true <-> arrange (a_register a1) (w_qubits w1) bits = zeros (qubits w1)) by (apply arrange_zero; [exact PE|exact ND|congruence]).
  assert (LA : length (arrange (a_register a1) (w_qubits w1) bits) = qubits w1) by (unfold arrange, qubits; apply map_length).
  assert (QO : w_outcomes w4 = w_outcomes w1 /\ w_qubits w4 = w_qubits w1 /\ Cmod (w_wave w4 (zeros (qubits w1))) = Cmod (inner (qubits w1) (w_wave w2) (V ps (w_wave w2)))).
  { destruct AV as (_ & AV). destruct (design_spec a1 eps w1 PE ND LN ltac:(lia) EP) as (Cf & Cb & d' & ph & _ & OB & CA & RF & RB). rewrite E2 in RF. injection RF as -> ->. set (w2 := set_draws _ _) in *.
    destruct (AV ps (a_register a1) w2 QN ND PE PL) as (w3' & G & (S1 & S2 & S3 & S4) & EW). rewrite E3 in G. injection G as <-. cbn in S1, S4. rewrite (RB w3 S1) in E4. injection E4 as <-. split; [exact S4|]. split; [exact S1|].
    destruct KZ as (LZ & z & Z1 & KE). set (w4 := set_wave w3 _) in *.
    transitivity (Cmod (inner (qubits w1) (w_wave w1) (w_wave w4))); [rewrite (inner_ext (qubits w1) _ (w_wave w4) _ _ KE (eqs_refl _ _)), inner_ket_l, Cmod_mul, Cmod_conj, Z1 by exact LZ; ring|]. f_equal.
    rewrite <- (inner_ext (qubits w1) _ (w_wave w4) _ _ (CA (w_wave w1)) (eqs_refl _ _)). unfold w4. cbn [set_wave w_wave]. unfold qubits. rewrite gacts_inner by exact OB. apply inner_ext; [apply eqs_refl|]. fold (qubits w1). rewrite QN. exact EW. }
  destruct QO as (O4 & Q4 & C4).
  split. { unfold trial. rewrite RS. cbn [bind]. rewrite E2. cbn [bind]. rewrite call_two, E3. cbn [bind]. rewrite E4. cbn [bind]. rewrite E5. reflexivity. }
  split; [exact Q5|]. rewrite <- QN. split; [|split; [|split; [|split; [|split]]]].
  - intros Z. apply AZB in Z. rewrite T3, Z, C4, P1. reflexivity.
  - intros NZ OZ. apply (measure_all_zeros _ _ _ _ E5).
    + unfold qubits. rewrite Q4. fold (qubits w1). intros Z. apply NZ. apply Cmod_0. rewrite <- C4, Z. apply Cmod_0. reflexivity.
    + intros i. rewrite O4, O1. apply OZ.
  - intros VI. destruct KZ as (LZ & z & Z1 & KE). assert (X : arrange (a_register a1) (w_qubits w1) bits = zeros (qubits w1)).
    { destruct (list_eq_dec bool_dec (arrange (a_register a1) (w_qubits w1) bits) (zeros (qubits w1))) as [X|X]; [exact X|]. exfalso. apply T2. rewrite (T4 VI _ LA), (KE _ LA). unfold sscale, ket. destruct (list_eq_dec bool_dec _ _); [contradiction|]. apply Cmod_0. ring. }
    split; [apply AZB, X|]. rewrite T3, X, (T4 VI _ LZ), (KE _ LZ), P1. unfold sscale, ket. destruct (list_eq_dec bool_dec _ _); [|contradiction]. rewrite Cmod_mul, Z1. replace (Cmod (s1 : CC)) with 1%R; [ring|]. unfold Cmod. cbn. replace (1 * 1 + 0 * 0)%R with 1%R by ring. symmetry. apply sqrt_1.
  - intros NZ. rewrite T3, P1. apply Rmult_integral_contrapositive_currified; [exact NZ|]. apply pow_nonzero, T2.
  - exact AZB.
  - exact T5.
Qed.

(** ** many trials *)
Lemma trials_app ch eps cheat m2 : forall m1 a w z, trials (m1 + m2) a ch eps cheat w z = do (a1, w1, z1) <- trials m1 a ch eps cheat w z; trials m2 a1 ch eps cheat w1 z1.
Proof.
  induction m1 as [|m1 IH]; intros a w z; [reflexivity|]. cbn [trials Nat.add]. destruct (trial a ch eps cheat w) as [[[a1 w1] b]|]; [|reflexivity]. cbn [bind]. apply IH.
Qed.
Lemma trials_count ch eps cheat m : forall a w z, trials m a ch eps cheat w z = do (a1, w1, z1) <- trials m a ch eps cheat w 0; Ok (a1, w1, z + z1).
Proof.
  induction m as [|m IH]; intros a w z; cbn [trials bind]; [rewrite Nat.add_0_r; reflexivity|]. destruct (trial a ch eps cheat w) as [[[a1 w1] b]|]; [|reflexivity]. cbn [bind].
  rewrite IH, (IH a1 w1 (if b then 1 else 0)). destruct (trials m a1 ch eps cheat w1 0) as [[[a2 w2] z2]|]; [|reflexivity]. cbn [bind]. f_equal. f_equal. destruct b; lia.
Qed.
Lemma trials_le ch eps cheat m : forall a w z a1 w1 z1, trials m a ch eps cheat w z = Ok (a1, w1, z1) -> z1 <= z + m.
Proof.
  induction m as [|m IH]; intros a w z a1 w1 z1 H; cbn [trials] in H; [injection H as _ _ <-; lia|]. destruct (trial a ch eps cheat w) as [[[a2 w2] b]|]; [|discriminate]. cbn [bind] in H. apply IH in H. destruct b; lia.
Qed.
Section Sim.
Variables (n : nat) (eps : R) (cheat : bool) (g : list nat -> world -> res world) (V : list nat -> @state CC -> @state CC).
Hypothesis N1 : 1 <= n.
Hypothesis EP : (0 < eps)%R.
Hypothesis AV : acts_as n g V.
Hypothesis KV : keeps_norm n V.
Lemma trials_run m : forall a w z, can_start a cheat w -> a_numb a = n -> a_real a = false \/ (forall ps psi, eqs n (V ps psi) psi) ->
  exists a1 w1 z1, trials m a (Two g) eps cheat w z = Ok (a1, w1, z1) /\ can_start a1 cheat w1 /\ a_numb a1 = n /\ a_real a1 = a_real a /\ (w_prob w <> 0%R -> w_prob w1 <> 0%R) /\ ((forall ps psi, eqs n (V ps psi) psi) -> z1 = z + m /\ w_prob w1 = w_prob w).
Proof.
  induction m as [|m IH]; intros a w z CS AN HH.
  - exists a, w, z. split; [reflexivity|]. repeat split; auto; lia.
  - subst n. destruct (trial_run a cheat w eps g V CS N1 EP AV KV) as (a1 & w1 & w2 & phases & ps & w5 & b & x & RS & AZ & AN1 & AR & PL & E2 & TR & Q5 & B1 & B2 & B3 & B4 & B5 & K).
    assert (CS1 : can_start a1 cheat w5).
    { destruct AZ as (PE & ND & LN & KZ). assert (QQ : qubits w5 = qubits w1) by (unfold qubits; rewrite Q5; reflexivity). unfold can_start. rewrite AR. destruct (a_real a) eqn:RD.
      - destruct HH as [|VI]; [discriminate|]. destruct (B3 VI) as [Z _]. apply B5 in Z. unfold all_zero. rewrite Q5. split; [exact PE|]. split; [exact ND|]. split; [exact LN|]. rewrite QQ, <- Z. exact K.
      - destruct cheat; [rewrite Q5; auto|]. rewrite QQ. eauto. }
    destruct (IH a1 w5 (if b then S z else z) CS1 AN1) as (a2 & w6 & z2 & TT & H1 & H2 & H3 & H4 & H5); [rewrite AR; exact HH|].
    exists a2, w6, z2. cbn [trials]. rewrite TR. cbn [bind]. split; [exact TT|]. split; [exact H1|]. split; [congruence|]. split; [congruence|]. split; [auto|].
    intros VI. destruct (H5 VI) as [-> ->]. destruct (B3 VI) as [-> ->]. split; [lia|reflexivity].
Qed.
End Sim.

(** composing channels *)
Lemma acts_as_comp n g1 V1 g2 V2 : acts_as n g1 V1 -> acts_as n g2 V2 -> acts_as n (fun register w => do w1 <- g1 register w; g2 register w1) (fun ps psi => V2 ps (V1 ps psi)).
Proof.
  intros [P1 A1] [P2 A2]. split; [intros; apply P2, P1; assumption|]. intros ps register w Q ND PE PL. destruct (A1 ps register w Q ND PE PL) as (w1 & E1 & (S1 & S2 & S3 & S4) & W1).
  destruct (A2 ps register w1) as (w2 & E2 & (T1 & T2 & T3 & T4) & W2); [unfold qubits; rewrite S1; exact Q|exact ND|rewrite S1; exact PE|unfold placed; rewrite S1; exact PL|]. exists w2. rewrite E1. cbn [bind]. split; [exact E2|]. split; [repeat split; congruence|].
  eapply eqs_trans; [exact W2|]. apply P2, W1.
Qed.
Lemma acts_as_ext n g g' V : (forall register w, g register w = g' register w) -> acts_as n g V -> acts_as n g' V.
Proof. intros E [P A]. split; [exact P|]. intros ps register w Q ND PE PL. rewrite <- E. apply A; assumption. Qed.
