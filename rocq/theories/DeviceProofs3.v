(** The two design and its inverse on the engine; measuring all qubits. *)
From Verif Require Import Py Scalar PauliModel PauliSpec EncoderProofs CircuitModel CircuitSpec CircuitProofs CircuitProofs2 OptimModel ChoiProofs2 DeviceModel DeviceSpec DeviceProofs DeviceProofs2.
From Coq Require Import Reals Lra Permutation.
Open Scope nat_scope.
Add Ring CCring20 : (s_rt CC).

Section Design.
Variables (register ids : list nat) (n : nat).
Hypothesis L : length register = n.
Hypothesis ND : NoDup register.
Hypothesis IN : incl register ids.
Lemma rounds_run t : forall d, exists Cf Cb d' used, length used = t /\ Forall (on_qubits ids) Cf /\ Forall (on_qubits ids) Cb /\
  (forall psi, eqs (length ids) (gacts ids Cb (gacts ids Cf psi)) psi) /\
  (forall w, w_qubits w = ids -> w_draws w = d -> design_rounds register n t w = Ok (set_draws (set_wave w (gacts ids Cf (w_wave w))) d', used)) /\
  (forall a w, a_register a = register -> a_numb a = n -> w_qubits w = ids -> inverse_of_unitary_two_design a (rev used) w = Ok (set_wave w (gacts ids Cb (w_wave w)))).
Proof.
  induction t as [|t IH]; intros d.
  - exists [], [], d, []. split; [reflexivity|]. split; [constructor|]. split; [constructor|]. split; [intros; apply eqs_refl|]. split.
    + intros w _ <-. destruct w. reflexivity.
    + intros a w _ _ _. cbn. rewrite set_wave_eta. reflexivity.
  - destruct (design_round_run register n L d) as (ps & qs & d1 & E & _ & L1 & L2 & F). destruct (IH d1) as (Cf & Cb & d' & used & Lu & OF & OB & CA & RF & RB).
    exists (forward register n ps qs ++ Cf), (Cb ++ backward register n ps qs), d', ((ps ++ qs) :: used). split; [cbn; lia|].
    pose proof (forward_on register n L ids IN ps qs) as O1. pose proof (backward_on register n L ids IN ps qs) as O2.
    split; [apply Forall_app; split; assumption|]. split; [apply Forall_app; split; assumption|]. split; [|split].
    + intros psi. rewrite !gacts_app. eapply eqs_trans; [apply gacts_eqs, CA|]. apply (round_cancels register n ids ND IN ps qs F).
    + intros w HQ HD. cbn [design_rounds]. rewrite HD, E. cbn [bind]. rewrite execute_all_ok by (cbn; rewrite HQ; exact O1). cbn [bind].
      rewrite RF by (cbn; auto). cbn [bind]. f_equal. f_equal. cbn [w_qubits set_wave set_draws w_wave]. rewrite gacts_app, HQ. reflexivity.
    + intros a w HR HN HQ. cbn [rev]. unfold inverse_of_unitary_two_design in *. rewrite foldM_app, RB by assumption. cbn [bind foldM]. rewrite HR, HN, (inverse_round_run register n L ps qs L1 L2). cbn [bind].
      rewrite execute_all_ok by (cbn; rewrite HQ; exact O2). cbn [bind]. f_equal. cbn [w_qubits set_wave w_wave]. rewrite gacts_app, HQ. reflexivity.
Qed.
End Design.

(** ** sums of squares *)
Fixpoint nsum (n : nat) (f : list bool -> R) : R := match n with O => f [] | S m => (nsum m (fun y => f (false :: y)) + nsum m (fun y => f (true :: y)))%R end.
Lemma nsum_ext n : forall f g, (forall y, length y = n -> f y = g y) -> nsum n f = nsum n g.
Proof. induction n as [|n IH]; intros f g H; cbn; [apply H; reflexivity|]. f_equal; apply IH; intros y Hy; apply H; cbn; lia. Qed.
Lemma nsum_mul n a : forall f, nsum n (fun y => a * f y)%R = (a * nsum n f)%R.
Proof. induction n as [|n IH]; intros f; cbn; [reflexivity|]. rewrite !IH. ring. Qed.
Lemma nsum_le n : forall f g, (forall y, length y = n -> f y <= g y)%R -> (nsum n f <= nsum n g)%R.
Proof. induction n as [|n IH]; intros f g H; cbn; [apply H; reflexivity|]. apply Rplus_le_compat; apply IH; intros y Hy; apply H; cbn; lia. Qed.
Lemma nsum_0 n : nsum n (fun _ => 0%R) = 0%R.
Proof. induction n as [|n IH]; cbn; [reflexivity|]. rewrite IH. ring. Qed.
Lemma nsum_one n : forall x f, length x = n -> (forall y, length y = n -> y <> x -> f y = 0%R) -> nsum n f = f x.
Proof.
  induction n as [|n IH]; intros x f E H; cbn [nsum]; [destruct x; [reflexivity|discriminate]|]. destruct x as [|b x]; [discriminate|]. injection E as E. destruct b.
  - rewrite (nsum_ext n _ (fun _ => 0%R)), nsum_0 by (intros y Hy; apply H; [cbn; lia|discriminate]). rewrite (IH x (fun y => f (true :: y)) E); [ring|]. intros y Hy N. apply H; [cbn; lia|congruence].
  - rewrite (nsum_ext n (fun y => f (true :: y)) (fun _ => 0%R)), nsum_0 by (intros y Hy; apply H; [cbn; lia|discriminate]). rewrite (IH x (fun y => f (false :: y)) E); [ring|]. intros y Hy N. apply H; [cbn; lia|congruence].
Qed.
Lemma isum_fst n : forall f : list bool -> CC, fst (isum n f) = nsum n (fun y => fst (f y)).
Proof. induction n as [|n IH]; intros f; [reflexivity|]. cbn [isum nsum]. rewrite <- !IH. reflexivity. Qed.
Lemma norm2_sum n psi : norm2 n psi = nsum n (fun y => (Cmod (psi y) ^ 2)%R).
Proof. unfold norm2, inner. rewrite isum_fst. apply nsum_ext. intros y _. rewrite Cmod_sq. cbn. ring. Qed.
Lemma norm2_nonneg n psi : (0 <= norm2 n psi)%R.
Proof. rewrite norm2_sum, <- (nsum_0 n). apply nsum_le. intros y _. apply pow2_ge_0. Qed.
Lemma norm2_ext n psi phi : eqs n psi phi -> norm2 n psi = norm2 n phi.
Proof. intros E. unfold norm2. rewrite (inner_ext n psi psi phi phi E E). reflexivity. Qed.
Lemma norm2_scale n z psi : norm2 n (sscale z psi) = (Cmod z ^ 2 * norm2 n psi)%R.
Proof. rewrite !norm2_sum, <- nsum_mul. apply nsum_ext. intros y _. unfold sscale. rewrite !Cmod_sq. cbn. ring. Qed.
Lemma norm2_project n p b psi : (norm2 n (project p b psi) <= norm2 n psi)%R.
Proof.
  rewrite !norm2_sum. apply nsum_le. intros y _. unfold project. destruct (Bool.eqb _ _); [lra|]. rewrite Cmod_sq. cbn. rewrite Rmult_0_l, Rplus_0_l. apply pow2_ge_0.
Qed.
Lemma norm2_ket n x : length x = n -> norm2 n (ket x) = 1%R.
Proof.
  intros E. unfold norm2. rewrite inner_ket by exact E. unfold ket. destruct (list_eq_dec bool_dec x x); [reflexivity|contradiction].
Qed.
Lemma Cmod_rc x : Cmod (rc x) = Rabs x.
Proof. unfold Cmod, rc. cbn. replace (x * x + 0 * 0)%R with (Rsqr x) by (unfold Rsqr; ring). apply sqrt_Rsqr_abs. Qed.

(** ** measuring *)
Definition selects (l : list (nat * bool)) (y : list bool) : bool := forallb (fun pb => Bool.eqb (getb y (fst pb)) (snd pb)) l.
Definition proj (l : list (nat * bool)) (psi : @state CC) : @state CC := fun y => if selects l y then psi y else s0.
(** the state is psi normalised and psi's weight went into the probability *)
Definition measured (P : R) (psi : @state CC) (w : world) : Prop :=
  norm2 (qubits w) psi <> 0%R /\ w_prob w = (P * norm2 (qubits w) psi)%R /\ eqs (qubits w) (w_wave w) (sscale (rc (/ sqrt (norm2 (qubits w) psi))) psi).
Lemma nsum_add n : forall f g, nsum n (fun y => f y + g y)%R = (nsum n f + nsum n g)%R.
Proof. induction n as [|n IH]; intros f g; cbn; [reflexivity|]. rewrite !IH. ring. Qed.
Lemma norm2_split n p b psi : norm2 n psi = (norm2 n (project p b psi) + norm2 n (project p (negb b) psi))%R.
Proof.
  rewrite !norm2_sum, <- nsum_add. apply nsum_ext. intros y _. unfold project. assert (Z : (Cmod (s0 : CC) ^ 2 = 0)%R) by (rewrite Cmod_sq; cbn; ring). destruct (getb y p), b; cbn [negb Bool.eqb]; rewrite Z; ring.
Qed.
Lemma outcome_possible n p psi b : norm2 n psi <> 0%R -> norm2 n (project p (outcome n p psi b) psi) <> 0%R.
Proof.
  intros N. unfold outcome. destruct (Req_EM_T (norm2 n (project p b psi)) 0) as [Z|Z]; [|exact Z]. intros Z'. apply N. rewrite (norm2_split n p b), Z, Z'. ring.
Qed.
Lemma measure_step P psi w q : In q (w_qubits w) -> measured P psi w ->
  exists w' b, measure w q = Ok (w', b) /\ w_qubits w' = w_qubits w /\ measured P (project (qpos (w_qubits w) q) b psi) w'.
Proof.
  intros Hq (NZ & HP & HW). unfold measure. rewrite (proj1 (pos_ok _ _ Hq)). cbn [bind]. set (p := qpos (w_qubits w) q). fold (qubits w). set (n := qubits w) in *. set (b := outcome n p (w_wave w) (hd false (w_outcomes w))).
  eexists _, b. split; [reflexivity|]. split; [reflexivity|]. unfold measured, qubits. cbn [w_prob w_wave w_qubits]. fold (qubits w). fold n. set (psi' := project p b psi).
  pose proof (norm2_nonneg n psi) as N0. pose proof (norm2_nonneg n psi') as N1. pose proof (norm2_project n p b psi) as N2. fold psi' in N2. rewrite HP.
  assert (E : eqs n (project p b (w_wave w)) (sscale (rc (/ sqrt (norm2 n psi))) psi')).
  { intros y Hy. unfold project, psi', sscale. unfold project. rewrite (HW y Hy). unfold sscale. destruct (Bool.eqb (getb y p) b); [reflexivity|]. ring. }
  assert (SP : (0 < sqrt (norm2 n psi))%R) by (apply sqrt_lt_R0; lra).
  assert (SQ : ((/ sqrt (norm2 n psi)) ^ 2 = / norm2 n psi)%R).
  { replace ((/ sqrt (norm2 n psi)) ^ 2)%R with (/ (sqrt (norm2 n psi) * sqrt (norm2 n psi)))%R by (field; lra). rewrite sqrt_sqrt by lra. reflexivity. }
  assert (EP : norm2 n (project p b (w_wave w)) = (norm2 n psi' / norm2 n psi)%R).
  { rewrite (norm2_ext _ _ _ E), norm2_scale, Cmod_rc, pow2_abs, SQ. field. exact NZ. }
  assert (EW : norm2 n (w_wave w) = 1%R).
  { rewrite (norm2_ext _ _ _ HW), norm2_scale, Cmod_rc, pow2_abs, SQ. field. exact NZ. }
  assert (NZ' : norm2 n psi' <> 0%R).
  { intros Z. apply (outcome_possible n p (w_wave w) (hd false (w_outcomes w))); [lra|]. fold b. rewrite EP, Z. field. exact NZ. }
  split; [exact NZ'|]. rewrite EP. split; [field; exact NZ|]. intros y Hy. unfold sscale at 1. rewrite (E y Hy). unfold sscale. change (smul (rc (/ sqrt (norm2 n psi' / norm2 n psi))) (smul (rc (/ sqrt (norm2 n psi))) (psi' y)) = smul (rc (/ sqrt (norm2 n psi'))) (psi' y)).
  transitivity (smul (smul (rc (/ sqrt (norm2 n psi' / norm2 n psi))) (rc (/ sqrt (norm2 n psi)))) (psi' y)); [ring|]. rewrite rc_mul. f_equal. f_equal. rewrite sqrt_div by lra. pose proof (sqrt_lt_R0 (norm2 n psi') ltac:(lra)). field. split; lra.
Qed.
Lemma proj_nil n psi : eqs n (proj [] psi) psi. Proof. intros y _. reflexivity. Qed.
Lemma measured_ext P psi phi w : eqs (qubits w) psi phi -> measured P psi w -> measured P phi w.
Proof.
  intros E (H0 & H1 & H2). unfold measured. rewrite <- (norm2_ext _ _ _ E). split; [exact H0|]. split; [exact H1|]. eapply eqs_trans; [apply H2|]. intros y Hy. unfold sscale. rewrite (E y Hy). reflexivity.
Qed.
Lemma measure_all_run P : forall l psi w, incl l (w_qubits w) -> measured P psi w ->
  exists w' bits, measure_all w l = Ok (w', bits) /\ length bits = length l /\ w_qubits w' = w_qubits w /\ measured P (proj (combine (map (qpos (w_qubits w)) l) bits) psi) w'.
Proof.
  induction l as [|q l IH]; intros psi w I M.
  - exists w, []. repeat split; apply M.
  - destruct (measure_step P psi w q) as (w1 & b & E & Q & M1); [apply I; left; reflexivity|exact M|]. assert (I1 : incl l (w_qubits w1)) by (rewrite Q; intros x Hx; apply I; right; exact Hx). destruct (IH _ w1 I1 M1) as (w2 & bits & E2 & L2 & Q2 & M2).
    exists w2, (b :: bits). cbn [measure_all]. rewrite E. cbn [bind]. rewrite E2. cbn [bind]. split; [reflexivity|]. split; [cbn; lia|]. split; [congruence|]. revert M2. apply measured_ext.
    rewrite Q. intros y _. cbn [map combine]. unfold proj, selects, project. cbn [forallb fst snd]. fold (selects (combine (map (qpos (w_qubits w)) l) bits)). destruct (forallb _ _); [|destruct (Bool.eqb _ _); reflexivity]. rewrite andb_true_r. reflexivity.
Qed.
(** the bits of all qubits, given those of a register with the same qubits *)
Definition arrange (register ids : list nat) (bits : list bool) : list bool := map (fun q => nth (qpos register q) bits false) ids.
Lemma arrange_get register ids bits q : In q ids -> getb (arrange register ids bits) (qpos ids q) = nth (qpos register q) bits false.
Proof.
  intros H. destruct (pos_ok ids q H) as (_ & P1 & P2). unfold getb, arrange. rewrite (nth_indep _ false (nth (qpos register 0) bits false)) by (rewrite map_length; exact P1).
  rewrite (map_nth (fun q => nth (qpos register q) bits false)), P2. reflexivity.
Qed.
Lemma qpos_nth l i : NoDup l -> i < length l -> qpos l (nth i l 0) = i.
Proof.
  intros D H. destruct (pos_ok l (nth i l 0) (nth_In _ _ H)) as (_ & P1 & P2). apply (NoDup_nth l 0); assumption.
Qed.
Lemma arrange_selects register ids bits y : Permutation register ids -> NoDup register -> length bits = length register -> length y = length ids ->
  selects (combine (map (qpos ids) register) bits) y = true <-> y = arrange register ids bits.
Proof.
  intros PE ND LB LY. assert (NI : NoDup ids) by (apply (Permutation_NoDup PE ND)). assert (LL : length register = length ids) by (apply Permutation_length, PE). unfold selects. rewrite forallb_forall. split.
  - intros H. apply bits_eq; [unfold arrange; rewrite map_length; exact LY|]. intros j Hj. rewrite LY in Hj. set (q := nth j ids 0). assert (Hq : In q ids) by (apply nth_In, Hj).
    assert (Hr : In q register) by (apply (Permutation_in _ (Permutation_sym PE)), Hq). rewrite <- (qpos_nth ids j NI Hj). fold q. rewrite arrange_get by exact Hq.
    destruct (pos_ok register q Hr) as (_ & P1 & P2). set (i := qpos register q) in *. specialize (H (qpos ids q, nth i bits false)). cbn [fst snd] in H. apply Bool.eqb_prop, H.
    replace (qpos ids q) with (nth i (map (qpos ids) register) (qpos ids 0)) by (rewrite map_nth, P2; reflexivity). rewrite <- combine_nth by (rewrite map_length; lia). apply nth_In. rewrite combine_length, map_length. lia.
  - intros -> [p b] H. apply In_nth with (d := (qpos ids 0, false)) in H. destruct H as (i & Hi & E). rewrite combine_length, map_length in Hi. rewrite combine_nth in E by (rewrite map_length; lia). rewrite map_nth in E. injection E as <- <-. cbn [fst snd].
    assert (Hi' : i < length register) by lia. rewrite arrange_get by (apply (Permutation_in _ PE), nth_In; exact Hi'). rewrite qpos_nth by assumption. apply Bool.eqb_reflx.
Qed.
Lemma arrange_zero register ids bits : Permutation register ids -> NoDup register -> length bits = length register -> (forallb negb bits = true <-> arrange register ids bits = zeros (length ids)).
Proof.
  intros PE ND LB. assert (LL : length register = length ids) by (apply Permutation_length, PE). rewrite forallb_forall. split.
  - intros H. unfold arrange, zeros. clear -H. induction ids as [|q l IH]; [reflexivity|]. cbn. rewrite IH. f_equal. destruct (nth_in_or_default (qpos register q) bits false) as [I|E]; [specialize (H _ I); destruct (nth _ _ _); [discriminate|reflexivity]|exact E].
  - intros E b Hb. apply In_nth with (d := false) in Hb. destruct Hb as (i & Hi & <-). assert (Hi' : i < length register) by lia. rewrite <- (qpos_nth register i ND Hi').
    rewrite <- (arrange_get register ids) by (apply (Permutation_in _ PE), nth_In; exact Hi'). rewrite E. unfold getb, zeros. assert (Z : forall k m, nth m (repeat false k) false = false) by (clear; induction k; intros [|m]; cbn; auto). rewrite Z. reflexivity.
Qed.
(** measuring a register with all qubits *)
Lemma measure_register register w : Permutation register (w_qubits w) -> NoDup register -> norm2 (qubits w) (w_wave w) = 1%R ->
  exists w' bits, measure_all w register = Ok (w', bits) /\ length bits = length register /\ w_qubits w' = w_qubits w /\
    let x := arrange register (w_qubits w) bits in
    Cmod (w_wave w x) <> 0%R /\ w_prob w' = (w_prob w * Cmod (w_wave w x) ^ 2)%R /\ is_ket (qubits w) x (w_wave w').
Proof.
  intros PE ND N1. assert (M : measured (w_prob w) (w_wave w) w).
  { split; [rewrite N1; lra|]. split; [rewrite N1; ring|]. intros y _. rewrite N1, sqrt_1, Rinv_1. unfold sscale. change (rc 1) with (s1 : CC). ring. }
  destruct (measure_all_run (w_prob w) register (w_wave w) w) as (w' & bits & E & LB & Q & M'); [intros q Hq; apply (Permutation_in _ PE), Hq|exact M|].
  exists w', bits. split; [exact E|]. split; [exact LB|]. split; [exact Q|]. set (x := arrange register (w_qubits w) bits). cbn zeta. assert (LX : length x = qubits w) by (unfold x, arrange; apply map_length).
  assert (EX : eqs (qubits w) (proj (combine (map (qpos (w_qubits w)) register) bits) (w_wave w)) (sscale (w_wave w x) (ket x))).
  { intros y Hy. unfold proj, sscale, ket. pose proof (arrange_selects register (w_qubits w) bits y PE ND LB Hy) as S1. fold x in S1. destruct (selects _ y), (list_eq_dec bool_dec y x) as [->|N].
    - ring.
    - exfalso. apply N, S1. reflexivity.
    - exfalso. assert (false = true) by (apply S1; reflexivity). discriminate.
    - ring. }
  assert (M2 : measured (w_prob w) (sscale (w_wave w x) (ket x)) w'). { revert M'. apply measured_ext. unfold qubits. rewrite Q. exact EX. }
  assert (QQ : qubits w' = qubits w) by (unfold qubits; rewrite Q; reflexivity). unfold measured in M2. rewrite QQ, norm2_scale, norm2_ket in M2 by exact LX. destruct M2 as (MN & MP & MW). rewrite Rmult_1_r in *.
  assert (NZ : Cmod (w_wave w x) <> 0%R) by (intros C0; apply MN; rewrite C0; ring). split; [exact NZ|]. split; [exact MP|]. split; [exact LX|]. exists (smul (rc (/ sqrt (Cmod (w_wave w x) ^ 2))) (w_wave w x)). split.
  - assert (C0 : (0 <= Cmod (w_wave w x))%R) by apply sqrt_pos. rewrite sqrt_pow2 by exact C0. set (z := w_wave w x) in *. set (c := Cmod z) in *.
    assert (E2 : (Cmod (smul (rc (/ c)) z) ^ 2 = 1)%R). { rewrite Cmod_sq. unfold rc. cbn. transitivity ((/ c) ^ 2 * (fst z * fst z + snd z * snd z))%R; [ring|]. rewrite <- Cmod_sq. fold c. field. exact NZ. }
    assert (C1 : (0 <= Cmod (smul (rc (/ c)) z))%R) by apply sqrt_pos. nra.
  - eapply eqs_trans; [exact MW|]. intros y _. unfold sscale. ring.
Qed.
