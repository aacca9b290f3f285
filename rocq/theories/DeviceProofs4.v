(** Resetting the register; one trial; many trials. *)
From Verif Require Import Py Scalar PauliModel PauliSpec EncoderProofs CircuitModel CircuitSpec CircuitProofs CircuitProofs2 OptimModel ChoiProofs2 DeviceModel DeviceSpec DeviceProofs DeviceProofs2 DeviceProofs3.
From Coq Require Import Reals Lra Permutation.
Open Scope nat_scope.
Add Ring CCring21 : (s_rt CC).

(** ** basis states *)
Lemma bit_lists_in n : forall y, length y = n -> In y (bit_lists n).
Proof.
  induction n as [|n IH]; intros y H; [destruct y; [left; reflexivity|discriminate]|]. destruct y as [|b y]; [discriminate|]. injection H as H. cbn. apply in_or_app. destruct b; [right|left]; apply in_map, IH, H.
Qed.
Lemma bit_lists_length n : forall y, In y (bit_lists n) -> length y = n.
Proof.
  induction n as [|n IH]; intros y H; cbn in H; [destruct H as [<-|[]]; reflexivity|]. apply in_app_or in H. destruct H as [H|H]; apply in_map_iff in H; destruct H as (z & <- & H); cbn; rewrite (IH z H); reflexivity.
Qed.
Lemma Cmod_0 (z : CC) : Cmod z = 0%R <-> z = s0.
Proof.
  split.
  - intros H. assert (E : (Cmod z ^ 2 = 0)%R) by (rewrite H; ring). rewrite Cmod_sq in E. destruct z as [x y]. cbn in *. assert (x = 0%R) by nra. assert (y = 0%R) by nra. subst. reflexivity.
  - intros ->. unfold Cmod. cbn. rewrite Rmult_0_l, Rplus_0_l. apply sqrt_0.
Qed.
Lemma czero_true (z : CC) : czero z = true <-> z = s0.
Proof. unfold czero. destruct (Req_EM_T (Cmod z) 0) as [E|E]; rewrite <- Cmod_0; split; intros H; auto; try discriminate; contradiction. Qed.
Lemma is_classical_iff n p psi : is_classical n p psi = true <-> exists b, forall y, length y = n -> getb y p = b \/ psi y = s0.
Proof.
  unfold is_classical. rewrite orb_true_iff, !forallb_forall. split.
  - intros [H|H].
    + exists true. intros y Hy. specialize (H y (bit_lists_in n y Hy)). apply orb_true_iff in H. rewrite czero_true in H. exact H.
    + exists false. intros y Hy. specialize (H y (bit_lists_in n y Hy)). apply orb_true_iff in H. rewrite czero_true, negb_true_iff in H. exact H.
  - intros [[|] H]; [left|right]; intros y Hy; apply orb_true_iff; rewrite czero_true, ?negb_true_iff; apply H, bit_lists_length, Hy.
Qed.
Lemma is_ket_classical n x psi p : is_ket n x psi -> is_classical n p psi = true.
Proof.
  intros (_ & z & _ & E). apply is_classical_iff. exists (getb x p). intros y Hy. rewrite (E y Hy). unfold sscale, ket. destruct (list_eq_dec bool_dec y x) as [->|]; [left; reflexivity|right; ring].
Qed.
Lemma is_ket_norm n x psi : is_ket n x psi -> norm2 n psi = 1%R.
Proof. intros (LX & z & Z & E). rewrite (norm2_ext _ _ _ E), norm2_scale, norm2_ket, Z by exact LX. ring. Qed.
(** two basis states of non-zero amplitude: deallocation raises *)
Lemma not_classical w x y : length x = qubits w -> length y = qubits w -> x <> y -> w_wave w x <> s0 -> w_wave w y <> s0 -> deallocate_all w = Err RuntimeError.
Proof.
  intros LX LY N NX NY. unfold deallocate_all. fold (qubits w). assert (E : forallb (fun p => is_classical (qubits w) p (w_wave w)) (seq 0 (qubits w)) = false).
  { destruct (forallb _ _) eqn:E; [|reflexivity]. exfalso. rewrite forallb_forall in E. apply N. apply bits_eq; [congruence|]. rewrite LX. intros p Hp. assert (Ip : In p (seq 0 (qubits w))) by (apply in_seq; lia). specialize (E p Ip). apply is_classical_iff in E. destruct E as [b E].
    destruct (E x LX) as [<-|]; [|contradiction]. destruct (E y LY) as [Ey|]; [auto|contradiction]. }
  rewrite E. reflexivity.
Qed.

(** ** resetting *)
Lemma add_zero m (z : CC) (psi : @state CC) : eqs m psi (sscale z (zero_ket m)) -> eqs (S m) (add_qubit m psi) (sscale z (zero_ket (S m))).
Proof.
  intros E y Hy. unfold add_qubit, sscale, zero_ket, ket. assert (Ey : y = firstn m y ++ [getb y m]).
  { unfold getb. rewrite <- (firstn_skipn m y) at 1. f_equal. assert (L : length (skipn m y) = 1) by (rewrite skipn_length; lia). rewrite <- (firstn_skipn m y) at 2. rewrite app_nth2 by (rewrite firstn_length; lia). rewrite firstn_length, Nat.min_l, Nat.sub_diag by lia. destruct (skipn m y) as [|b [|]]; try discriminate. reflexivity. }
  assert (R1 : repeat false (S m) = repeat false m ++ [false]) by (clear; induction m; [reflexivity|cbn in *; f_equal; assumption]).
  destruct (getb y m) eqn:B.
  - destruct (list_eq_dec bool_dec y (repeat false (S m))) as [Q|_]; [|ring]. exfalso. rewrite Q in B. unfold getb in B. assert (Z : forall k i, nth i (repeat false k) false = false) by (clear; induction k; intros [|i]; cbn; auto). rewrite Z in B. discriminate.
  - rewrite E by (rewrite firstn_length; lia). unfold sscale, zero_ket, ket. destruct (list_eq_dec bool_dec (firstn m y) (repeat false m)) as [Q|Q], (list_eq_dec bool_dec y (repeat false (S m))) as [Q'|Q']; try ring; exfalso.
    + apply Q'. rewrite Ey, Q, R1. reflexivity.
    + apply Q. rewrite Q', R1, firstn_app, repeat_length, Nat.sub_diag, firstn_O, app_nil_r. apply firstn_all2. rewrite repeat_length. lia.
Qed.
Lemma allocate_run n : forall w (z : CC), eqs (qubits w) (w_wave w) (sscale z (zero_ket (qubits w))) ->
  exists w', allocate_qureg n w = (w', seq (w_next w) n) /\ w_qubits w' = w_qubits w ++ seq (w_next w) n /\ w_next w' = w_next w + n /\ w_prob w' = w_prob w /\ w_outcomes w' = w_outcomes w /\ w_draws w' = w_draws w /\
    eqs (qubits w + n) (w_wave w') (sscale z (zero_ket (qubits w + n))).
Proof.
  induction n as [|n IH]; intros w z E.
  - exists w. cbn. rewrite app_nil_r, !Nat.add_0_r. repeat split. exact E.
  - assert (Q : qubits (allocate w) = S (qubits w)) by (unfold qubits, allocate; cbn; rewrite app_length; cbn; lia).
    destruct (IH (allocate w) z) as (w' & A & Q1 & Q2 & Q3 & Q4 & Q5 & Q6); [rewrite Q; apply add_zero, E|]. exists w'. cbn [allocate_qureg]. rewrite A. cbn [allocate w_next w_qubits w_prob w_outcomes w_draws] in *. split; [reflexivity|]. split; [rewrite Q1, <- app_assoc; reflexivity|]. split; [lia|]. repeat split; try assumption.
    rewrite Q in Q6. replace (qubits w + S n) with (S (qubits w) + n) by lia. exact Q6.
Qed.
Lemma reset_run a cheat w : can_start a cheat w -> exists a1 w1, set_register_to_zero a cheat w = Ok (a1, w1) /\ all_zero a1 w1 /\ a_numb a1 = a_numb a /\ a_real a1 = a_real a /\
  w_prob w1 = w_prob w /\ w_outcomes w1 = w_outcomes w /\ w_draws w1 = w_draws w /\ (cheat = true \/ a_real a = true -> a1 = a /\ w_qubits w1 = w_qubits w).
Proof.
  unfold can_start, set_register_to_zero. destruct (a_real a) eqn:RD; [intros H; exists a, w; repeat split; auto; apply H|]. destruct cheat.
  - intros (PE & ND & LN). unfold set_wavefunction_zero. rewrite (Permutation_length PE), Nat.eqb_refl. rewrite (proj2 (forallb_forall _ _)).
    2: { intros q Hq. apply existsb_exists. exists q. split; [apply (Permutation_in _ PE), Hq|apply Nat.eqb_refl]. }
    cbn [andb guard bind]. do 2 eexists. split; [reflexivity|]. split; [|repeat split]; [|exact RD]. split; [exact PE|]. split; [exact ND|]. split; [exact LN|].
    unfold qubits. cbn [w_qubits set_wave w_wave]. split; [apply repeat_length|]. exists s1. split; [unfold Cmod; cbn; replace (1 * 1 + 0 * 0)%R with 1%R by ring; apply sqrt_1|]. intros y _. unfold sscale, zero_ket, zeros. ring.
  - intros [x K]. unfold deallocate_all. fold (qubits w). rewrite (proj2 (forallb_forall _ _)) by (intros p _; apply (is_ket_classical _ _ _ _ K)). cbn [guard bind].
    destruct K as (LX & z & Z & E). set (w1 := World [] _ _ _ _ _). destruct (allocate_run (a_numb a) w1 z) as (w' & A & Q1 & Q2 & Q3 & Q4 & Q5 & Q6).
    { intros y Hy. cbn [w1 qubits w_qubits length] in Hy. destruct y; [|discriminate]. cbn [w1 w_wave]. rewrite (isum_ext (qubits w) _ (fun y => smul (ket x y) z)) by (intros y Hy'; rewrite (E y Hy'); unfold sscale; ring). rewrite isum_ket by exact LX. unfold sscale, zero_ket, ket, w1, qubits. cbn [w_qubits length repeat]. destruct (list_eq_dec bool_dec [] []) as [_|N]; [ring|contradiction]. }
    rewrite A. do 2 eexists. split; [reflexivity|]. cbn [a_register a_numb a_real]. cbn [w1 w_prob w_outcomes w_draws w_qubits List.app] in *. split; [|repeat split]; try assumption.
    + unfold all_zero, qubits. rewrite Q1. cbn [a_register a_numb]. cbn [List.app]. split; [apply Permutation_refl|]. split; [apply seq_NoDup|]. rewrite seq_length. split; [reflexivity|]. split; [apply repeat_length|]. exists z. split; [exact Z|exact Q6].
    + destruct H as [H|H]; discriminate.
    + destruct H as [H|H]; discriminate.
Qed.

(** ** numbers of rounds *)
Lemma numb_times_ok n eps : 1 <= n -> (0 < eps)%R -> exists m, numb_times n eps = Ok m.
Proof.
  intros H E. unfold numb_times. rewrite (proj2 (Nat.eqb_neq n 0)) by lia. destruct (Req_EM_T eps 0); [lra|]. unfold Rltb. destruct (Rlt_dec eps 0); [lra|]. eauto.
Qed.
Lemma placed_exists register ids : incl register ids -> forall w, w_qubits w = ids -> placed (map (qpos ids) register) register w.
Proof.
  intros I w Q. unfold placed. rewrite Q. clear Q. induction register as [|q l IH]; [constructor|]. cbn. constructor; [|apply IH; intros x Hx; apply I; right; exact Hx]. destruct (pos_ok ids q) as (_ & P1 & P2); [apply I; left; reflexivity|]. rewrite (nth_error_nth' ids 0 P1), P2. reflexivity.
Qed.

(** ** one trial, from the state the register starts in *)
Lemma design_spec a eps w : Permutation (a_register a) (w_qubits w) -> NoDup (a_register a) -> a_numb a = length (a_register a) -> 1 <= a_numb a -> (0 < eps)%R ->
  exists Cf Cb d' phases, Forall (on_qubits (w_qubits w)) Cf /\ Forall (on_qubits (w_qubits w)) Cb /\ (forall psi, eqs (qubits w) (gacts (w_qubits w) Cb (gacts (w_qubits w) Cf psi)) psi) /\
    approximate_unitary_two_design a eps w = Ok (set_draws (set_wave w (gacts (w_qubits w) Cf (w_wave w))) d', phases) /\
    (forall w', w_qubits w' = w_qubits w -> inverse_of_unitary_two_design a phases w' = Ok (set_wave w' (gacts (w_qubits w) Cb (w_wave w')))).
Proof.
  intros PE ND LN N1 EP. destruct (numb_times_ok (a_numb a) eps N1 EP) as [m M].
  destruct (rounds_run (a_register a) (w_qubits w) (a_numb a) (eq_sym LN) ND) with (t := Z.to_nat m) (d := w_draws w) as (Cf & Cb & d' & used & LU & OF & OB & CA & RF & RB); [intros q Hq; apply (Permutation_in _ PE), Hq|].
  exists Cf, Cb, d', (rev used). split; [exact OF|]. split; [exact OB|]. split; [exact CA|]. split.
  - unfold approximate_unitary_two_design. rewrite M. cbn [bind]. rewrite RF by reflexivity. reflexivity.
  - intros w' Q. apply RB; auto.
Qed.

Lemma Cmod_mul (x y : CC) : Cmod (smul x y) = (Cmod x * Cmod y)%R.
Proof.
  assert (H : (Cmod (smul x y) ^ 2 = (Cmod x * Cmod y) ^ 2)%R). { rewrite Rpow_mult_distr, !Cmod_sq. destruct x, y. cbn. ring. }
  assert (0 <= Cmod (smul x y))%R by apply sqrt_pos. assert (0 <= Cmod x)%R by apply sqrt_pos. assert (0 <= Cmod y)%R by apply sqrt_pos. assert (0 <= Cmod x * Cmod y)%R by (apply Rmult_le_pos; assumption). nra.
Qed.
Lemma Cmod_conj (x : CC) : Cmod (sconj x) = Cmod x.
Proof. unfold Cmod. f_equal. destruct x. cbn. ring. Qed.
Lemma inner_ket_l n x (z : CC) psi : length x = n -> inner n (sscale z (ket x)) psi = smul (sconj z) (psi x).
Proof.
  intros LX. unfold inner. rewrite (isum_ext n _ (fun y => smul (ket x y) (smul (sconj z) (psi y)))); [apply (isum_ket n x (fun y => smul (sconj z) (psi y)) LX)|].
  intros y _. unfold sscale, ket. rewrite sconj_mul. destruct (list_eq_dec bool_dec y x); [rewrite sconj_1|rewrite sconj_0]; ring.
Qed.

(** ** one trial, after the register was reset; the channel changes the state only *)
Lemma trial_rest a w eps (V : list nat -> @state CC -> @state CC) g : Permutation (a_register a) (w_qubits w) -> NoDup (a_register a) -> a_numb a = length (a_register a) -> 1 <= a_numb a -> (0 < eps)%R ->
  norm2 (qubits w) (w_wave w) = 1%R -> acts_as (qubits w) g V -> keeps_norm (qubits w) V ->
  exists ps w2 phases w3 w4 w5 bits, placed ps (a_register a) w /\
    approximate_unitary_two_design a eps w = Ok (w2, phases) /\ g (a_register a) w2 = Ok w3 /\ inverse_of_unitary_two_design a phases w3 = Ok w4 /\ measure_all w4 (a_register a) = Ok (w5, bits) /\
    length bits = a_numb a /\ w_qubits w5 = w_qubits w /\
    let x := arrange (a_register a) (w_qubits w) bits in
    (forall x0 z, length x0 = qubits w -> Cmod z = 1%R -> eqs (qubits w) (w_wave w) (sscale z (ket x0)) -> x = x0 ->
       w_prob w5 = (w_prob w * Cmod (inner (qubits w) (w_wave w2) (V ps (w_wave w2))) ^ 2)%R) /\
    Cmod (w_wave w4 x) <> 0%R /\ w_prob w5 = (w_prob w * Cmod (w_wave w4 x) ^ 2)%R /\
    ((forall ps psi, eqs (qubits w) (V ps psi) psi) -> eqs (qubits w) (w_wave w4) (w_wave w)) /\
    is_ket (qubits w) x (w_wave w5).
Proof.
  intros PE ND LN N1 EP NW (VP & AV) KV. destruct (design_spec a eps w PE ND LN N1 EP) as (Cf & Cb & d' & phases & OF & OB & CA & RF & RB). set (ids := w_qubits w) in *. set (n := qubits w) in *.
  set (w2 := set_draws (set_wave w (gacts ids Cf (w_wave w))) d') in *. assert (I : incl (a_register a) ids) by (intros q Hq; apply (Permutation_in _ PE), Hq).
  set (ps := map (qpos ids) (a_register a)). destruct (AV ps (a_register a) w2 eq_refl ND PE (placed_exists _ _ I w2 eq_refl)) as (w3 & G & (S1 & S2 & S3 & S4) & EW). cbn [w2 set_draws set_wave w_qubits w_next w_prob w_outcomes w_wave] in S1, S2, S3, S4. fold ids in S1.
  specialize (RB w3 S1). set (w4 := set_wave w3 (gacts ids Cb (w_wave w3))) in *.
  assert (Q4 : w_qubits w4 = ids) by exact S1. assert (QQ4 : qubits w4 = n) by (unfold qubits; rewrite Q4; reflexivity).
  assert (IN4 : norm2 (qubits w4) (w_wave w4) = 1%R).
  { rewrite QQ4. unfold norm2, w4. cbn [set_wave w_wave]. change n with (length ids). rewrite gacts_inner by exact OB. rewrite (inner_ext (length ids) _ _ _ _ EW EW), KV. cbn [w2 set_draws set_wave w_wave]. change n with (length ids). rewrite gacts_inner by exact OF. exact NW. }
  destruct (measure_register (a_register a) w4) as (w5 & bits & E & LB & Q5 & MN & MP & MK); [rewrite Q4; exact PE|exact ND|exact IN4|].
  exists ps, w2, phases, w3, w4, w5, bits. split; [apply placed_exists; [exact I|reflexivity]|]. split; [exact RF|]. split; [exact G|]. split; [exact RB|]. split; [exact E|]. split; [congruence|]. split; [congruence|]. cbn zeta. rewrite Q4 in MN, MP, MK. fold ids.
  assert (P4 : w_prob w4 = w_prob w) by exact S3. rewrite P4 in MP. rewrite QQ4 in MK. split; [|split; [exact MN|split; [exact MP|split; [|exact MK]]]].
  - intros x0 z L0 Z E0 EX. rewrite MP, EX. f_equal. f_equal.
    transitivity (Cmod (inner n (w_wave w) (w_wave w4))); [rewrite (inner_ext n _ (w_wave w4) _ _ E0 (eqs_refl _ _)), inner_ket_l, Cmod_mul, Cmod_conj, Z by exact L0; ring|]. f_equal.
    rewrite <- (inner_ext n _ (w_wave w4) _ _ (CA (w_wave w)) (eqs_refl _ _)). unfold w4. cbn [set_wave w_wave]. change n with (length ids). rewrite gacts_inner by exact OB. apply inner_ext; [apply eqs_refl|exact EW].
  - intros VI. unfold w4. cbn [set_wave w_wave]. eapply eqs_trans; [apply gacts_eqs; eapply eqs_trans; [exact EW|apply VI]|]. apply CA.
Qed.
