(** The expected fidelity estimate (PyQCodes/device_adaptor.py L138-272). *)
From Verif Require Import Py Scalar PauliModel PauliSpec EncoderProofs CircuitModel CircuitSpec CircuitProofs CircuitProofs2 ChannelModel OptimModel ChoiProofs2 DeviceModel DeviceSpec DeviceProofs DeviceProofs2 DeviceProofs3 DeviceProofs4 DeviceProofs5 DeviceProofs6 PropsDevice TwirlSpec TwirlProofs TwirlProofs2 TwirlProofs3 TwirlProofs4.
From Coq Require Import Reals Lra Permutation.
Open Scope nat_scope.
Add Ring CCring80 : (s_rt CC).

Lemma allocate_luck m : forall w d o, allocate_qureg m (with_luck w d o) = (with_luck (fst (allocate_qureg m w)) d o, snd (allocate_qureg m w)).
Proof.
  induction m as [|m IH]; intros w d o; [reflexivity|]. cbn [allocate_qureg]. change (allocate (with_luck w d o)) with (with_luck (allocate w) d o). rewrite IH. destruct (allocate_qureg m (allocate w)). reflexivity.
Qed.
Lemma reset_luck a cheat w a1 w1 d o : set_register_to_zero a cheat w = Ok (a1, w1) -> set_register_to_zero a cheat (with_luck w d o) = Ok (a1, with_luck w1 d o).
Proof.
  unfold set_register_to_zero. destruct (a_real a); [intros [= <- <-]; reflexivity|]. destruct cheat.
  - unfold set_wavefunction_zero. change (w_qubits (with_luck w d o)) with (w_qubits w). destruct (guard _ _); [|discriminate]. cbn [bind]. intros [= <- <-]. reflexivity.
  - unfold deallocate_all. change (w_qubits (with_luck w d o)) with (w_qubits w). change (w_wave (with_luck w d o)) with (w_wave w). destruct (guard _ _); [|discriminate]. cbn [bind w_next w_prob with_luck w_outcomes w_draws].
    set (v := World [] (w_next w) _ (w_prob w) (w_outcomes w) (w_draws w)). pose proof (allocate_luck (a_numb a) v d o) as E. unfold with_luck in E at 1. cbn [v w_qubits w_next w_wave w_prob] in E. unfold with_luck. cbn [w_qubits w_next w_prob]. rewrite E. destruct (allocate_qureg (a_numb a) v). intros [= <- <-]. reflexivity.
Qed.
Lemma placed_unique ps : forall ps' register w, NoDup (w_qubits w) -> placed ps register w -> placed ps' register w -> ps = ps'.
Proof.
  intros ps' register w ND. unfold placed. revert ps' register. induction ps as [|p ps IH]; intros ps' register H H'; inversion H; subst; inversion H'; subst; [reflexivity|].
  f_equal; [|eapply IH; eassumption]. match goal with A : nth_error _ p = Some ?q, B : nth_error _ ?p' = Some ?q |- _ => apply (proj1 (NoDup_nth_error _) ND); [apply nth_error_Some; congruence|congruence] end.
Qed.
Lemma round_count n eps m : 1 <= n -> (0 < eps)%R -> (IZR m - 1 < log2 (1 / eps) / INR n <= IZR m)%R -> numb_times n eps = Ok (2 * m + 1)%Z.
Proof.
  intros N1 EP B. unfold numb_times. rewrite (proj2 (Nat.eqb_neq n 0)) by lia. destruct (Req_EM_T eps 0); [lra|]. unfold Rltb. destruct (Rlt_dec eps 0); [lra|]. do 3 f_equal. f_equal.
  unfold ceiling. set (x := (log2 (1 / eps) / INR n)%R) in *. pose proof (base_Int_part (- x)) as [B1 B2].
  assert (L1 : (IZR (- Int_part (- x)) < IZR (m + 1))%R) by (rewrite opp_IZR, plus_IZR; lra). assert (L2 : (IZR (m - 1) < IZR (- Int_part (- x)))%R) by (rewrite opp_IZR, minus_IZR; lra). apply lt_IZR in L1, L2. lia.
Qed.
Lemma enough_rounds n eps l : 1 <= n -> (0 < eps)%R -> (log2 (1 / eps) / INR n <= INR l)%R -> ((/ 2 ^ n) ^ (2 * l) <= eps ^ 2)%R.
Proof.
  intros N1 EP B. assert (N0 : (0 < INR n)%R) by (apply lt_0_INR; lia). assert (L2 : (0 < ln 2)%R) by (rewrite <- ln_1; apply ln_increasing; lra).
  assert (H : (ln (1 / eps) <= ln (2 ^ (n * l)))%R).
  { rewrite ln_pow by lra. rewrite mult_INR. unfold log2 in B. apply (Rmult_le_compat_r (INR n * ln 2)) in B; [|nra]. replace (ln (1 / eps) / ln 2 / INR n * (INR n * ln 2))%R with (ln (1 / eps)) in B by (field; lra). lra. }
  assert (P : (0 < 2 ^ (n * l))%R) by (apply pow_lt; lra). assert (I : (0 < 1 / eps)%R) by (apply Rdiv_lt_0_compat; lra).
  assert (Q : (1 / eps <= 2 ^ (n * l))%R). { destruct (Rle_lt_dec (1 / eps) (2 ^ (n * l))) as [C|C]; [exact C|]. apply ln_increasing in C; [lra|exact P]. }
  replace (2 * l) with (l * 2) by lia. rewrite pow_mult. rewrite pow_inv, <- pow_mult. assert (K : (/ 2 ^ (n * l) <= eps)%R). { apply (Rmult_le_reg_r (2 ^ (n * l))); [exact P|]. rewrite Rinv_l by lra. apply (Rmult_le_compat_l eps) in Q; [|lra]. replace (eps * (1 / eps))%R with 1%R in Q by (field; lra). lra. }
  assert (0 < / 2 ^ (n * l))%R by (apply Rinv_0_lt_compat, P). apply pow_incr. lra.
Qed.
Lemma expected_between r : forall f, Forall (fun k => 0 < k)%nat r -> (forall d, 0 <= f d <= 1)%R -> (0 <= expected r f <= 1)%R.
Proof.
  induction r as [|k r IH]; intros f F B; cbn [expected]; [apply B|]. inversion F as [|? ? K0 F']; subst.
  assert (S : forall l : list nat, (0 <= fold_right Rplus 0 (map (fun i => expected r (fun d => f (i :: d))) l) <= INR (length l))%R).
  { induction l as [|i l IHl]; [cbn; lra|]. cbn [map fold_right length]. rewrite S_INR. pose proof (IH (fun d => f (i :: d)) F' ltac:(intros; apply B)). lra. }
  specialize (S (seq 0 k)). rewrite seq_length in S. assert (P : (0 < INR k)%R) by (apply lt_0_INR; exact K0). set (x := fold_right _ _ _) in *.
  split; [apply Rmult_le_pos; [lra|apply Rlt_le, Rinv_0_lt_compat, P]|]. apply (Rmult_le_reg_r (INR k)); [exact P|]. unfold Rdiv. rewrite Rmult_assoc, Rinv_l by lra. lra.
Qed.
Lemma ranges_positive n t : Forall (fun k => 0 < k)%nat (design_ranges n t).
Proof. unfold design_ranges. apply Forall_concat. apply Forall_forall. intros l H. apply repeat_spec in H. subst l. unfold round_ranges. apply Forall_app. split; apply Forall_forall; intros k H; apply repeat_spec in H; lia. Qed.
Lemma expected_ext r : forall f g, (forall d, f d = g d) -> expected r f = expected r g.
Proof. induction r as [|k r IH]; intros f g H; cbn [expected]; [apply H|]. f_equal. f_equal. apply map_ext. intros i. apply IH. intros d. apply H. Qed.

(** ** C144 *)
(** With m = ceiling(log2(1/epsilon)/n), over the draws of the random phases, all equally likely: the expected probability
    that a trial counts is within epsilon^2 of the average fidelity, and it is known exactly. *)
Theorem C144_expected a cheat w epsilon g V m : can_start a cheat w -> 1 <= a_numb a -> (0 < epsilon)%R -> acts_as (a_numb a) g V -> keeps_norm (a_numb a) V ->
  (IZR m - 1 < log2 (1 / epsilon) / INR (a_numb a) <= IZR m)%R ->
  exists p ps a1 w1, set_register_to_zero a cheat w = Ok (a1, w1) /\ placed ps (a_register a1) w1 /\ succeeds_with a (Two g) epsilon cheat w p /\
    forall A, is_matrix (a_numb a) (V ps) A ->
      let mean := expected (design_ranges (a_numb a) (Z.to_nat (2 * m + 1))) p in
      (Rabs (mean - average_fidelity (a_numb a) A) <= epsilon ^ 2)%R /\
      ((1 <= m)%Z -> mean = (average_fidelity (a_numb a) A + (/ 2 ^ a_numb a) ^ Z.to_nat (2 * m) * (hadamard_fidelity (a_numb a) A - average_fidelity (a_numb a) A))%R).
Proof.
  intros CS N1 EP AV KV B. destruct (reset_run a cheat w CS) as (a1 & w1 & RS & AZ & AN & AR & P1 & O1 & D1 & _). pose proof AZ as (PE & ND & LN & KZ).
  assert (QN : qubits w1 = a_numb a) by (unfold qubits; rewrite <- (Permutation_length PE); congruence). assert (NDQ : NoDup (w_qubits w1)) by (apply (Permutation_NoDup PE ND)).
  destruct KZ as (LZ & z & Z1 & KE). rewrite QN in KE, LZ. set (n := a_numb a) in *. set (t := Z.to_nat (2 * m + 1)).
  assert (LR : length (a_register a1) = n) by congruence.
  set (ps := map (qpos (w_qubits w1)) (a_register a1)). assert (PL : placed ps (a_register a1) w1) by (apply placed_exists; [intros q Hq; apply (Permutation_in _ PE), Hq|reflexivity]).
  set (u := fun d => after (a_register a1) (w_qubits w1) n t d (w_wave w1)). exists (fun d => Cmod (inner n (u d) (V ps (u d))) ^ 2)%R, ps, a1, w1. split; [exact RS|]. split; [exact PL|].
  assert (AD : forall d o w2 phases, approximate_unitary_two_design a1 epsilon (with_luck w1 d o) = Ok (w2, phases) -> w_wave w2 = u d).
  { intros d o w2 phases H. unfold approximate_unitary_two_design in H. rewrite AN in H. fold n in H. rewrite (round_count n epsilon m N1 EP B) in H. cbn [bind] in H. fold t in H. apply bind_ok in H. destruct H as ([w' used] & H & [= <- <-]).
    pose proof (after_run (a_register a1) (w_qubits w1) n LR PE t (with_luck w1 d o) w' used eq_refl H) as E. exact E. }
  assert (CSL : forall d o, can_start a cheat (with_luck w d o)) by (intros d o; exact CS).
  split.
  - intros d o. destruct (trial_run a cheat (with_luck w d o) epsilon g V (CSL d o) N1 EP AV KV) as (a1' & w1' & w2 & phases & ps' & w5 & zz & x & RS' & AZ' & AN1 & AR' & PL' & E2 & TR & Q5 & B1 & B2 & B3 & B4 & _).
    rewrite (reset_luck _ _ _ _ _ d o RS) in RS'. injection RS' as <- <-. assert (ps' = ps) as -> by (apply (placed_unique _ _ _ _ NDQ PL' PL)). rewrite (AD d o w2 phases E2) in B1, B2. fold n in B1, B2.
    exists a1, w5, (if zz then 1%R else 0%R). split. { unfold estimate_average_fidelity. change (Z.to_nat 1) with 1. cbn [trials]. rewrite TR. cbn [bind Z.eqb]. f_equal. f_equal. destruct zz; cbn [INR]; field. }
    split; [destruct zz; auto|]. split; [destruct zz; [intros _; apply (B1 eq_refl)|lra]|]. split.
    + intros NZ OZ. rewrite B2; [reflexivity| |exact OZ]. intros H0. apply NZ. rewrite H0, (proj2 (Cmod_0 _) eq_refl). ring.
    + intros P0 W0. destruct zz; [|reflexivity]. exfalso. apply (B4 W0). rewrite (B1 eq_refl), P0. ring.
  - intros A VA mean. assert (KV' : forall psi, inner n (V ps psi) (V ps psi) = inner n psi psi) by (intros psi; apply KV).
    assert (ZZ : smul z (sconj z) = (s1 : CC)) by (rewrite modsq, Z1; apply CC_eq; cbn; ring).
    assert (KE' : eqs n (w_wave w1) (sscale z (zero_ket n))) by exact KE.
    assert (OV : forall d, inner n (u d) (V ps (u d)) = overlap n A (u d)) by (intros d; unfold overlap; apply inner_ext; [apply eqs_refl|apply VA]).
    assert (ME : mean = expected (design_ranges n t) (fun d => Cmod (overlap n A (u d)) ^ 2)%R) by (unfold mean; apply expected_ext; intros d; cbn beta; rewrite OV; reflexivity).
    split.
    + destruct (Z_lt_le_dec m 1) as [M0|M1].
      * assert (E1 : (1 <= epsilon)%R). { destruct (Rle_lt_dec 1 epsilon) as [C|C]; [exact C|]. exfalso. assert (0 < log2 (1 / epsilon))%R. { unfold log2. apply Rdiv_lt_0_compat; rewrite <- ln_1; apply ln_increasing; try lra. apply (Rmult_lt_reg_r epsilon); [lra|]. replace (1 / epsilon * epsilon)%R with 1%R by (field; lra). lra. }
          assert (0 < log2 (1 / epsilon) / INR n)%R by (apply Rdiv_lt_0_compat; [assumption|apply lt_0_INR; lia]). assert (IZR m <= 0)%R by (apply IZR_le; lia). lra. }
        pose proof (average_bounds (a_register a1) n LR A (V ps) VA KV') as AB.
        assert (MB : (0 <= mean <= 1)%R).
        { apply expected_between; [apply ranges_positive|]. intros d. split; [apply pow2_ge_0|].
          destruct (design_spec a1 epsilon (with_luck w1 d []) PE ND LN ltac:(lia) EP) as (Cf & Cb & d' & ph & OF & OB & CA & RF & _). pose proof (AD d [] _ _ RF) as EU. cbn [set_draws set_wave w_wave with_luck w_qubits] in EU, CA, OB. change (qubits (with_luck w1 d [])) with (qubits w1) in CA. rewrite QN in CA.
          assert (GI : forall f h, inner n (gacts (w_qubits w1) Cb f) (gacts (w_qubits w1) Cb h) = inner n f h) by (intros f h; rewrite <- QN; unfold qubits; apply gacts_inner, OB).
          rewrite <- GI, <- EU. rewrite (inner_ext n _ _ _ _ (CA (w_wave w1)) (eqs_refl _ _)). rewrite (inner_ext n _ _ _ _ KE (eqs_refl _ _)), inner_ket_l by exact LZ. rewrite Cmod_mul, Cmod_conj, Z1, Rmult_1_l. set (phi := gacts (w_qubits w1) Cb (V ps _)).
          assert (NP : norm2 n phi = 1%R). { unfold norm2, phi. rewrite GI, KV', EU. rewrite <- GI, <- EU, (inner_ext n _ _ _ _ (CA (w_wave w1)) (CA (w_wave w1))). fold (norm2 n (w_wave w1)). rewrite (norm2_ext n _ _ KE), norm2_scale, norm2_ket, Z1 by exact LZ. ring. }
          rewrite norm2_sum in NP. pose proof (nsum_term n (fun y => Cmod (phi y) ^ 2)%R (zeros n) LZ ltac:(intros; apply pow2_ge_0)) as T. cbn beta in T. lra. }
        apply Rabs_le. nra.
      * rewrite ME. unfold u. assert (TL : t = 2 * Z.to_nat m + 1) by (unfold t; lia). rewrite TL.
        eapply Rle_trans; [apply (design_close (a_register a1) (w_qubits w1) n LR PE ND A (V ps) VA KV' z (w_wave w1) (Z.to_nat m) ZZ KE'); lia|]. apply enough_rounds; [exact N1|exact EP|]. rewrite (INR_IZR_INZ (Z.to_nat m)), Z2Nat.id by lia. apply B.
    + intros M1. rewrite ME. unfold u. assert (TL : t = 2 * Z.to_nat m + 1) by (unfold t; lia). rewrite TL.
      rewrite (design_mean (a_register a1) (w_qubits w1) n LR PE ND A (V ps) VA KV' z (w_wave w1) (Z.to_nat m) ZZ KE') by lia. replace (Z.to_nat (2 * m)) with (2 * Z.to_nat m) by lia. reflexivity.
Qed.
Print Assumptions C144_expected.
(** On a simulator the same holds for the trial that follows any number of trials, whatever happened in these. *)
Theorem C144_each_trial a cheat w epsilon g V m ntimes a' w' r : a_real a = false -> can_start a cheat w -> 1 <= a_numb a -> (0 < epsilon)%R -> acts_as (a_numb a) g V -> keeps_norm (a_numb a) V ->
  (IZR m - 1 < log2 (1 / epsilon) / INR (a_numb a) <= IZR m)%R ->
  estimate_average_fidelity a (Two g) ntimes epsilon cheat w = Ok (a', w', r) ->
  exists p ps a1 w1, set_register_to_zero a' cheat w' = Ok (a1, w1) /\ placed ps (a_register a1) w1 /\ succeeds_with a' (Two g) epsilon cheat w' p /\
    forall A, is_matrix (a_numb a) (V ps) A ->
      (Rabs (expected (design_ranges (a_numb a) (Z.to_nat (2 * m + 1))) p - average_fidelity (a_numb a) A) <= epsilon ^ 2)%R.
Proof.
  intros RD CS N1 EP AV KV B H. destruct (trials_run (a_numb a) epsilon cheat g V N1 EP AV KV (Z.to_nat ntimes) a w 0 CS eq_refl (or_introl RD)) as (a2 & w2 & z2 & T & CS2 & AN & _).
  unfold estimate_average_fidelity in H. rewrite T in H. cbn [bind] in H. destruct (ntimes =? 0)%Z; [discriminate|]. injection H as <- <- _. rewrite <- AN in N1, AV, KV, B |- *.
  destruct (C144_expected a2 cheat w2 epsilon g V m CS2 N1 EP AV KV B) as (p & ps & a1 & w1 & RS & PL & SW & HA). exists p, ps, a1, w1. split; [exact RS|]. split; [exact PL|]. split; [exact SW|]. intros A HM. apply (HA A HM).
Qed.
Print Assumptions C144_each_trial.

(** A Z gate on one qubit with epsilon = 1/2: three rounds; the average fidelity is 1/3 and the expected estimate 1/4. *)
Definition zmatrix (y x : list bool) : CC := if list_eq_dec bool_dec y x then (if getb y 0 then sopp s1 else s1) else s0.
Lemma z_is_matrix : is_matrix 1 (zact [0]) zmatrix.
Proof.
  intros psi y Ly. assert (CP : cexp PI = sopp s1) by (unfold cexp; rewrite cos_PI, sin_PI; apply CC_eq; cbn; ring).
  destruct y as [|b [|]]; try discriminate. cbn [isum]. unfold zact, apply_phase, zmatrix. rewrite CP. destruct b; cbn [forallb getb nth andb]; destruct (list_eq_dec bool_dec _ [false]) as [A|A], (list_eq_dec bool_dec _ [true]) as [B|B]; try discriminate; try (exfalso; apply A; reflexivity); try (exfalso; apply B; reflexivity); ring.
Qed.
Lemma z_average : average_fidelity 1 zmatrix = (1 / 3)%R.
Proof.
  unfold average_fidelity. cbn [isum]. replace (sadd (zmatrix [false] [false]) (zmatrix [true] [true])) with (s0 : CC) by (change (zmatrix [false] [false]) with (s1 : CC); change (zmatrix [true] [true]) with (sopp s1 : CC); ring). rewrite (proj2 (Cmod_0 s0) eq_refl). cbn [pow]. field.
Qed.
Lemma z_hadamard : hadamard_fidelity 1 zmatrix = 0%R.
Proof.
  assert (O : forall b, overlap 1 zmatrix (hadamard_state 1 [b]) = s0).
  { intros b. unfold overlap, inner. cbn [isum]. rewrite !hadamard_entry. unfold hm, hsign, prodl. cbn [seq fold_right getb nth andb]. rewrite !sconj_mul, !sconj_1. assert (RC : forall x, sconj (rc x) = rc x) by (intros x; apply CC_eq; cbn; ring). rewrite RC.
    assert (Z1 : zmatrix [false] [false] = s1) by reflexivity. assert (Z2 : zmatrix [true] [true] = sopp s1) by reflexivity. assert (Z3 : zmatrix [true] [false] = s0) by reflexivity. assert (Z4 : zmatrix [false] [true] = s0) by reflexivity. rewrite Z1, Z2, Z3, Z4.
    destruct b; rewrite ?sconj_opp, ?sconj_1; ring. }
  unfold hadamard_fidelity. rewrite nsum_list. cbn [nsum]. rewrite !O, (proj2 (Cmod_0 s0) eq_refl). field. 
Qed.
Example C144_case :
  let w := one_world [] [] in let a := adaptor_init [0] false in
  can_start a true w /\ acts_as 1 zchan zact /\ keeps_norm 1 zact /\
  exists p, succeeds_with a (Two zchan) (1 / 2) true w p /\ expected [3; 3; 3] p = (1 / 4)%R /\ average_fidelity 1 zmatrix = (1 / 3)%R.
Proof.
  set (w := one_world [] []). set (a := adaptor_init [0] false). cbn zeta.
  assert (CS : can_start a true w). { destruct (one_zero false [] []) as (P1 & P2 & P3 & _). split; [exact P1|]. split; assumption. }
  split; [exact CS|]. split; [apply zchan_acts|]. split; [apply zact_norm|].
  destruct (C144_expected a true w (1 / 2) zchan zact 1 CS (le_n 1) ltac:(lra) (zchan_acts 1) (zact_norm 1)) as (p & ps & a1 & w1 & RS & PL & SW & H).
  { change (a_numb a) with 1. cbn [INR]. replace (1 / (1 / 2))%R with 2%R by field. unfold log2. assert (0 < ln 2)%R by (rewrite <- ln_1; apply ln_increasing; lra). replace (ln 2 / ln 2 / 1)%R with 1%R by (field; lra). lra. }
  exists p. split; [exact SW|]. split; [|exact z_average].
  assert (PS : ps = [0]). { injection RS as <- <-. apply (placed_unique ps [0] [0] (set_wave w (zero_ket 1))); [repeat constructor; auto|exact PL|repeat constructor]. }
  rewrite PS in H. destruct (H zmatrix z_is_matrix) as [_ E]. specialize (E ltac:(lia)). change (a_numb a) with 1 in E. rewrite z_average, z_hadamard in E. change (design_ranges 1 (Z.to_nat (2 * 1 + 1))) with [3; 3; 3] in E. rewrite E. change (Z.to_nat (2 * 1)) with 2. cbn [pow]. field.
Qed.
Print Assumptions C144_case.
