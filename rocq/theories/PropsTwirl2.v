(** The device's fidelity estimate, the analytic fidelity and codes (PyQCodes/device_adaptor.py L225-272,
    PyQCodes/find_codes.py L251-278, PyQCodes/chan/channel.py L400-426). *)
From Verif Require Import Py Scalar PauliModel PauliSpec EncoderProofs KrausSpec KrausModel ChoiModel ChoiSpec CircuitModel CircuitSpec CircuitProofs CircuitProofs2 ChannelModel OptimModel ChoiProofs2 AvgFidSpec AvgFidProofs DeviceModel DeviceSpec DeviceProofs DeviceProofs2 DeviceProofs3 DeviceProofs4 DeviceProofs5 PropsChoi SameCodeProofs PropsDevice TwirlSpec TwirlProofs TwirlProofs2 TwirlProofs4 TwirlSpec2 PropsTwirl.
From Coq Require Import Reals Lra Permutation.
Open Scope nat_scope.
Open Scope K_scope.
Add Ring CCring81 : (s_rt CC).

(** ** C145 *)
Lemma maps_matrix n U V : (forall psi, matrix_maps n U psi (V psi)) -> is_matrix n V (fun y x => U (idx y) (idx x)).
Proof.
  intros H psi y Ly. pose proof (idx_lt y) as B. rewrite Ly in B. specialize (H psi (idx y) B). rewrite <- Ly, bits_of_idx, Ly in H. rewrite <- H. rewrite isum_bsum. apply bsum_ext. intros l Hl. rewrite idx_bits_of by exact Hl. reflexivity.
Qed.
Lemma trace_idx n (U : array CC) : isum n (fun x => U (idx x) (idx x)) = tr (2 ^ n) U.
Proof. rewrite isum_bsum. unfold tr. apply bsum_ext. intros i Hi. rewrite idx_bits_of by exact Hi. reflexivity. Qed.
Lemma mixed_fidelity n (U : marr CC) : is_square (2 ^ n) U -> entanglement_fidelity [U] (mixed (2 ^ n)) = (Cmod (tr (2 ^ n) (me U)) ^ 2 / (2 ^ n) ^ 2)%R.
Proof.
  intros [R C]. unfold entanglement_fidelity. cbn [map]. unfold reals_sum. cbn [fold_right]. rewrite R, C, tr_mixed, Cmod_scale_sq. rewrite pow_INR. replace (INR 2) with 2%R by (cbn; ring). pose proof (pow_lt 2 n ltac:(lra)) as D0. rewrite pow_inv. field. lra.
Qed.
(** The mean of the estimate is within epsilon^2 of (d f + 1)/(d + 1), where f is what AnalyticQChan returns as entanglement
    fidelity of the maximally mixed state when it is given the Choi matrix of the same unitary U. *)
Theorem C145_agree a cheat w epsilon g V m sparse : can_start a cheat w -> (1 <= a_numb a)%nat -> (0 < epsilon)%R -> acts_as (a_numb a) g V -> keeps_norm (a_numb a) V ->
  (IZR m - 1 < log2 (1 / epsilon) / INR (a_numb a) <= IZR m)%R ->
  exists p ps a1 w1, set_register_to_zero a cheat w = Ok (a1, w1) /\ placed ps (a_register a1) w1 /\ succeeds_with a (Two g) epsilon cheat w p /\
    forall U : marr CC, let n := a_numb a in let d := (2 ^ n)%nat in is_square d U -> (forall psi, matrix_maps n (me U) psi (V ps psi)) ->
      exists f, chan_fidelity (ChoiType sparse (CH (choi_arr_of [U] d d) n n 2 2)) [1%R] [mixed d] = Ok ((f, 0%R) : CC) /\
        (Rabs (expected (design_ranges n (Z.to_nat (2 * m + 1))) p - (INR d * f + 1) / (INR d + 1)) <= epsilon ^ 2)%R.
Proof.
  intros CS N1 EP AV KV B. destruct (C144_expected a cheat w epsilon g V m CS N1 EP AV KV B) as (p & ps & a1 & w1 & RS & PL & SW & H). exists p, ps, a1, w1. split; [exact RS|]. split; [exact PL|]. split; [exact SW|].
  intros U n d SU MU. exists (entanglement_fidelity [U] (mixed d)). split.
  - unfold chan_fidelity. rewrite (C44_choi_fidelity (CH (choi_arr_of [U] d d) n n 2 2) [U]).
    + f_equal. apply CC_eq; [|reflexivity]. unfold ensemble, reals_sum. cbn [combine map fold_right fst snd]. ring.
    + reflexivity.
    + split; reflexivity.
    + constructor; [exact SU|constructor].
    + intros i j _ _. reflexivity.
    + cbn; lia.
    + constructor; [|constructor]. split; [split; reflexivity|]. intros i j _ _. unfold mixed. cbn [me]. unfold adj. rewrite (Nat.eqb_sym j i). destruct (Nat.eqb i j); apply CC_eq; cbn; ring.
  - destruct (H _ (maps_matrix n (me U) (V ps) MU)) as [HB _]. fold n in HB. replace ((INR d * entanglement_fidelity [U] (mixed d) + 1) / (INR d + 1))%R with (average_fidelity n (fun y x => me U (idx y) (idx x))); [exact HB|].
    unfold average_fidelity. rewrite trace_idx. unfold d. rewrite (mixed_fidelity n U SU). rewrite pow_INR. replace (INR 2) with 2%R by (cbn; ring). pose proof (pow_lt 2 n ltac:(lra)) as D0. field. lra.
Qed.
Print Assumptions C145_agree.
Definition z_array : marr CC := MA 2 2 (fun i j => if Nat.eqb i j then (if Nat.eqb i 0 then 1 else - (1)) else 0).
Lemma z_maps psi : matrix_maps 1 (me z_array) psi (zact [0%nat] psi).
Proof.
  assert (CP : cexp PI = - (1)) by (unfold cexp; rewrite cos_PI, sin_PI; apply CC_eq; cbn; ring).
  intros i Hi. assert (i = 0 \/ i = 1)%nat as [-> | ->] by (cbn in Hi; lia); cbn [z_array me bsum Nat.pow Nat.mul Nat.add Nat.eqb]; unfold zact, apply_phase; rewrite CP; change (bits_of 1 0) with [false]; change (bits_of 1 1) with [true]; cbn [forallb getb nth andb]; ring.
Qed.
(** A Z gate on one qubit with epsilon = 1/2: f = 0 and (2 f + 1)/3 = 1/3, the expected estimate is 1/4. *)
Example C145_case : let w := one_world [] [] in let a := adaptor_init [0%nat] false in
  can_start a true w /\ acts_as 1 zchan zact /\ keeps_norm 1 zact /\ is_square 2 z_array /\ (forall psi, matrix_maps 1 (me z_array) psi (zact [0%nat] psi)) /\
  chan_fidelity (ChoiType true (CH (choi_arr_of [z_array] 2 2) 1 1 2 2)) [1%R] [mixed 2] = Ok ((0, 0)%R : CC).
Proof.
  destruct C144_case as (CS & AV & KV & _). cbn zeta. split; [exact CS|]. split; [exact AV|]. split; [exact KV|]. split; [split; reflexivity|]. split; [exact z_maps|].
  unfold chan_fidelity. rewrite (C44_choi_fidelity (CH (choi_arr_of [z_array] 2 2) 1 1 2 2) [z_array]).
  - f_equal. apply CC_eq; [|reflexivity]. unfold ensemble, reals_sum. cbn [combine map fold_right fst snd]. change (mixed 2) with (mixed (2 ^ 1)). rewrite (mixed_fidelity 1 z_array) by (split; reflexivity). replace (tr (2 ^ 1) (me z_array)) with (s0 : CC) by (unfold tr; cbn [z_array me bsum Nat.pow Nat.mul Nat.add Nat.eqb]; ring). rewrite (proj2 (Cmod_0 _) eq_refl). cbn [pow]. field.
  - reflexivity.
  - split; reflexivity.
  - repeat constructor.
  - intros i j _ _. reflexivity.
  - cbn; lia.
  - constructor; [|constructor]. split; [split; reflexivity|]. intros i j _ _. unfold mixed. cbn [me]. unfold adj. rewrite (Nat.eqb_sym j i). destruct (Nat.eqb i j); apply CC_eq; cbn; ring.
Qed.
Print Assumptions C145_case.

(** ** C146 *)
Lemma comp_norm n V1 V2 V3 : keeps_norm n V1 -> keeps_norm n V2 -> keeps_norm n V3 -> keeps_norm n (fun ps psi => V3 ps (V2 ps (V1 ps psi))).
Proof. intros K1 K2 K3 ps psi. rewrite K3, K2, K1. reflexivity. Qed.
Lemma inverse_norm n V1 V3 : keeps_norm n V1 -> inverses n V1 V3 -> keeps_norm n V3.
Proof. intros K1 I ps psi. destruct (I ps psi) as [_ E]. rewrite <- K1. apply inner_ext; exact E. Qed.
(** What is estimated: the average fidelity of decoder after channel after encoder over all states of all n qubits. *)
Theorem C146_code_partial register real_device encoder circuit_chan decoder V1 V2 V3 epsilon w m : let n := length register in let a := adaptor_init register real_device in
  can_start a false w -> register <> [] -> (0 < epsilon)%R -> acts_as n encoder V1 -> acts_as n circuit_chan V2 -> acts_as n decoder V3 -> keeps_norm n V1 -> keeps_norm n V2 -> keeps_norm n V3 ->
  (IZR m - 1 < log2 (1 / epsilon) / INR n <= IZR m)%R ->
  exists p ps a1 w1, set_register_to_zero a false w = Ok (a1, w1) /\ placed ps (a_register a1) w1 /\
    succeeds (estimate_average_fidelity_error_code (device_chan_init register (Two circuit_chan) real_device) (Two encoder) (Two decoder) 1 epsilon) w p /\
    forall A, is_matrix n (fun psi => V3 ps (V2 ps (V1 ps psi))) A ->
      let mean := expected (design_ranges n (Z.to_nat (2 * m + 1))) p in
      (Rabs (mean - average_fidelity n A) <= epsilon ^ 2)%R /\
      ((1 <= m)%Z -> mean = (average_fidelity n A + (/ 2 ^ n) ^ Z.to_nat (2 * m) * (hadamard_fidelity n A - average_fidelity n A))%R).
Proof.
  intros n a CS NE EP A1 A2 A3 K1 K2 K3 B. set (total := fun register w => do w1 <- encoder register w; do w2 <- circuit_chan register w1; decoder register w2).
  assert (AT : acts_as n total (fun ps psi => V3 ps (V2 ps (V1 ps psi)))). { apply (acts_as_ext _ (fun register w => do w2 <- (do w1 <- encoder register w; circuit_chan register w1); decoder register w2)); [intros r v; unfold total; destruct (encoder r v); reflexivity|]. exact (acts_as_comp n _ _ _ _ (acts_as_comp n _ _ _ _ A1 A2) A3). }
  assert (N1 : (1 <= a_numb a)%nat) by (unfold a; cbn [adaptor_init a_numb]; destruct register; [contradiction|cbn; lia]).
  destruct (C144_expected a false w epsilon total (fun ps psi => V3 ps (V2 ps (V1 ps psi))) m CS N1 EP AT (comp_norm n V1 V2 V3 K1 K2 K3) B) as (p & ps & a1 & w1 & RS & PL & SW & H).
  exists p, ps, a1, w1. split; [exact RS|]. split; [exact PL|]. split; [exact SW|]. exact H.
Qed.
Lemma comp_matrix n (V W : @state CC -> @state CC) A B : (forall psi phi, eqs n psi phi -> eqs n (W psi) (W phi)) -> is_matrix n V A -> is_matrix n W B -> is_matrix n (fun psi => W (V psi)) (fun y x => isum n (fun z => B y z * A z x)).
Proof.
  intros _ HA HB psi y Ly. rewrite (HB (V psi) y Ly). rewrite (isum_ext n _ (fun z => isum n (fun x => B y z * (A z x * psi x)))).
  - rewrite isum_swap. apply isum_ext. intros x _. transitivity (psi x * isum n (fun z => B y z * A z x)); [|ring]. rewrite <- isum_mul. apply isum_ext. intros z _. ring.
  - intros z Lz. rewrite (HA psi z Lz), isum_mul. reflexivity.
Qed.
(** If the decoder is the inverse of the encoder, this is the average fidelity of the channel alone: the code plays no role. *)
Theorem C146_undone_partial register real_device encoder circuit_chan decoder V1 V2 V3 epsilon w m : let n := length register in let a := adaptor_init register real_device in
  can_start a false w -> register <> [] -> (0 < epsilon)%R -> acts_as n encoder V1 -> acts_as n circuit_chan V2 -> acts_as n decoder V3 -> keeps_norm n V1 -> keeps_norm n V2 -> inverses n V1 V3 ->
  (IZR m - 1 < log2 (1 / epsilon) / INR n <= IZR m)%R ->
  exists p ps a1 w1, set_register_to_zero a false w = Ok (a1, w1) /\ placed ps (a_register a1) w1 /\
    succeeds (estimate_average_fidelity_error_code (device_chan_init register (Two circuit_chan) real_device) (Two encoder) (Two decoder) 1 epsilon) w p /\
    forall A1 A2 A3, is_matrix n (V1 ps) A1 -> is_matrix n (V2 ps) A2 -> is_matrix n (V3 ps) A3 ->
      (Rabs (expected (design_ranges n (Z.to_nat (2 * m + 1))) p - average_fidelity n A2) <= epsilon ^ 2)%R.
Proof.
  intros n a CS NE EP A1 A2 A3 K1 K2 IV B. destruct (C146_code_partial register real_device encoder circuit_chan decoder V1 V2 V3 epsilon w m CS NE EP A1 A2 A3 K1 K2 (inverse_norm n V1 V3 K1 IV) B) as (p & ps & a1 & w1 & RS & PL & SW & H).
  exists p, ps, a1, w1. split; [exact RS|]. split; [exact PL|]. split; [exact SW|]. intros M1 M2 M3 H1 H2 H3. fold n in H.
  pose proof (comp_matrix n (V1 ps) (V2 ps) M1 M2 (proj1 A2 ps) H1 H2) as H12. pose proof (comp_matrix n (fun psi => V2 ps (V1 ps psi)) (V3 ps) _ M3 (proj1 A3 ps) H12 H3) as H123.
  destruct (H _ H123) as [HB _]. replace (average_fidelity n M2) with (average_fidelity n (fun y x => isum n (fun z => M3 y z * isum n (fun u => M2 z u * M1 u x)))); [exact HB|].
  unfold average_fidelity. cbn beta zeta. assert (TR : isum n (fun x => isum n (fun z => M3 x z * isum n (fun u => M2 z u * M1 u x))) = isum n (fun x => M2 x x)); [|rewrite TR; reflexivity].
  assert (E13 : forall u z, length u = n -> length z = n -> isum n (fun x => M1 u x * M3 x z) = ket z u).
  { intros u z Lu Lz. destruct (IV ps (ket z)) as [_ E]. rewrite <- (E u Lu). rewrite (H1 _ u Lu). apply isum_ext. intros x Lx. f_equal. rewrite (H3 _ x Lx). symmetry. rewrite (isum_ext n _ (fun t => ket z t * M3 x t)) by (intros; ring). apply isum_ket, Lz. }
  rewrite isum_swap. apply isum_ext. intros z Lz.
  rewrite (isum_ext n _ (fun x => isum n (fun u => M2 z u * (M1 u x * M3 x z)))) by (intros x _; rewrite <- isum_mul; apply isum_ext; intros; ring). rewrite isum_swap.
  rewrite (isum_ext n _ (fun u => ket z u * M2 z u)) by (intros u Lu; rewrite isum_mul, E13 by assumption; ring). apply isum_ket, Lz.
Qed.
Print Assumptions C146_code_partial.
Print Assumptions C146_undone_partial.

(** Two qubits, the message is in the first one; the channel is a Z gate on the second one, which starts in |0>.  Encoder and
    decoder do nothing. *)
Definition nothing (register : list nat) (w : world) : res world := Ok w.
Definition z2chan (register : list nat) (w : world) : res world := match register with _ :: q :: _ => execute w (PhaseGate [] PI q) | _ => Ok w end.
Definition z2act (ps : list nat) (psi : @state CC) : @state CC := match ps with _ :: p :: _ => apply_phase [] PI p psi | _ => psi end.
Definition two_world (outcomes : list bool) (draws : list nat) : world := World [0; 1]%nat 2 (zero_ket 2) 1 outcomes draws.
Lemma nothing_acts n : acts_as n nothing (fun _ psi => psi).
Proof. split; [auto|]. intros ps register w Q ND PE PL. exists w. repeat split. Qed.
Lemma z2act_norm n : keeps_norm n z2act.
Proof. intros [|p0 [|p ps]] psi; [reflexivity|reflexivity|]. apply (zact_norm n [p] psi). Qed.
Lemma z2chan_acts n : acts_as n z2chan z2act.
Proof.
  split.
  - intros [|p0 [|p ps]] psi phi E; [exact E|exact E|]. intros y Hy. unfold z2act, apply_phase. rewrite (E y Hy). reflexivity.
  - intros ps register w Q ND PE PL. destruct register as [|q0 [|q qs]]; [inversion PL; subst; exists w; repeat split| |].
    + destruct ps as [|p0 [|p ps]]; [inversion PL| |inversion PL as [|? ? ? ? ? PL']; inversion PL']. exists w. repeat split.
    + destruct ps as [|p0 [|p ps]]; [inversion PL|inversion PL as [|? ? ? ? ? PL']; inversion PL'|]. assert (PL' : placed (p :: ps) (q :: qs) w) by (inversion PL; assumption).
      cbn [z2chan execute mapM bind]. rewrite (placed_pos (q :: qs) w p ps q qs (Permutation_NoDup PE ND) eq_refl PL'). cbn [bind]. eexists. split; [reflexivity|]. split; [repeat split|]. intros y _. reflexivity.
Qed.
Definition sgn2 (y : list bool) : CC := if getb y 1 then - (1) else 1.
Definition z2matrix (y x : list bool) : CC := ket y x * sgn2 y.
Lemma z2_is_matrix : is_matrix 2 (z2act [0; 1]%nat) z2matrix.
Proof.
  intros psi y Ly. assert (CP : cexp PI = - (1)) by (unfold cexp; rewrite cos_PI, sin_PI; apply CC_eq; cbn; ring).
  unfold z2matrix. etransitivity; [|symmetry; etransitivity; [apply (isum_ext 2 _ (fun x => ket y x * (sgn2 y * psi x))); intros; ring|]; apply (isum_ket 2 y (fun x => sgn2 y * psi x)); exact Ly]. unfold z2act, apply_phase, sgn2. rewrite CP. cbn [forallb andb]. destruct (getb y 1); ring.
Qed.
Lemma z2_average : average_fidelity 2 z2matrix = (1 / 5)%R.
Proof.
  unfold average_fidelity. assert (T : isum 2 (fun x => z2matrix x x) = 0) by (cbn [isum]; unfold z2matrix, sgn2, ket; cbn [getb nth]; repeat (destruct (list_eq_dec bool_dec _ _); [|contradiction]); ring).
  rewrite T, (proj2 (Cmod_0 _) eq_refl). cbn [pow]. field.
Qed.
Lemma z2_hadamard : hadamard_fidelity 2 z2matrix = 0%R.
Proof.
  assert (O : forall z, overlap 2 z2matrix (hadamard_state 2 z) = 0).
  { intros z. unfold overlap, CircuitSpec.inner. rewrite (isum_ext 2 _ (fun y => rc (/ 2 ^ 2) * sgn2 y)).
    - rewrite isum_mul. cbn [isum]. unfold sgn2. cbn [getb nth]. ring.
    - intros y Ly. unfold z2matrix. rewrite (isum_ext 2 _ (fun x => ket y x * (sgn2 y * hadamard_state 2 z x))) by (intros; ring). rewrite isum_ket by exact Ly. rewrite hadamard_entry, hm_conj, <- (hm_sq 2 y z). ring. }
  unfold hadamard_fidelity. rewrite nsum_list. rewrite (nsum_ext 2 _ (fun _ => 0%R)), nsum_0; [field|]. intros z _. rewrite O, (proj2 (Cmod_0 _) eq_refl). ring.
Qed.
Lemma z2_message : keeps_message 2 1 (fun psi => z2act [0; 1]%nat psi).
Proof.
  exists (zero_ket 1). split; [unfold zero_ket; rewrite (inner_ket (2 - 1) (repeat false 1)) by reflexivity; reflexivity|]. intros msg y Ly. destruct y as [|a [|b [|]]]; try discriminate. unfold z2act, apply_phase, message_and. cbn [forallb andb getb nth firstn skipn Nat.sub].
  destruct b; [|reflexivity]. assert (Z : zero_ket (K := CC) 1 [true] = 0) by reflexivity. rewrite Z. ring.
Qed.
Lemma two_zero outcomes draws : all_zero (adaptor_init [0; 1]%nat true) (two_world outcomes draws).
Proof.
  split; [apply Permutation_refl|]. split; [repeat constructor; cbn; intuition discriminate|]. split; [reflexivity|]. split; [reflexivity|]. exists s1. split; [unfold Cmod; cbn; replace (1 * 1 + 0 * 0)%R with 1%R by ring; apply sqrt_1|]. intros y _. unfold sscale, zero_ket. cbn [qubits two_world w_qubits length w_wave]. unfold zero_ket, zeros. ring.
Qed.
Lemma half_rounds : (IZR 1 - 1 < log2 (1 / (1 / 2)) / INR 2 <= IZR 1)%R.
Proof. replace (1 / (1 / 2))%R with 2%R by field. unfold log2. assert (0 < ln 2)%R by (rewrite <- ln_1; apply ln_increasing; lra). replace (ln 2 / ln 2 / INR 2)%R with (1 / 2)%R by (cbn [INR]; field; lra). lra. Qed.
(** The message comes out unchanged, and yet the estimate is expected to be 3/16, near 1/5, for epsilon = 1/2. *)
Theorem C146_refuted : let a := adaptor_init [0; 1]%nat true in let w := two_world [] [] in
  can_start a false w /\ acts_as 2 nothing (fun _ psi => psi) /\ acts_as 2 z2chan z2act /\ keeps_norm 2 z2act /\
  (forall ps, placed ps [0; 1]%nat w -> keeps_message 2 1 (z2act ps)) /\
  exists p, succeeds (estimate_average_fidelity_error_code (device_chan_init [0; 1]%nat (Two z2chan) true) (Two nothing) (Two nothing) 1 (1 / 2)) w p /\
    expected (design_ranges 2 3) p = (3 / 16)%R.
Proof.
  set (a := adaptor_init [0; 1]%nat true). set (w := two_world [] []). cbn zeta. assert (CS : can_start a false w) by exact (two_zero [] []).
  assert (PU : forall ps, placed ps [0; 1]%nat w -> ps = [0; 1]%nat) by (intros ps PL; apply (placed_unique ps [0; 1]%nat [0; 1]%nat w); [repeat constructor; cbn; intuition discriminate|exact PL|repeat constructor]).
  split; [exact CS|]. split; [apply nothing_acts|]. split; [apply z2chan_acts|]. split; [apply z2act_norm|]. split; [intros ps PL; rewrite (PU ps PL); exact z2_message|].
  destruct (C146_code_partial [0; 1]%nat true nothing z2chan nothing (fun _ psi => psi) z2act (fun _ psi => psi) (1 / 2) w 1 CS ltac:(discriminate) ltac:(lra) (nothing_acts 2) (z2chan_acts 2) (nothing_acts 2) ltac:(intros ps psi; reflexivity) (z2act_norm 2) ltac:(intros ps psi; reflexivity) half_rounds) as (p & ps & a1 & w1 & RS & PL & SW & H).
  injection RS as <- <-. rewrite (PU ps PL) in H. exists p. split; [exact SW|]. destruct (H z2matrix z2_is_matrix) as [_ E]. specialize (E ltac:(lia)). change (length [0; 1]%nat) with 2%nat in E. rewrite z2_average, z2_hadamard in E. change (Z.to_nat (2 * 1 + 1)) with 3%nat in E. rewrite E. change (Z.to_nat (2 * 1)) with 2%nat. cbn [pow]. field.
Qed.
Print Assumptions C146_refuted.
(** Z on the second qubit as encoder and as decoder, around the same channel. *)
Example C146_case : let w := two_world [] [] in can_start (adaptor_init [0; 1]%nat true) false w /\ acts_as 2 z2chan z2act /\ keeps_norm 2 z2act /\ inverses 2 z2act z2act /\ is_matrix 2 (z2act [0; 1]%nat) z2matrix /\ average_fidelity 2 z2matrix = (1 / 5)%R.
Proof.
  cbn zeta. split; [exact (two_zero [] [])|]. split; [apply z2chan_acts|]. split; [apply z2act_norm|]. split; [|split; [exact z2_is_matrix|exact z2_average]].
  assert (CP : cexp PI = - (1)) by (unfold cexp; rewrite cos_PI, sin_PI; apply CC_eq; cbn; ring).
  assert (E : forall ps psi, eqs 2 (z2act ps (z2act ps psi)) psi). { intros [|p0 [|p ps]] psi y _; [reflexivity|reflexivity|]. unfold z2act, apply_phase. rewrite CP. destruct (_ && _)%bool; [ring|reflexivity]. }
  intros ps psi. split; apply E.
Qed.
Print Assumptions C146_case.
