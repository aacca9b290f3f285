(** Noisy circuits on the device, the analytic fidelity and codes (PyQCodes/device_adaptor.py L225-272,
    PyQCodes/find_codes.py L251-278, PyQCodes/chan/channel.py L400-426, PyQCodes/chan/_kraus.py L871-898). *)
From Verif Require Import Py Scalar PauliModel PauliSpec EncoderProofs KrausSpec KrausModel ChannelSpec ChoiModel ChoiSpec CircuitModel CircuitSpec CircuitProofs CircuitProofs2 ChannelModel OptimModel ChoiProofs2 AvgFidSpec AvgFidProofs KnownSpec KnownProofs2 DeviceModel DeviceSpec DeviceProofs DeviceProofs2 DeviceProofs3 DeviceProofs4 DeviceProofs5 PropsKraus PropsChoi SameCodeProofs PropsDevice TwirlSpec TwirlSpec3 TwirlSpec4 TwirlSpec5 TwirlProofs TwirlProofs2 TwirlProofs4 TwirlProofs5 TwirlProofs6 TwirlSpec2 PropsTwirl PropsTwirl2 PropsTwirl3 PropsTwirl4.
From Coq Require Import Reals Lra Permutation FunctionalExtensionality.
Open Scope nat_scope.
Open Scope K_scope.
Add Ring CCring84 : (s_rt CC).

(** ** C149 *)
Lemma fidelity_cons A l rho : entanglement_fidelity (A :: l) rho = (entanglement_fidelity [A] rho + entanglement_fidelity l rho)%R.
Proof. unfold entanglement_fidelity, reals_sum. cbn [map fold_right]. ring. Qed.
Lemma noisy_trace n q : Forall (fun x => 0 <= x)%R q -> forall Us, length q = length Us -> Forall (is_square (2 ^ n)) Us ->
  entanglement_fidelity (noisy_ops q Us) (mixed (2 ^ n)) =
  (weighted q (fun i => Cmod (isum n (fun x => nth i (map (fun U y x => me U (idx y) (idx x)) Us) (fun _ _ => s0) x x)) ^ 2) / (2 ^ n) ^ 2)%R.
Proof.
  pose proof (pow_lt 2 n ltac:(lra)) as D0. induction q as [|x q IH]; intros FQ Us L SU; destruct Us as [|U Us]; try discriminate.
  - unfold entanglement_fidelity, reals_sum. cbn. field. lra.
  - inversion FQ; subst. inversion SU as [|? ? [R C] SU']; subst. unfold noisy_ops. cbn [combine map fst snd]. fold (noisy_ops q Us). rewrite fidelity_cons, (IH H2 Us ltac:(cbn in L; lia) SU'), mixed_fidelity by (split; assumption). cbn [weighted nth map me].
    assert (T : tr (2 ^ n) (fun i j => smul ((sqrt x, 0%R) : CC) (me U i j)) = rc (sqrt x) * isum n (fun y => me U (idx y) (idx y))) by (rewrite trace_idx; unfold tr; rewrite bsum_mul_l; reflexivity).
    rewrite T. change (rc (sqrt x)) with ((sqrt x, 0%R) : CC). rewrite Cmod_scale_sq, <- (Rsqr_pow2 (sqrt x)), Rsqr_sqrt by assumption. field. lra.
Qed.
Lemma noisy_analytic n q Us : distribution q -> length q = length Us -> Forall (is_square (2 ^ n)) Us ->
  noisy_fidelity n q (map (fun U y x => me U (idx y) (idx x)) Us) = ((INR (2 ^ n) * entanglement_fidelity (noisy_ops q Us) (mixed (2 ^ n)) + 1) / (INR (2 ^ n) + 1))%R.
Proof.
  intros [FQ _] L SU. rewrite (noisy_trace n q FQ Us L SU). unfold noisy_fidelity. rewrite pow_INR. replace (INR 2) with 2%R by (cbn; ring). pose proof (pow_lt 2 n ltac:(lra)) as D0. field. lra.
Qed.
Lemma noisy_fits d q Us : Forall (is_square d) Us -> fits d d (noisy_ops q Us).
Proof.
  intros F. revert q. induction F as [|U Us [R C] F IH]; intros [|x q]; try constructor; [split; assumption|apply IH].
Qed.
Lemma mixed_ok d : is_square d (mixed d) /\ hermitian d (me (mixed d)).
Proof. split; [split; reflexivity|]. intros i j _ _. unfold mixed. cbn [me]. unfold adj. rewrite (Nat.eqb_sym j i). destruct (Nat.eqb i j); apply CC_eq; cbn; ring. Qed.
Lemma map_matrices n (ps : list nat) (Vs : list (list nat -> @state CC -> @state CC)) Us : Forall2 (fun V (U : marr CC) => is_square (2 ^ n) U /\ forall psi, matrix_maps n (me U) psi (V ps psi)) Vs Us ->
  Forall2 (fun (V : list nat -> @state CC -> @state CC) A => is_matrix n (V ps) A) Vs (map (fun (U : marr CC) y x => me U (idx y) (idx x)) Us) /\ Forall (is_square (2 ^ n)) Us.
Proof. induction 1 as [|V U Vs Us [S H] F [IH1 IH2]]; split; constructor; try assumption. apply maps_matrix, H. Qed.
(** The circuit runs U[i] with probability q[i].  The mean of the estimate is within epsilon^2 of (d f + 1)/(d + 1), where f
    is what AnalyticQChan returns as entanglement fidelity of the maximally mixed state when it is given the Choi matrix of the
    channel with the Kraus operators sqrt(q[i]) U[i]. *)
Theorem C149_choi_partial a cheat w epsilon circuits Vs q m sparse : can_start a cheat w -> w_prob w <> 0%R -> (1 <= a_numb a)%nat -> (0 < epsilon)%R ->
  Forall2 (fun g V => acts_as (a_numb a) g V /\ keeps_norm (a_numb a) V) circuits Vs -> distribution q -> length q = length circuits ->
  (IZR m - 1 < log2 (1 / epsilon) / INR (a_numb a) <= IZR m)%R ->
  exists p ps a1 w1, set_register_to_zero a cheat w = Ok (a1, w1) /\ placed ps (a_register a1) w1 /\ succeeds_with a (Two (noisy circuits)) epsilon cheat w p /\
    forall Us : list (marr CC), let n := a_numb a in let d := (2 ^ n)%nat in Forall2 (fun V (U : marr CC) => is_square d U /\ forall psi, matrix_maps n (me U) psi (V ps psi)) Vs Us ->
      exists f, chan_fidelity (ChoiType sparse (CH (choi_arr_of (noisy_ops q Us) d d) n n 2 2)) [1%R] [mixed d] = Ok ((f, 0%R) : CC) /\
        (Rabs (noisy_expected (design_ranges n (Z.to_nat (2 * m + 1))) q p - (INR d * f + 1) / (INR d + 1)) <= epsilon ^ 2)%R.
Proof.
  intros CS W0 N1 EP CV D LQ B. destruct (C148_expected a cheat w epsilon circuits Vs q m CS W0 N1 EP CV D LQ B) as (p & ps & a1 & w1 & RS & PL & SW & H). exists p, ps, a1, w1. split; [exact RS|]. split; [exact PL|]. split; [exact SW|].
  intros Us n d F. destruct (map_matrices n ps Vs Us F) as [F1 F2]. assert (LU : length q = length Us) by (rewrite LQ, (both_length _ _ _ CV), (both_length _ _ _ F); reflexivity). exists (entanglement_fidelity (noisy_ops q Us) (mixed d)). split.
  - unfold chan_fidelity. rewrite (C44_choi_fidelity (CH (choi_arr_of (noisy_ops q Us) d d) n n 2 2) (noisy_ops q Us)).
    + f_equal. apply CC_eq; [|reflexivity]. unfold ensemble, reals_sum. cbn [combine map fold_right fst snd]. ring.
    + reflexivity.
    + split; reflexivity.
    + apply noisy_fits, F2.
    + intros i j _ _. reflexivity.
    + cbn; lia.
    + constructor; [apply mixed_ok|constructor].
  - unfold d. rewrite <- (noisy_analytic n q Us D LU F2). apply H, F1.
Qed.
Print Assumptions C149_choi_partial.

Lemma flip_entries x : (0 <= x <= 1)%R -> all_entries_fidelity (bit_flip x) (mixed 2) = 1%R.
Proof.
  intros Hx. unfold all_entries_fidelity, reals_sum. cbn [bit_flip map fold_right].
  assert (E : forall a b : R, bsum 2 (fun j => bsum 2 (fun p => mm 2 (me (mat2 (rc a) (rc b) (rc b) (rc a))) (me (mixed 2)) j p)) = rc (a + b)) by (intros a b; apply CC_eq; cbn; field).
  pose proof (E (sqrt (1 - x)) 0%R) as E1. pose proof (E 0%R (sqrt x)) as E2. change (rc (sqrt (1 - x))) with (rt (1 - x)) in E1. change (rc (sqrt x)) with (rt x) in E2. change (rc 0) with (s0 : CC) in E1, E2.
  cbn [mr mc mat2 mixed] in *. rewrite E1, E2, !Cmod_rc, <- !Rsqr_pow2, <- !Rsqr_abs. rewrite Rplus_0_r, Rplus_0_l, !Rsqr_sqrt by lra. ring.
Qed.
(** Bit flips with probability 1/10, epsilon = 1/1000: given the Kraus operators, AnalyticQChan returns f = 1, so that
    (2 f + 1)/3 = 1; the mean of the estimate is within 10^-6 of 14/15. *)
Theorem C149_refuted : exists c, chan_init (OpList (bit_flip (1 / 10))) (1, 1)%nat 2 2 [] false = Ok c /\ chan_fidelity c [1%R] [mixed 2] = Ok ((1, 0)%R : CC) /\
  let w := one_world [] [] in let a := adaptor_init [0%nat] false in
  exists p rounds, numb_times 1 (1 / 1000) = Ok (Z.of_nat rounds) /\ succeeds_with a (Two (noisy [xchan; idle])) (1 / 1000) false w p /\
    (Rabs (noisy_expected (design_ranges 1 rounds) [1 / 10; 9 / 10] p - 14 / 15) <= 1 / 1000000)%R.
Proof.
  destruct (proj2 (C42_constructor (OpList (bit_flip (1 / 10))) (1, 1)%nat 2 2 [] false ltac:(discriminate)) (conj (bit_flip_fits _) (C42_exact _ _ (bit_flip_tp (1 / 10) ltac:(lra))))) as (c & EC). exists c. split; [exact EC|]. split.
  - unfold chan_init in EC. apply bind_ok in EC. destruct EC as (o & EO & EC). apply bind_ok in EC. destruct EC as (u & _ & [= <-]). unfold chan_fidelity.
    rewrite (C43_dense_partial _ _ _ _ _ _ [1%R] [mixed 2] EO); [|discriminate|reflexivity|repeat constructor]. cbn [bind]. match goal with |- Ok (?x, _) = _ => assert (E : x = 1%R) end; [|rewrite E; reflexivity].
    unfold ensemble, reals_sum. cbn [arg_matrices map combine fold_right fst snd]. rewrite flip_entries by lra. ring.
  - cbn zeta. set (w := one_world [] []). set (a := adaptor_init [0%nat] false).
    assert (CS : can_start a false w). { destruct (one_zero false [] []) as (_ & _ & _ & K). exists [false]. exact K. }
    set (x := (log2 (1 / (1 / 1000)) / INR 1)%R). set (m := (- Int_part (- x))%Z). assert (RB : (IZR m - 1 < x <= IZR m)%R) by (unfold m; rewrite opp_IZR; pose proof (base_Int_part (- x)); lra).
    assert (M1 : (0 <= m)%Z). { assert (X0 : (0 < x)%R). { unfold x. apply Rdiv_lt_0_compat; [|cbn; lra]. unfold log2. apply Rdiv_lt_0_compat; rewrite <- ln_1; apply ln_increasing; lra. } assert (L : (IZR 0 < IZR m)%R) by lra. apply lt_IZR in L. lia. }
    destruct (C148_expected a false w (1 / 1000) [xchan; idle] [xact; fun _ psi => psi] [1 / 10; 9 / 10]%R m CS ltac:(cbn; lra) (le_n 1) ltac:(lra)) as (p & ps & a1 & w1 & RS & PL & SW & H).
    + constructor; [split; [exact xchan_acts|exact xact_norm]|]. constructor; [apply idle_acts|constructor].
    + split; [repeat constructor; lra|unfold sum_of; cbn [fold_right]; field].
    + reflexivity.
    + exact RB.
    + assert (ps = [0%nat]) as ->. { pose proof (reset_new a w a1 w1 eq_refl RS) as P0. destruct (reset_run a false w CS) as (a2 & w2 & RS2 & (PE & ND & _) & _). rewrite RS in RS2. injection RS2 as <- <-. apply (placed_unique _ _ _ _ (Permutation_NoDup PE ND) PL P0). }
      exists p, (Z.to_nat (2 * m + 1)). split; [rewrite Z2Nat.id by lia; apply round_count; [lia|lra|exact RB]|]. split; [exact SW|].
      specialize (H [xmatrix; identity] ltac:(constructor; [exact x_is_matrix|constructor; [apply id_is_matrix|constructor]])). change (a_numb a) with 1%nat in H.
      assert (FI : noisy_fidelity 1 [1 / 10; 9 / 10]%R [xmatrix; identity] = (14 / 15)%R). { replace (9 / 10)%R with (1 - 1 / 10)%R by field. rewrite bit_flip_fidelity. field. }
      rewrite FI in H. eapply Rle_trans; [exact H|]. lra.
Qed.
Print Assumptions C149_refuted.

Definition x_array : marr CC := mat2 s0 s1 s1 s0.
Definition id_array : marr CC := mat2 s1 s0 s0 s1.
Lemma x_maps psi : matrix_maps 1 (me x_array) psi (xact [0%nat] psi).
Proof.
  intros i Hi. assert (i = 0 \/ i = 1)%nat as [-> | ->] by (cbn in Hi; lia); cbn [x_array mat2 me bsum Nat.pow Nat.mul Nat.add Nat.eqb]; unfold xact; change (bits_of 1 0) with [false]; change (bits_of 1 1) with [true]; cbn [getb nth negb]; ring.
Qed.
Lemma id_maps psi : matrix_maps 1 (me id_array) psi psi.
Proof.
  intros i Hi. assert (i = 0 \/ i = 1)%nat as [-> | ->] by (cbn in Hi; lia); cbn [id_array mat2 me bsum Nat.pow Nat.mul Nat.add Nat.eqb]; ring.
Qed.
(** The bit flips of the README meet the hypotheses of C149_choi_partial; f = 9/10. *)
Example C149_case : let w := one_world [] [] in let a := adaptor_init [0%nat] false in
  can_start a false w /\ Forall2 (fun g V => acts_as 1 g V /\ keeps_norm 1 V) [xchan; idle] [xact; fun _ psi => psi] /\ distribution [1 / 10; 9 / 10]%R /\
  Forall2 (fun (V : list nat -> @state CC -> @state CC) (U : marr CC) => is_square 2 U /\ forall psi, matrix_maps 1 (me U) psi (V [0%nat] psi)) [xact; fun _ psi => psi] [x_array; id_array] /\
  entanglement_fidelity (noisy_ops [1 / 10; 9 / 10]%R [x_array; id_array]) (mixed 2) = (9 / 10)%R.
Proof.
  cbn zeta. split; [destruct (one_zero false [] []) as (_ & _ & _ & K); exists [false]; exact K|]. split; [constructor; [split; [exact xchan_acts|exact xact_norm]|]; constructor; [apply idle_acts|constructor]|].
  assert (D : distribution [1 / 10; 9 / 10]%R) by (split; [repeat constructor; lra|unfold sum_of; cbn [fold_right]; field]). split; [exact D|]. split; [repeat constructor; [exact x_maps|exact id_maps]|].
  change (mixed 2) with (mixed (2 ^ 1)). rewrite (noisy_trace 1 _ (proj1 D) [x_array; id_array] eq_refl ltac:(repeat constructor)). cbn [weighted nth map isum].
  change (idx [false]) with 0%nat. change (idx [true]) with 1%nat. cbn [x_array id_array mat2 me Nat.eqb].
  replace (s0 + s0 : CC) with (s0 : CC) by ring. replace (s1 + s1 : CC) with (rc 2) by (apply CC_eq; cbn; ring). rewrite (proj2 (Cmod_0 s0) eq_refl), Cmod_rc, Rabs_right by lra. cbn [pow]. field.
Qed.
Print Assumptions C149_case.

(** ** C150 *)
Lemma keep_draws g register w w' : no_draws g -> g register w = Ok w' -> w_draws w' = w_draws w.
Proof. intros H E. pose proof (H register w (w_draws w)) as T. assert (S : set_draws w (w_draws w) = w) by (destruct w; reflexivity). rewrite S, E in T. apply (f_equal (fun r => match r with Ok x => w_draws x | Err _ => [] end)) in T. exact T. Qed.
(** decoder after circuit after encoder *)
Definition around (encoder decoder g : list nat -> world -> res world) (register : list nat) (w : world) : res world :=
  do w1 <- encoder register w; do w2 <- g register w1; decoder register w2.
Lemma around_noisy encoder decoder circuits : no_draws encoder -> circuits <> [] ->
  (fun register w => do w1 <- encoder register w; do w2 <- noisy circuits register w1; decoder register w2) = noisy (map (around encoder decoder) circuits).
Proof.
  intros ND NE. apply functional_extensionality. intros register. apply functional_extensionality. intros w. unfold noisy. rewrite map_length.
  assert (B : (hd 0 (w_draws w) mod length circuits < length circuits)%nat) by (apply Nat.mod_upper_bound; destruct circuits; [contradiction|discriminate]).
  rewrite (nth_indep _ _ (around encoder decoder (fun _ w => Ok w))) by (rewrite map_length; exact B). rewrite map_nth. unfold around. rewrite ND. destruct (encoder register w) as [w1|] eqn:E; [|reflexivity]. cbn [bind].
  rewrite (keep_draws encoder register w w1 ND E). reflexivity.
Qed.
Lemma around_acts n encoder decoder V1 V3 circuits Vs : acts_as n encoder V1 -> keeps_norm n V1 -> acts_as n decoder V3 -> keeps_norm n V3 -> Forall2 (fun g V => acts_as n g V /\ keeps_norm n V) circuits Vs ->
  Forall2 (fun g V => acts_as n g V /\ keeps_norm n V) (map (around encoder decoder) circuits) (map (fun (V : list nat -> @state CC -> @state CC) ps psi => V3 ps (V ps (V1 ps psi))) Vs).
Proof.
  intros A1 K1 A3 K3 F. induction F as [|g V circuits Vs [A2 K2] F IH]; constructor; [|exact IH]. split; [|apply comp_norm; assumption].
  apply (acts_as_ext _ (fun register w => do w2 <- (do w1 <- encoder register w; g register w1); decoder register w2)); [intros r v; unfold around; destruct (encoder r v); reflexivity|]. exact (acts_as_comp n _ _ _ _ (acts_as_comp n _ _ _ _ A1 A2) A3).
Qed.
Lemma around_matrix n ps V1 V3 M1 M3 (Vs : list (list nat -> @state CC -> @state CC)) As : is_matrix n (V1 ps) M1 -> is_matrix n (V3 ps) M3 -> Forall2 (fun (V : list nat -> @state CC -> @state CC) A => is_matrix n (V ps) A) Vs As ->
  Forall2 (fun (V : list nat -> @state CC -> @state CC) A => is_matrix n (V ps) A) (map (fun (V : list nat -> @state CC -> @state CC) ps psi => V3 ps (V ps (V1 ps psi))) Vs) (map (fun A => one_after_other n M1 A M3) As).
Proof.
  intros H1 H3 F. induction F as [|V A Vs As H F IH]; constructor; [|exact IH]. intros psi y Ly. unfold one_after_other.
  rewrite (H3 _ y Ly). rewrite (isum_ext n _ (fun z => M3 y z * isum n (fun x => isum n (fun u => A z u * M1 u x) * psi x))).
  - rewrite (isum_ext n _ (fun z => isum n (fun x => M3 y z * (isum n (fun u => A z u * M1 u x) * psi x)))) by (intros z _; rewrite isum_mul; reflexivity).
    rewrite isum_swap. apply isum_ext. intros x _. rewrite (isum_ext n _ (fun z => psi x * (M3 y z * isum n (fun u => A z u * M1 u x)))) by (intros; ring). rewrite isum_mul. ring.
  - intros z Lz. f_equal. rewrite (H _ z Lz). rewrite (isum_ext n _ (fun u => isum n (fun x => A z u * (M1 u x * psi x)))) by (intros u Lu; rewrite isum_mul, <- (H1 psi u Lu); reflexivity).
    rewrite isum_swap. apply isum_ext. intros x _. rewrite (isum_ext n _ (fun u => psi x * (A z u * M1 u x))) by (intros; ring). rewrite isum_mul. ring.
Qed.
(** encoder and decoder that undo each other do not change the trace *)
Lemma undone_trace n ps V1 V3 M1 M2 M3 : inverses n V1 V3 -> is_matrix n (V1 ps) M1 -> is_matrix n (V3 ps) M3 -> isum n (fun x => one_after_other n M1 M2 M3 x x) = isum n (fun x => M2 x x).
Proof.
  intros IV H1 H3. unfold one_after_other.
  assert (E13 : forall u z, length u = n -> length z = n -> isum n (fun x => M1 u x * M3 x z) = ket z u).
  { intros u z Lu Lz. destruct (IV ps (ket z)) as [_ E]. rewrite <- (E u Lu). rewrite (H1 _ u Lu). apply isum_ext. intros x Lx. f_equal. rewrite (H3 _ x Lx). symmetry. rewrite (isum_ext n _ (fun t => ket z t * M3 x t)) by (intros; ring). apply isum_ket, Lz. }
  rewrite isum_swap. apply isum_ext. intros z Lz.
  rewrite (isum_ext n _ (fun x => isum n (fun u => M2 z u * (M1 u x * M3 x z)))) by (intros x _; rewrite <- isum_mul; apply isum_ext; intros; ring). rewrite isum_swap.
  rewrite (isum_ext n _ (fun u => ket z u * M2 z u)) by (intros u Lu; rewrite isum_mul, E13 by assumption; ring). apply isum_ket, Lz.
Qed.
Lemma undone_fidelity n ps V1 V3 M1 M3 q As : inverses n V1 V3 -> is_matrix n (V1 ps) M1 -> is_matrix n (V3 ps) M3 -> length q = length As ->
  noisy_fidelity n q (map (fun A => one_after_other n M1 A M3) As) = noisy_fidelity n q As.
Proof.
  intros IV H1 H3 L. unfold noisy_fidelity. f_equal. f_equal. apply weighted_ext. intros i Hi. rewrite L in Hi. f_equal. f_equal.
  rewrite (nth_indep _ _ (one_after_other n M1 (fun _ _ => s0) M3)) by (rewrite map_length; exact Hi). rewrite (map_nth (fun A => one_after_other n M1 A M3)). apply (undone_trace n ps V1 V3); assumption.
Qed.
(** The channel runs circuit i with probability q[i].  estimate_average_fidelity_error_code estimates the average fidelity of the
    channel with the Kraus operators sqrt(q[i]) D A[i] E up to epsilon^2; if the decoder undoes the encoder, this is the average
    fidelity without the code. *)
Theorem C150_expected register real_device encoder circuits decoder V1 Vs V3 q epsilon w m : let n := length register in let a := adaptor_init register real_device in
  can_start a false w -> w_prob w <> 0%R -> register <> [] -> (0 < epsilon)%R -> acts_as n encoder V1 -> keeps_norm n V1 -> no_draws encoder -> acts_as n decoder V3 -> keeps_norm n V3 ->
  Forall2 (fun g V => acts_as n g V /\ keeps_norm n V) circuits Vs -> distribution q -> length q = length circuits -> (IZR m - 1 < log2 (1 / epsilon) / INR n <= IZR m)%R ->
  exists p ps a1 w1, set_register_to_zero a false w = Ok (a1, w1) /\ placed ps (a_register a1) w1 /\
    succeeds (estimate_average_fidelity_error_code (device_chan_init register (Two (noisy circuits)) real_device) (Two encoder) (Two decoder) 1 epsilon) w p /\
    forall E As D, is_matrix n (V1 ps) E -> Forall2 (fun (V : list nat -> @state CC -> @state CC) A => is_matrix n (V ps) A) Vs As -> is_matrix n (V3 ps) D ->
      let mean := noisy_expected (design_ranges n (Z.to_nat (2 * m + 1))) q p in
      (Rabs (mean - noisy_fidelity n q (map (fun A => one_after_other n E A D) As)) <= epsilon ^ 2)%R /\
      (inverses n V1 V3 -> (Rabs (mean - noisy_fidelity n q As) <= epsilon ^ 2)%R).
Proof.
  intros n a CS W0 NE EP A1 K1 ND A3 K3 CV DQ LQ B. assert (NC : circuits <> []). { intros ->. destruct q; [|discriminate]. destruct DQ as [_ S]. unfold sum_of in S. cbn in S. lra. }
  assert (N1 : (1 <= a_numb a)%nat) by (unfold a; cbn [adaptor_init a_numb]; destruct register; [contradiction|cbn; lia]).
  destruct (C148_expected a false w epsilon _ _ q m CS W0 N1 EP (around_acts n encoder decoder V1 V3 circuits Vs A1 K1 A3 K3 CV) DQ ltac:(rewrite map_length; exact LQ) B) as (p & ps & a1 & w1 & RS & PL & SW & H).
  exists p, ps, a1, w1. split; [exact RS|]. split; [exact PL|]. split.
  - unfold estimate_average_fidelity_error_code, device_chan_init. cbn [dc_device dc_channel call2]. rewrite (around_noisy encoder decoder circuits ND NC). exact SW.
  - intros E As D HE HA HD mean. pose proof (H _ (around_matrix n ps V1 V3 E D Vs As HE HD HA)) as HB. split; [exact HB|]. intros IV. change (a_numb a) with n in HB. assert (LA : length q = length As) by (rewrite LQ, (both_length _ _ _ CV), (both_length _ _ _ HA); reflexivity).
    rewrite (undone_fidelity n ps V1 V3 E D q As IV HE HD LA) in HB. exact HB.
Qed.
Print Assumptions C150_expected.
(** N trials on a simulator. *)
Theorem C150_error register encoder circuits decoder V1 Vs V3 q epsilon w N : let n := length register in let a := adaptor_init register false in
  can_start a false w -> w_prob w <> 0%R -> register <> [] -> (0 < epsilon < 1)%R -> acts_as n encoder V1 -> keeps_norm n V1 -> no_draws encoder -> acts_as n decoder V3 -> keeps_norm n V3 ->
  Forall2 (fun g V => acts_as n g V /\ keeps_norm n V) circuits Vs -> distribution q -> length q = length circuits -> (1 <= N)%nat ->
  exists ps a1 w1 rounds, set_register_to_zero a false w = Ok (a1, w1) /\ placed ps (a_register a1) w1 /\ numb_times n epsilon = Ok (Z.of_nat rounds) /\
    forall E As D, is_matrix n (V1 ps) E -> Forall2 (fun (V : list nat -> @state CC -> @state CC) A => is_matrix n (V ps) A) Vs As -> is_matrix n (V3 ps) D ->
      let mean f v := has_mean (fun a => estimate_average_fidelity_error_code (DeviceChan a (Two (noisy circuits))) (Two encoder) (Two decoder) 1 epsilon) (noisy_expected (design_ranges n rounds) q) N a w f v in
      let F := noisy_fidelity n q (map (fun A => one_after_other n E A D) As) in
      (exists e, mean (fun l => (sum_of l / INR N - F) ^ 2)%R e /\ (e <= 1 / (4 * INR N) + epsilon ^ 4)%R) /\
      (forall delta, (0 < delta)%R -> exists r, mean (fun l => if Rlt_dec (Rabs (sum_of l / INR N - F)) (epsilon ^ 2 + delta) then 0 else 1)%R r /\ (r <= 1 / (4 * INR N * delta ^ 2))%R) /\
      (inverses n V1 V3 -> F = noisy_fidelity n q As).
Proof.
  intros n a CS W0 NE EP A1 K1 ND A3 K3 CV DQ LQ NN. assert (NC : circuits <> []). { intros ->. destruct q; [|discriminate]. destruct DQ as [_ S]. unfold sum_of in S. cbn in S. lra. }
  assert (N1 : (1 <= a_numb a)%nat) by (unfold a; cbn [adaptor_init a_numb]; destruct register; [contradiction|cbn; lia]).
  destruct (C148_error a false w epsilon _ _ q N eq_refl CS W0 N1 EP (around_acts n encoder decoder V1 V3 circuits Vs A1 K1 A3 K3 CV) DQ ltac:(rewrite map_length; exact LQ) NN) as (ps & a1 & w1 & rounds & RS & PL & NT & H).
  exists ps, a1, w1, rounds. split; [exact RS|]. split; [exact PL|]. split; [exact NT|]. intros E As D HE HA HD mean F.
  destruct (H _ (around_matrix n ps V1 V3 E D Vs As HE HD HA)) as (mu & _ & _ & _ & _ & HE2 & HD2).
  assert (SE : (fun b => estimate_average_fidelity_error_code (DeviceChan b (Two (noisy circuits))) (Two encoder) (Two decoder) 1 epsilon) = (fun b => estimate_average_fidelity b (Two (noisy (map (around encoder decoder) circuits))) 1 epsilon false)).
  { apply functional_extensionality. intros b. unfold estimate_average_fidelity_error_code. cbn [dc_device dc_channel call2]. rewrite (around_noisy encoder decoder circuits ND NC). reflexivity. }
  unfold mean. rewrite SE. split; [exact HE2|]. split; [exact HD2|]. intros IV. assert (LA : length q = length As) by (rewrite LQ, (both_length _ _ _ CV), (both_length _ _ _ HA); reflexivity). apply (undone_fidelity n ps V1 V3 E D q As IV HE HD LA).
Qed.
Print Assumptions C150_error.
Lemma zchan_draws : no_draws zchan.
Proof. intros [|q r] w l; [reflexivity|]. cbn [zchan execute mapM bind set_draws w_qubits]. destruct (position q (w_qubits w)); reflexivity. Qed.
Lemma zact_undoes : inverses 1 zact zact.
Proof.
  assert (CP : cexp PI = - (1)) by (unfold cexp; rewrite cos_PI, sin_PI; apply CC_eq; cbn; ring).
  assert (E : forall ps psi, eqs 1 (zact ps (zact ps psi)) psi). { intros [|p ps] psi y _; [reflexivity|]. unfold zact, apply_phase. rewrite CP. destruct (_ && _)%bool; [ring|reflexivity]. }
  intros ps psi. split; apply E.
Qed.
(** The bit flips of the README between two Z gates: 500 trials, and the average fidelity is 14/15 as without the gates. *)
Example C150_case : let w := one_world [] [] in let a := adaptor_init [0%nat] false in
  exists rounds e, numb_times 1 (1 / 1000) = Ok (Z.of_nat rounds) /\
    has_mean (fun a => estimate_average_fidelity_error_code (DeviceChan a (Two (noisy [xchan; idle]))) (Two zchan) (Two zchan) 1 (1 / 1000)) (noisy_expected (design_ranges 1 rounds) [1 / 10; 9 / 10]%R) 500 a w (fun l => (sum_of l / INR 500 - 14 / 15) ^ 2)%R e /\
    (e <= 1 / 2000 + 1 / 1000000000000)%R.
Proof.
  set (w := one_world [] []). set (a := adaptor_init [0%nat] false). cbn zeta.
  assert (FI : noisy_fidelity 1 [1 / 10; 9 / 10]%R [xmatrix; identity] = (14 / 15)%R). { replace (9 / 10)%R with (1 - 1 / 10)%R by field. rewrite bit_flip_fidelity. field. }
  assert (CS : can_start a false w). { destruct (one_zero false [] []) as (_ & _ & _ & K). exists [false]. exact K. }
  destruct (C150_error [0%nat] zchan [xchan; idle] zchan zact [xact; fun _ psi => psi] zact [1 / 10; 9 / 10]%R (1 / 1000) w 500 CS ltac:(cbn; lra) ltac:(discriminate) ltac:(lra) (zchan_acts 1) (zact_norm 1) zchan_draws (zchan_acts 1) (zact_norm 1)) as (ps & a1 & w1 & rounds & RS & PL & NT & H).
  - constructor; [split; [exact xchan_acts|exact xact_norm]|]. constructor; [apply idle_acts|constructor].
  - split; [repeat constructor; lra|unfold sum_of; cbn [fold_right]; field].
  - reflexivity.
  - lia.
  - assert (ps = [0%nat]) as ->. { pose proof (reset_new a w a1 w1 eq_refl RS) as P0. destruct (reset_run a false w CS) as (a2 & w2 & RS2 & (PE & ND & _) & _). fold a in RS. rewrite RS in RS2. injection RS2 as <- <-. apply (placed_unique _ _ _ _ (Permutation_NoDup PE ND) PL P0). }
    destruct (H zmatrix [xmatrix; identity] zmatrix z_is_matrix) as ((e & E & EB) & _ & U); [constructor; [exact x_is_matrix|constructor; [apply id_is_matrix|constructor]]|exact z_is_matrix|].
    rewrite (U zact_undoes) in E. change (length [0%nat]) with 1%nat in *. rewrite FI in E. exists rounds, e. split; [exact NT|]. split; [exact E|]. assert (I : INR 500 = 500%R) by (rewrite INR_IZR_INZ; reflexivity). rewrite I in EB. lra.
Qed.
Print Assumptions C150_case.
