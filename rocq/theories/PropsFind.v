(** Properties of effective_channel_with_stabilizers (PyQCodes/find_codes.py): C65, C66, C76.
    Specification: FindSpec.v, KrausSpec.v.  Model: FindModel.v. *)
From Verif Require Import Py ZMat CodesModel RankSpec CodesSpec CodesProofs PropsCodes Scalar PauliModel PauliSpec PauliProofs2 EncoderProofs EighExists PropsPauli
  KrausModel KrausSpec KrausProofs KrausProofs6 KrausProofs8 KrausProofs9 KrausProofs10 KrausExamples ChoiModel ChoiSpec ChoiProofs3 ChannelModel ChannelSpec EntropyProofs
  ParamModel ParamSpec ParamProofs3 OptimModel OptimSpec OptimProofs OptimProofs2 OptimProofs3 PropsKraus PropsChoi SpectralExists FindModel FindSpec FindProofs FindProofs2 PropsOptim.
From Coq Require Import Reals Lra.
From Coq Require String.
Import String.StringSyntax.
Delimit Scope string_scope with string.
Open Scope nat_scope.

(** ** C65 *)
(** The operators of the total channel: one for each n-fold error W, namely (a correction)
    . W . (the encoder); the encoder is an isometry into the code space. *)
Theorem C65_operators eigh g n c errors : eigh_ok eigh -> init g n 1 None = Ok c -> valid_generators n 1 (zd (stab c)) ->
  Forall (fun r => Nat.even (y_count n r) = true) (zd (stab c)) ->
  arg_matrices errors <> [] -> fits 2 2 (arg_matrices errors) -> trace_preserving 2 (arg_matrices errors) ->
  exists Ss E ops, binary_rep_to_pauli_mat (stab c) = Ok Ss /\ encode_krauss_operators eigh c = Ok E /\
    mr E = 2 ^ n /\ mc E = 2 /\ trace_preserving 2 [E] /\
    (forall A, In A Ss -> same_mat (product A E) E) /\
    effective_operators eigh g n 1 errors = Ok ops /\
    Forall2 (encoded (2 ^ n) Ss E) (power_ops (arg_matrices errors) n) ops /\
    fits (2 ^ n) 2 ops /\ trace_preserving 2 ops.
Proof. exact (effective_ok eigh g n c errors). Qed.

Lemma encoded_len {K : StarRing} d Ss (E : marr K) l m : Forall2 (encoded d Ss E) l m -> length l = length m.
Proof. induction 1; cbn; congruence. Qed.

(** The assertion on the total channel passes: the result is that of the optimisation of
    a channel with those trace-preserving operators. *)
Theorem C65_channel eigh g n c errors : eigh_ok eigh -> init g n 1 None = Ok c -> valid_generators n 1 (zd (stab c)) ->
  Forall (fun r => Nat.even (y_count n r) = true) (zd (stab c)) ->
  arg_matrices errors <> [] -> fits 2 2 (arg_matrices errors) -> trace_preserving 2 (arg_matrices errors) ->
  exists ops total, effective_operators eigh g n 1 errors = Ok ops /\ length ops = length (arg_matrices errors) ^ n /\ fits (2 ^ n) 2 ops /\ trace_preserving 2 ops /\
    chan_init (OpList ops) (1, n) 2 2 [] true = Ok total /\
    forall eigvalsh sqrtm s r,
      effective_channel_with_stabilizers eigh eigvalsh sqrtm s r g n 1 errors "coherent"%string = snd (optimize_coherent eigvalsh sqrtm s r total 1 2 effective_options false) /\
      effective_channel_with_stabilizers eigh eigvalsh sqrtm s r g n 1 errors "fidelity"%string = snd (optimize_fidelity eigvalsh sqrtm s r total 1 effective_options).
Proof.
  intros HE I V HY NE F T. destruct (effective_ok eigh g n c errors HE I V HY NE F T) as (Ss & E & ops & _ & _ & _ & _ & _ & _ & EO & EN & FO & TO).
  assert (LO : length ops = length (arg_matrices errors) ^ n) by (rewrite <- (encoded_len _ _ _ _ _ EN); apply power_len).
  assert (NO : ops <> []).
  { intros ->. cbn in LO. destruct (arg_matrices errors) as [|x l]; [contradiction|]. symmetry in LO. apply Nat.pow_nonzero in LO; [exact LO|discriminate]. }
  destruct (proj2 (chan_init_iff (OpList ops) (1, n) 2 2 [] true NO)) as (total & HT). { split; [exact FO|]. apply tp_nearly. exact TO. }
  exists ops, total. split; [exact EO|]. split; [exact LO|]. split; [exact FO|]. split; [exact TO|]. split; [exact HT|]. intros ev sq s r.
  unfold effective_channel_with_stabilizers. destruct (arg_matrices errors) as [|e l] eqn:EA; [contradiction|].
  destruct (Forall_inv F) as [_ F2]. rewrite F2. cbn [Nat.pow Nat.mul Nat.add Nat.eqb negb String.eqb Ascii.eqb Bool.eqb orb]. rewrite EO. cbn [bind]. rewrite HT. cbn [bind]. split; reflexivity.
Qed.

(** What "coherent" returns: a density matrix of one qubit and, as value, the coherent
    information S(N(rho)) - S(N^c(rho)) of the total channel N at that state. *)
Theorem C65_value eigh eigvalsh sqrtm s r g n c errors o : eigh_ok eigh -> eigvalsh_ok eigvalsh -> scipy_ok s ->
  init g n 1 None = Ok c -> valid_generators n 1 (zd (stab c)) -> Forall (fun r => Nat.even (y_count n r) = true) (zd (stab c)) ->
  arg_matrices errors <> [] -> fits 2 2 (arg_matrices errors) -> trace_preserving 2 (arg_matrices errors) ->
  effective_channel_with_stabilizers eigh eigvalsh sqrtm s r g n 1 errors "coherent"%string = Ok o ->
  exists ops s1 s2, effective_operators eigh g n 1 errors = Ok ops /\
    is_square 2 (o_rho o) /\ density 2 (me (o_rho o)) /\ o_val o = Float (s1 - s2)%R /\
    vn_entropy (2 ^ n) (channel_map ops (me (o_rho o))) s1 /\ vn_entropy (length ops) (exchange_entry ops (me (o_rho o))) s2.
Proof.
  intros HE OK Hs I V HY NE F T EO. destruct (C65_channel eigh g n c errors HE I V HY NE F T) as (ops & total & EF & LO & FO & TO & HT & ER).
  destruct (ER eigvalsh sqrtm s r) as [E1 _]. rewrite E1 in EO. clear E1 ER.
  destruct (optimize_coherent eigvalsh sqrtm s r total 1 2 effective_options false) as [c' q] eqn:EP. cbn [snd] in EO. subst q.
  destruct (C57_coherent eigvalsh sqrtm s r total 1 2 effective_options false c' o Hs EP) as (-> & v & HV & HC & _).
  destruct (C72_coherent eigvalsh sqrtm s r total 1 2 effective_options false _ o "overparam"%string Hs eq_refl EP) as (SQ & DE & _).
  destruct (chan_init_made _ _ _ _ _ _ _ HT) as (k & -> & HK). cbn in HK.
  assert (NO : ops <> []).
  { intros ->. cbn in LO. destruct (arg_matrices errors) as [|x l]; [contradiction|]. symmetry in LO. apply Nat.pow_nonzero in LO; [exact LO|discriminate]. }
  assert (N1 : current_n k = 1) by (apply (kraus_init_n _ _ _ _ _ _ _ HK)).
  assert (D2 : input_dimension (fst (update_channel_tensored (KrausType k) 1)) = 2).
  { unfold update_channel_tensored. rewrite N1. cbn [Nat.eqb fst input_dimension]. rewrite N1.
    unfold kraus_init in HK. repeat (apply bind_ok in HK; destruct HK as (? & _ & HK)). injection HK as <-. reflexivity. }
  rewrite D2 in SQ, DE.
  destruct (coherent_kraus eigvalsh sqrtm true (OpList ops) (1, n) 2 2 [] k [] 1 (o_rho o) false OK HK NO (or_introl eq_refl) (Forall_nil _)) as (s1 & s2 & HV2 & S1 & S2); try lia.
  { intros _ _. constructor. } { exact SQ. } { apply DE. }
  cbn [after fold_left] in HV2. rewrite HC in HV2. injection HV2 as ->.
  exists ops, s1, s2. split; [exact EF|]. split; [exact SQ|]. split; [exact DE|]. split; [exact HV|].
  pose proof (power_ops_1 ops) as P1. cbn [fst snd arg_matrices Nat.pow] in S1, S2. rewrite ?Nat.mul_1_r in S1, S2. split.
  - eapply vn_ext; [|exact S1]. intros i j Hi Hj. symmetry. apply (channel_map_same (2 ^ n) 2 ops (power_ops ops 1)); try assumption. intros a b _ _; reflexivity.
  - eapply vn_ext; [|exact S2]. intros i j Hi Hj. symmetry. apply (exchange_entry_same (2 ^ n) 2 ops (power_ops ops 1)); try assumption. intros a b _ _; reflexivity.
Qed.
Print Assumptions C65_operators.
Print Assumptions C65_channel.
Print Assumptions C65_value.

(** a bit-flip channel *)
Definition bit_flip : kraus_arg CC :=
  OpList [MA 2 2 (fun i j => (if Nat.eqb i j then (3 / 5)%R else 0%R, 0%R) : CC); MA 2 2 (fun i j => (if Nat.eqb i j then 0%R else (4 / 5)%R, 0%R) : CC)].
Lemma bit_flip_fits : fits 2 2 (arg_matrices bit_flip).
Proof. repeat constructor. Qed.
Lemma bit_flip_tp : trace_preserving 2 (arg_matrices bit_flip).
Proof.
  intros i j Hi Hj. destruct i as [|[|i]]; [| |lia]; (destruct j as [|[|j]]; [| |lia]); unfold ksum, adj, mm, eye; cbn; apply CC_eq; cbn; lra.
Qed.
Lemma even_rows n rows : forallb (fun r => Nat.even (y_count n r)) rows = true -> Forall (fun r => Nat.even (y_count n r) = true) rows.
Proof. intros H. apply Forall_forall. apply forallb_forall. exact H. Qed.
Example C65_case : exists eigh c, eigh_ok eigh /\ init (Strings five_qubit) 5 1 None = Ok c /\ valid_generators 5 1 (zd (stab c)) /\
  Forall (fun r => Nat.even (y_count 5 r) = true) (zd (stab c)) /\ arg_matrices bit_flip <> [] /\ fits 2 2 (arg_matrices bit_flip) /\ trace_preserving 2 (arg_matrices bit_flip).
Proof.
  destruct C13_case_contract as (eigh & HE). destruct C13_case_code as (c & I & V & Y). exists eigh, c. split; [exact HE|]. split; [exact I|]. split; [exact V|]. split; [apply even_rows, Y|].
  split; [discriminate|]. split; [exact bit_flip_fits|exact bit_flip_tp].
Qed.

Lemma density_ext d A B : eqm d d A B -> density d A -> density d B.
Proof. intros E (A1 & A2 & A3). split; [exact (KrausProofs12.hermitian_ext _ _ _ E A1)|]. split; [exact (KrausProofs2.psd_ext _ _ _ E A2)|]. rewrite <- A3. symmetry. apply tr_eqm, E. Qed.
Lemma state22 : exists rho, over_rho_from_vec one_vec 2 (Some 2) = Ok rho.
Proof. destruct (over_density one_vec 2 2) as (rho & E & _); [lia|reflexivity|exists 1%R; split; [left; reflexivity|lra]|]. eauto. Qed.
Lemma log2_32 : log2 (INR 32) = 5%R.
Proof.
  unfold log2. replace (INR 32) with (2 ^ 5)%R by (cbn; ring). rewrite ln_pow by lra. assert (0 < ln 2)%R by (rewrite <- ln_1; apply ln_increasing; lra). cbn [INR]. field. lra.
Qed.
(** for the five-qubit code and that channel the optimisation returns, if every draw is
    the same vector and the minimiser stays at its starting point *)
Example C65_case_value : exists eigh eigvalsh o, eigh_ok eigh /\ eigvalsh_ok eigvalsh /\ scipy_ok lazy_scipy /\
  effective_channel_with_stabilizers eigh eigvalsh (fun A => A) lazy_scipy one_rng (Strings five_qubit) 5 1 bit_flip "coherent"%string = Ok o.
Proof.
  destruct C65_case as (eigh & c & HE & I & V & HY & NE & F & T). destruct eigvalsh_exists as (ev & OK).
  destruct (C65_channel eigh (Strings five_qubit) 5 c bit_flip HE I V HY NE F T) as (ops & total & EF & LO & FO & TO & HT & ER).
  destruct (ER ev (fun A => A) lazy_scipy one_rng) as [E1 _]. exists eigh, ev. rewrite E1. clear E1 ER.
  assert (G : exists o, snd (optimize_coherent ev (fun A => A) lazy_scipy one_rng total 1 2 effective_options false) = Ok o).
  2:{ destruct G as (o & G). exists o. split; [exact HE|]. split; [exact OK|]. split; [exact lazy_ok|exact G]. }
  destruct (chan_init_made _ _ _ _ _ _ _ HT) as (k & -> & HK). cbn in HK. change (length ops = 32) in LO.
  assert (NO : ops <> []) by (intros ->; discriminate LO).
  assert (N1 : current_n k = 1) by (apply (kraus_init_n _ _ _ _ _ _ _ HK)).
  assert (D2 : input_dimension (KrausType k) = 2).
  { cbn [input_dimension]. rewrite N1. unfold kraus_init in HK. repeat (apply bind_ok in HK; destruct HK as (? & _ & HK)). injection HK as <-. reflexivity. }
  destruct state22 as (rho & ES). destruct (over_result _ _ _ _ ES) as (SQ & DE & _).
  destruct (coherent_kraus ev (fun A => A) true (OpList ops) (1, 5) 2 2 [] k [] 1 rho false OK HK NO (or_introl eq_refl) (Forall_nil _)) as (s1 & s2 & HV & S1 & S2); try lia.
  { intros _ _. constructor. } { exact SQ. } { apply DE. }
  assert (B : (-5 <= s1 - s2)%R).
  { cbn [fst snd arg_matrices Nat.pow] in S1, S2. rewrite LO in S2. pose proof (fits_power (2 ^ 5) 2 ops 1 FO) as FP. pose proof (KrausProofs2.tp_power (2 ^ 5) 2 ops 1 FO TO) as TP.
    assert (DO : density 32 (channel_map (power_ops ops 1) (me rho))).
    { destruct (C31_channel true (OpList ops) (1, 5) 2 2 [] k [] 1 rho HK NO (Forall_nil _)) as (out & _ & _ & EV & _ & _ & TD); try lia.
      { intros _ _. constructor. } { exact SQ. } destruct (TD TO) as [_ TD2]. specialize (TD2 DE). cbn in EV. eapply density_ext; [exact EV|exact TD2]. }
    pose proof (vn_bounds _ _ _ DO S1) as [B1 _].
    assert (DW : density 32 (exchange_entry (power_ops ops 1) (me rho))).
    { pose proof (power_len ops 1) as PL. rewrite LO in PL. cbn in PL. destruct DE as (D1 & D3 & D4). split; [|split].
      - rewrite <- PL. apply (exchange_hermitian _ _ _ _ FP). exact D1.
      - rewrite <- PL. apply (exchange_psd _ _ _ _ FP). exact D3.
      - rewrite <- PL. rewrite (exchange_trace _ _ _ _ FP). apply DO. }
    pose proof (vn_bounds _ _ _ DW S2) as [_ B2]. rewrite log2_32 in B2. lra. }
  cbn [after fold_left] in HV.
  assert (FO1 : obj_coherent ev (fun A => A) 2 2 (OverParam one_rng) 1 (KrausType k) one_vec = (KrausType k, Ok (- (s1 - s2))%R)).
  { unfold obj_coherent. cbn [OverParam p_rho]. rewrite ES. pose proof (coherent_steady ev (fun A => A) (KrausType k) rho 1 false N1) as ST.
    destruct (coherent_information ev (fun A => A) (KrausType k) rho 1 false) as [c2 q]. cbn [fst snd] in *. subst c2 q. reflexivity. }
  unfold optimize_coherent, update_channel_tensored. rewrite N1. change (1 =? 1)%nat with true. cbn iota. unfold optimize_procedure.
  change (procedure_checks ev (fun A => A) one_rng "coherent"%string effective_options) with (Ok (OverParam one_rng, obj_coherent ev (fun A => A))). cbn iota. rewrite D2. cbn [p_bounds OverParam].
  unfold procedure_samples. change (as_int (a_lipschitz effective_options)) with (Z.of_nat 25). change (Z.of_nat 25 =? 0)%Z with false. cbn iota.
  change 1000%Z with (Z.of_nat (Pos.to_nat 1000)).
  rewrite (same_samples (obj_coherent ev (fun A => A) 2 2 (OverParam one_rng) 1) (OverParam one_rng) 2 2 (KrausType k) one_vec rho (- (s1 - s2))%R); try lia; [|intros; reflexivity|exact ES|exact FO1].
  cbn [bind assert_]. unfold procedure_run. change (a_samples effective_options) with (@nil (list R)). cbn [List.app String.eqb a_optimizer effective_options Ascii.eqb Bool.eqb a_use_pool a_lipschitz as_int Z.eqb].
  unfold use_multi_processes.
  assert (M : mapM (fun x0 => snd (slsqp lazy_scipy (obj_coherent ev (fun A => A) 2 2 (OverParam one_rng) 1) (over_bounds 2 2) 250 x0 (KrausType k))) (repeat one_vec 25) = Ok (repeat (Run (- (s1 - s2))%R one_vec true) 25)).
  { generalize 25. intros m. induction m as [|m IH]; [reflexivity|]. cbn [repeat mapM]. rewrite IH. cbn [slsqp lazy_scipy]. rewrite FO1. reflexivity. }
  change (a_maxiter effective_options) with 250%Z. rewrite M. cbn [bind]. destruct (pool_same (Run (- (s1 - s2))%R one_vec true) 25) as (m & ->); [lia|cbn [r_fun]; lra|]. cbn [bind r_x].
  unfold procedure_output. cbn [String.eqb Ascii.eqb Bool.eqb bind OverParam p_rho]. rewrite ES. cbn [bind snd]. eexists. reflexivity.
Qed.

(** ** C66: only codes with one logical qubit are accepted *)
Lemma error_columns errors n k o : error_channel errors n k = Ok o -> arg_matrices errors <> [] -> fits 2 2 (arg_matrices errors).
Proof. exact (error_channel_inv errors n k o). Qed.
Theorem C66_one_logical_qubit_partial eigh eigvalsh sqrtm s r g n k errors optimize o :
  effective_channel_with_stabilizers eigh eigvalsh sqrtm s r g n k errors optimize = Ok o -> k = 1.
Proof.
  unfold effective_channel_with_stabilizers. destruct (negb _); [discriminate|]. destruct (arg_matrices errors) as [|e l] eqn:EA; [discriminate|].
  destruct (negb (Nat.eqb (2 ^ k) (mc e))) eqn:EK; [discriminate|]. apply Bool.negb_false_iff, Nat.eqb_eq in EK.
  unfold effective_operators. destruct (init g n k None) as [c|?]; [|discriminate]. cbn [bind]. destruct (error_channel errors n k) as [oc|?] eqn:EC; [|discriminate]. intros _.
  pose proof (error_columns _ _ _ _ EC) as F. rewrite EA in F. destruct (Forall_inv (F ltac:(discriminate))) as [_ F2]. rewrite F2 in EK.
  destruct k as [|[|k]]; [discriminate|reflexivity|]. exfalso. cbn [Nat.pow] in EK. pose proof (Nat.pow_nonzero 2 k ltac:(discriminate)). lia.
Qed.
(** error operators on k <> 1 qubits, a valid code: AssertionError *)
Theorem C66_assertion_partial eigh eigvalsh sqrtm s r g n k errors optimize c d : optimize = "coherent"%string \/ optimize = "fidelity"%string ->
  init g n k None = Ok c -> arg_matrices errors <> [] -> fits d (2 ^ k) (arg_matrices errors) -> k <> 1 ->
  effective_channel_with_stabilizers eigh eigvalsh sqrtm s r g n k errors optimize = Err AssertionError.
Proof.
  intros HO I NE F Hk. unfold effective_channel_with_stabilizers.
  assert (O : (String.eqb optimize "coherent"%string || String.eqb optimize "fidelity"%string)%bool = true) by (destruct HO as [-> | ->]; reflexivity). rewrite O. cbn [negb].
  assert (K2 : 2 ^ k <> 2). { destruct k as [|[|k]]; [discriminate|contradiction|]. cbn [Nat.pow]. pose proof (Nat.pow_nonzero 2 k ltac:(discriminate)). lia. }
  destruct (arg_matrices errors) as [|e l] eqn:EA; [contradiction|]. destruct (Forall_inv F) as [F1 F2]. rewrite F2, Nat.eqb_refl. cbn [negb].
  unfold effective_operators. rewrite I. cbn [bind].
  assert (EC : error_channel errors n k = Err AssertionError); [|rewrite EC; reflexivity].
  assert (A : exists t, arg_array errors = Ok t).
  { destruct errors as [m|t]; cbn in EA |- *; [|eauto]. subst m. unfold np_array.
    assert (forallb (fun b : marr CC => Nat.eqb (mr b) (mr e) && Nat.eqb (mc b) (mc e))%bool l = true) as ->; [|eauto].
    apply forallb_forall. intros y Hy. destruct (proj1 (Forall_forall _ _) F y (or_intror Hy)) as [Y1 Y2]. rewrite F1, F2, Y1, Y2, !Nat.eqb_refl. reflexivity. }
  destruct A as (t & EAr). unfold error_channel, chan_init, kraus_init. rewrite EAr. cbn [bind]. rewrite EA. cbn [foldM fst snd]. rewrite F2. change (2 ^ 1) with 2.
  rewrite (proj2 (Nat.eqb_neq _ _) K2). reflexivity.
Qed.
(** the [[4,2,2]] code with the identity on two qubits *)
Theorem C66_refuted : exists c, init (Strings four2) 4 2 None = Ok c /\ valid_generators 4 2 (zd (stab c)) /\
  fits 4 4 (arg_matrices (ident 4 : kraus_arg CC)) /\ trace_preserving 4 (arg_matrices (ident 4 : kraus_arg CC)) /\
  forall eigh eigvalsh sqrtm s r, effective_channel_with_stabilizers eigh eigvalsh sqrtm s r (Strings four2) 4 2 (ident 4) "coherent"%string = Err AssertionError.
Proof.
  destruct C10_case as (c & I & V & _). exists c. split; [exact I|]. split; [exact V|]. split; [apply id_fits|]. split; [apply ident_tp|]. intros eigh ev sq s r.
  apply (C66_assertion_partial eigh ev sq s r (Strings four2) 4 2 (ident 4) "coherent"%string c 4); auto; [discriminate|apply id_fits].
Qed.
Example C66_case : exists c, init (Strings four2) 4 2 None = Ok c /\ arg_matrices (ident 4 : kraus_arg CC) <> [] /\ fits 4 (2 ^ 2) (arg_matrices (ident 4 : kraus_arg CC)) /\ 2 <> 1.
Proof. destruct C10_case as (c & I & V & _). exists c. split; [exact I|]. split; [discriminate|]. split; [apply id_fits|discriminate]. Qed.
Print Assumptions C66_one_logical_qubit_partial.
Print Assumptions C66_assertion_partial.
Print Assumptions C66_refuted.

(** ** C76: optimize="fidelity" *)
(** the state and the output of the channel have different sizes *)
Lemma fidelity_shapes sqrtm k rho ops n : sqrtm_ok sqrtm -> kraus_init true (OpList ops) (1, n) 2 2 [] = Ok k -> ops <> [] -> 2 <= n ->
  is_square 2 rho -> density 2 (me rho) -> snd (fidelity_two_states sqrtm (KrausType k) rho 1) = Err ValueError.
Proof.
  intros OK HK NO Hn SQ DE. destruct (C31_channel true (OpList ops) (1, n) 2 2 [] k [] 1 rho HK NO (Forall_nil _)) as (out & EO & [Q1 Q2] & _); try lia.
  { intros _ _. constructor. } { exact SQ. }
  cbn [after fold_left fst snd] in EO, Q1, Q2. rewrite Nat.pow_1_r in Q1, Q2.
  destruct (OK 2 rho SQ (proj1 DE) (proj1 (proj2 DE))) as [[R1 R2] _].
  unfold fidelity_two_states. destruct (chan_channel (KrausType k) rho 1 false) as [c1 q]. cbn [snd] in *. subst q. cbn [bind]. unfold np_dot. rewrite R2, Q1.
  assert (NB : Nat.eqb 2 (2 ^ n) = false). { apply Nat.eqb_neq. destruct n as [|[|n]]; [lia|lia|]. cbn [Nat.pow]. pose proof (Nat.pow_nonzero 2 n ltac:(discriminate)). lia. }
  rewrite NB. reflexivity.
Qed.
(** it never returns, whatever the code, the errors, the draws and the minimiser *)
Theorem C76_never_partial eigh eigvalsh sqrtm s r g n k errors o : scipy_ok s -> sqrtm_ok sqrtm -> 2 <= n ->
  effective_channel_with_stabilizers eigh eigvalsh sqrtm s r g n k errors "fidelity"%string <> Ok o.
Proof.
  intros Hs OK Hn EO. pose proof (C66_one_logical_qubit_partial _ _ _ _ _ _ _ _ _ _ _ EO) as ->.
  unfold effective_channel_with_stabilizers in EO. cbn [String.eqb Ascii.eqb Bool.eqb orb negb] in EO. destruct (arg_matrices errors) as [|e l] eqn:EA; [discriminate|].
  destruct (negb (Nat.eqb (2 ^ 1) (mc e))); [discriminate|]. destruct (effective_operators eigh g n 1 errors) as [ops|?] eqn:EF; [|discriminate]. cbn [bind] in EO.
  destruct (chan_init (OpList ops) (1, n) 2 2 [] true) as [total|?] eqn:HT; [|discriminate]. cbn [bind] in EO.
  destruct (optimize_fidelity eigvalsh sqrtm s r total 1 effective_options) as [c' q] eqn:EP. cbn [snd] in EO. subst q.
  destruct (C57_fidelity eigvalsh sqrtm s r total 1 effective_options c' o Hs) as (-> & v & _ & HC & _); [right; discriminate|exact EP|].
  destruct (C72_fidelity eigvalsh sqrtm s r total 1 effective_options _ o "overparam"%string Hs eq_refl EP) as (SQ & DE & _).
  destruct (chan_init_made _ _ _ _ _ _ _ HT) as (kr & -> & HK). cbn in HK.
  assert (N1 : current_n kr = 1) by (apply (kraus_init_n _ _ _ _ _ _ _ HK)).
  assert (NO : ops <> []) by (intros ->; discriminate HK).
  assert (D2 : input_dimension (fst (update_channel_tensored (KrausType kr) 1)) = 2).
  { unfold update_channel_tensored. rewrite N1. cbn [Nat.eqb fst input_dimension]. rewrite N1.
    unfold kraus_init in HK. repeat (apply bind_ok in HK; destruct HK as (? & _ & HK)). injection HK as <-. reflexivity. }
  rewrite D2 in SQ, DE. rewrite (fidelity_shapes sqrtm kr (o_rho o) ops n OK HK NO Hn SQ DE) in HC. discriminate.
Qed.
(** for a valid code and trace-preserving errors: ValueError, as soon as a state is drawn *)
Theorem C76_value_error_partial eigh eigvalsh sqrtm s r g n c errors v rho : eigh_ok eigh -> sqrtm_ok sqrtm ->
  init g n 1 None = Ok c -> valid_generators n 1 (zd (stab c)) -> Forall (fun r => Nat.even (y_count n r) = true) (zd (stab c)) ->
  arg_matrices errors <> [] -> fits 2 2 (arg_matrices errors) -> trace_preserving 2 (arg_matrices errors) ->
  over_random_vectors (r_normal r 0) (r_uniform r 0) 2 1 "normal"%string = Ok v -> over_rho_from_vec v 2 (Some 1) = Ok rho ->
  effective_channel_with_stabilizers eigh eigvalsh sqrtm s r g n 1 errors "fidelity"%string = Err ValueError.
Proof.
  intros HE OK I V HY NE F T HV HR. destruct (C65_channel eigh g n c errors HE I V HY NE F T) as (ops & total & EF & LO & FO & TO & HT & ER).
  destruct (ER eigvalsh sqrtm s r) as [_ E2]. rewrite E2. clear E2 ER. destruct (chan_init_made _ _ _ _ _ _ _ HT) as (k & -> & HK). cbn in HK.
  assert (NO : ops <> []) by (intros ->; discriminate HK).
  assert (N1 : current_n k = 1) by (apply (kraus_init_n _ _ _ _ _ _ _ HK)).
  assert (D2 : input_dimension (KrausType k) = 2).
  { cbn [input_dimension]. rewrite N1. unfold kraus_init in HK. repeat (apply bind_ok in HK; destruct HK as (? & _ & HK)). injection HK as <-. reflexivity. }
  destruct (over_result _ _ _ _ HR) as (SQ & DE & _). assert (Hn : 2 <= n) by (destruct V as (V0 & V1 & _); lia).
  pose proof (fidelity_shapes sqrtm k rho ops n OK HK NO Hn SQ DE) as FS.
  unfold optimize_fidelity, update_channel_tensored. rewrite N1. change (1 =? 1)%nat with true. cbn iota. unfold optimize_procedure.
  change (procedure_checks eigvalsh sqrtm r "fidelity"%string effective_options) with (Ok (OverParam r, fun (nsize _ : nat) (p : paramet) (n : nat) => obj_fidelity sqrtm nsize p n)). cbn iota. rewrite D2. cbn [p_bounds OverParam].
  unfold procedure_samples. change (as_int (a_lipschitz effective_options)) with 25%Z. cbn [Z.eqb]. unfold initial_guesses_lipschitz. cbn [OverParam p_random p_rho]. rewrite HV. cbn [bind]. rewrite HR. cbn [bind].
  unfold obj_fidelity at 1. cbn [OverParam p_rho]. rewrite HR. destruct (fidelity_two_states sqrtm (KrausType k) rho 1) as [c2 q]. cbn [snd] in FS. subst q. reflexivity.
Qed.
(** one code with all contracts met: the call cannot return *)
Theorem C76_refuted : exists eigh eigvalsh sqrtm, eigh_ok eigh /\ eigvalsh_ok eigvalsh /\ sqrtm_ok sqrtm /\ trace_preserving 2 (arg_matrices bit_flip) /\
  forall s r v rho, over_random_vectors (r_normal r 0) (r_uniform r 0) 2 1 "normal"%string = Ok v -> over_rho_from_vec v 2 (Some 1) = Ok rho ->
  effective_channel_with_stabilizers eigh eigvalsh sqrtm s r (Strings five_qubit) 5 1 bit_flip "fidelity"%string = Err ValueError.
Proof.
  destruct C65_case as (eigh & c & HE & I & V & HY & NE & F & T). destruct eigvalsh_exists as (ev & OK). destruct sqrtm_exists as (sq & OS).
  exists eigh, ev, sq. repeat (split; [assumption|]). intros s r v rho HV HR. exact (C76_value_error_partial eigh ev sq s r _ 5 c bit_flip v rho HE OS I V HY NE F T HV HR).
Qed.
Definition two_rng : rng := Rng (fun _ _ _ _ => [1; 0; 0; 0]%R) (fun _ _ _ _ => [1; 0; 0; 0]%R).
Example C76_case : exists v rho, over_random_vectors (r_normal two_rng 0) (r_uniform two_rng 0) 2 1 "normal"%string = Ok v /\ over_rho_from_vec v 2 (Some 1) = Ok rho.
Proof.
  exists [1; 0; 0; 0]%R. destruct (over_density [1; 0; 0; 0]%R 2 1) as (rho & E & _); [lia|reflexivity|exists 1%R; split; [left; reflexivity|lra]|]. exists rho. split; [reflexivity|exact E].
Qed.
Print Assumptions C76_never_partial.
Print Assumptions C76_value_error_partial.
Print Assumptions C76_refuted.
