(** Properties of the optimisation of decoders (PyQCodes/avgfid/avg_fidelity.py):
    C67, C68, C77, C78, C79.  Specification: AvgFidSpec.v, KrausSpec.v, ChoiSpec.v.
    Model: AvgFidModel.v. *)
From Verif Require Import Py ZMat CodesModel RankSpec CodesSpec CodesProofs PropsCodes Scalar PauliModel PauliSpec PauliProofs2 EncoderProofs EighExists PropsPauli
  KrausModel KrausSpec KrausProofs KrausProofs2 KrausProofs6 KrausProofs8 KrausProofs9 KrausProofs10 Spectral SpectralProofs KrausExamples ChoiModel ChoiSpec ChoiProofs ChoiProofs2 ChannelModel ChannelSpec
  FindModel FindSpec FindProofs PropsKraus OptimProofs3 PropsFind AvgFidModel AvgFidSpec AvgFidProofs AvgFidProofs2 AvgFidProofs3 AvgFidExample AvgFidExample2.
From Coq Require Import Reals Lra ClassicalChoice.
From Coq Require String.
Import String.StringSyntax.
Delimit Scope string_scope with string.
Open Scope nat_scope.
Open Scope K_scope.
Add Ring CCring26 : (s_rt CC).

(** ** C67: the objective *)
(** The programme for operators of D columns and N rows. *)
Theorem C67_programme_partial kraus N D nq din dout options : fits N D kraus -> kraus <> [] -> (din ^ fst nq * dout ^ snd nq = N * D)%nat ->
  exists P, decoder_programme kraus nq din dout options = Ok P /\ pr_size P = (N * D)%nat /\ pr_traced P = 1%nat /\
    pr_dims P = [(din ^ fst nq, din ^ fst nq); (dout ^ snd nq, dout ^ snd nq)]%nat.
Proof.
  intros F NE E. unfold decoder_programme. destruct (objective_entries kraus N D (din ^ fst nq) F NE) as (C & EC & [C1 C2] & _).
  cbn [constraint_partial_trace]. destruct kraus as [|A r]; [contradiction|]. rewrite EC. cbn [bind]. rewrite C1, C2, E, Nat.eqb_refl. cbn [andb].
  eexists. split; [reflexivity|]. cbn. auto.
Qed.
(** The objective at the Choi matrix of the decoder with operators Rs, exactly: the second
    factor has the complex conjugates (not the adjoints) of the operators. *)
Theorem C67_exact_partial kraus Rs N D nq din dout options P : fits N D kraus -> fits D N Rs ->
  decoder_programme kraus nq din dout options = Ok P ->
  value P (choi_arr_of Rs N D) =
  ksum (map (fun R0 => ksum (map (fun A => tr D (mm N (me R0) (me A)) * (tr D (mm N (me R0) (entrywise_conj (me A))))^* ) kraus)) Rs)
  * ((/ INR ((din ^ fst nq) ^ 2))%R, 0%R).
Proof.
  intros F FR. unfold decoder_programme. cbn [constraint_partial_trace]. destruct kraus as [|A r] eqn:EK; [discriminate|]. rewrite <- EK in *.
  destruct (objective_entries kraus N D (din ^ fst nq) F) as (C & EC & [C1 C2] & HC); [subst; discriminate|]. rewrite EC. cbn [bind]. rewrite C1, C2.
  destruct (Nat.eqb_spec (N * D) (din ^ fst nq * dout ^ snd nq)) as [E|E]; [|discriminate]. cbn [andb]. intros H. injection H as <-.
  unfold value. cbn [pr_size pr_objective choi_arr_of me]. rewrite <- E. apply (objective_value kraus Rs N D (din ^ fst nq) C F FR HC).
Qed.
(** With real operators it is the entanglement fidelity of decoder . errors . encoder at the
    maximally mixed state, when the first number of qubits is that of the code's input. *)
Theorem C67_real_partial kraus Rs N D nq din dout options P : fits N D kraus -> fits D N Rs -> real_matrices kraus -> (0 < D)%nat -> (din ^ fst nq)%nat = D ->
  decoder_programme kraus nq din dout options = Ok P ->
  value P (choi_arr_of Rs N D) = (entanglement_fidelity (prod_ops Rs kraus) (mixed D), 0%R).
Proof.
  intros F FR HR HD ED. unfold decoder_programme. cbn [constraint_partial_trace]. destruct kraus as [|A r] eqn:EK; [discriminate|]. rewrite <- EK in *.
  destruct (objective_entries kraus N D (din ^ fst nq) F) as (C & EC & [C1 C2] & HC); [subst; discriminate|]. rewrite EC. cbn [bind]. rewrite C1, C2.
  destruct (Nat.eqb_spec (N * D) (din ^ fst nq * dout ^ snd nq)) as [E|E]; [|discriminate]. cbn [andb]. intros H. injection H as <-.
  unfold value. cbn [pr_size pr_objective choi_arr_of me]. rewrite <- E. rewrite (real_objective kraus Rs N D (din ^ fst nq) C F FR HR); [|lia|lia|exact HC].
  rewrite ED. f_equal. replace (INR D / INR D)%R with 1%R; [ring|]. symmetry. apply Rinv_r. apply not_0_INR. lia.
Qed.
(** so that, when the operators preserve the trace too, it lies between 0 and 1 at every
    trace-preserving decoder *)
Lemma mixed_density D : (0 < D)%nat -> density D (me (mixed D)).
Proof.
  intros HD. assert (I1 : (0 < INR D)%R) by (apply lt_0_INR; lia). split; [|split].
  - intros i j _ _. unfold adj. cbn [mixed me]. rewrite Nat.eqb_sym. destruct (Nat.eqb i j); apply CC_eq; cbn; ring.
  - rewrite psd_quad. intros v. unfold quad. apply nonneg_bsum. intros i Hi. rewrite (bsum_one D i); [|exact Hi|].
    + cbn [mixed me]. rewrite Nat.eqb_refl. exists ((/ INR D) * (fst (v i) * fst (v i) + snd (v i) * snd (v i)))%R. split.
      * apply Rmult_le_pos; [apply Rlt_le, Rinv_0_lt_compat, I1|nra].
      * apply CC_eq; cbn; ring.
    + intros j _ N. cbn [mixed me]. destruct (Nat.eqb_spec i j); [congruence|]. apply CC_eq; cbn; ring.
  - unfold tr. rewrite (bsum_ext D _ (fun _ => (((/ INR D)%R, 0%R) : CC) * 1)); [rewrite bsum_mul_l, bsum_one_const|].
    + apply CC_eq; cbn; [field; lra|ring].
    + intros i _. cbn [mixed me]. rewrite Nat.eqb_refl. apply CC_eq; cbn; ring.
Qed.
Theorem C67_range_partial kraus Rs N D nq din dout options P : fits N D kraus -> fits D N Rs -> real_matrices kraus -> (0 < D)%nat -> (din ^ fst nq)%nat = D ->
  trace_preserving D kraus -> trace_preserving N Rs -> decoder_programme kraus nq din dout options = Ok P ->
  exists x, (0 <= x <= 1)%R /\ value P (choi_arr_of Rs N D) = (x, 0%R).
Proof.
  intros F FR HR HD ED TK TR HP. exists (entanglement_fidelity (prod_ops Rs kraus) (mixed D)). split; [|apply (C67_real_partial kraus Rs N D nq din dout options P); assumption].
  apply (fidelity_le_one D); [exact (fits_prod D N D _ _ FR F)|exact (tp_prod D N D _ _ FR F TR TK)|apply mixed_density, HD].
Qed.

(** The operator Y on one qubit: the decoder Y has fidelity one and objective -1, and the
    objective is at most 0 on everything the programme ranges over. *)
Definition Y_op : marr CC := MA (K := CC) 2 2 (fun i j => match i, j with 0%nat, 1%nat => (0%R, (-1)%R) | 1%nat, 0%nat => (0%R, 1%R) | _, _ => (0%R, 0%R) end).
Lemma Y_fits : fits 2 2 [Y_op]. Proof. repeat constructor. Qed.
Lemma Y_tp : trace_preserving 2 [Y_op].
Proof.
  intros i j Hi Hj. cbn [map]. rewrite ksum_cons, ksum_nil. destruct i as [|[|i]]; [| |lia]; (destruct j as [|[|j]]; [| |lia]);
    apply CC_eq; unfold mm, adj, eye; cbn; ring.
Qed.
Theorem C67_refuted : exists P, decoder_programme [Y_op] (1, 1)%nat 2 2 None = Ok P /\ feasible P (choi_arr_of [Y_op] 2 2) /\
  entanglement_fidelity (prod_ops [Y_op] [Y_op]) (mixed 2) = 1%R /\ value P (choi_arr_of [Y_op] 2 2) = ((-1)%R, 0%R) /\
  forall X, feasible P X -> (fst (value P X) <= 0)%R.
Proof.
  destruct (C67_programme_partial [Y_op] 2 2 (1, 1)%nat 2 2 None Y_fits ltac:(discriminate) eq_refl) as (P & HP & SZ & TR & DM). exists P. split; [exact HP|]. split; [|split; [|split]].
  - unfold feasible. rewrite SZ, TR, DM. cbn [fst snd Nat.pow Nat.mul Nat.add choi_arr_of me]. split; [split; reflexivity|].
    split; [apply (choi_is_hermitian [Y_op] 2 2 Y_fits)|]. split; [apply (choi_is_psd [Y_op] 2 2 Y_fits)|]. apply (choi_tp [Y_op] 2 2 Y_fits). apply Y_tp.
  - unfold entanglement_fidelity, prod_ops. cbn [flat_map map List.app]. unfold reals_sum. cbn [map fold_right mr mc me]. rewrite Cmod_sq.
    change (tr 2 (mm (mc Y_op) (mm (mc Y_op) (me Y_op) (me Y_op)) (me (mixed 2)))) with (tr 2 (mm 2 (mm 2 (me Y_op) (me Y_op)) (me (mixed 2)))).
    rewrite tr_mixed. unfold tr, mm. cbn [bsum]. cbn. field.
  - rewrite (C67_exact_partial [Y_op] [Y_op] 2 2 (1, 1)%nat 2 2 None P Y_fits Y_fits HP). cbn [map]. rewrite !ksum_cons, !ksum_nil. unfold tr, mm, entrywise_conj. cbn [bsum].
    apply CC_eq; cbn; field.
  - intros X (_ & _ & PX & _). rewrite SZ in PX. unfold decoder_programme in HP. cbn [constraint_partial_trace] in HP.
    destruct (objective_entries [Y_op] 2 2 (2 ^ 1) Y_fits ltac:(discriminate)) as (C & EC & [C1 C2] & HC). cbn [fst snd] in HP. rewrite EC in HP. cbn [bind] in HP. rewrite C1, C2 in HP.
    cbn [Nat.mul Nat.add Nat.pow Nat.eqb andb] in HP. injection HP as <-. unfold value. cbn [pr_size pr_objective]. change 4%nat with (2 * 2)%nat. rewrite inner_blocks.
    destruct (PX (fun i => match i with 1%nat => (1%R, 0%R) | 2%nat => ((-1)%R, 0%R) | _ => (0%R, 0%R) end)) as (x & Hx & Ex). cbn [bsum Nat.mul Nat.add] in Ex. cbn [bsum].
    assert (K : forall i a j b, (i < 2)%nat -> (a < 2)%nat -> (j < 2)%nat -> (b < 2)%nat -> me C (i * 2 + a)%nat (j * 2 + b)%nat = (me Y_op i a)^* * (me Y_op j b)^* * ((/ 4)%R, 0%R)).
    { intros i a j b Hi Ha Hj Hb. rewrite HC by assumption. cbn [map]. rewrite ksum_cons, ksum_nil. replace (INR ((2 ^ 1) ^ 2)) with 4%R by (cbn; ring). ring. }
    rewrite (K 0 0 0 0)%nat, (K 0 0 0 1)%nat, (K 0 0 1 0)%nat, (K 0 0 1 1)%nat, (K 0 1 0 0)%nat, (K 0 1 0 1)%nat, (K 0 1 1 0)%nat, (K 0 1 1 1)%nat,
      (K 1 0 0 0)%nat, (K 1 0 0 1)%nat, (K 1 0 1 0)%nat, (K 1 0 1 1)%nat, (K 1 1 0 0)%nat, (K 1 1 0 1)%nat, (K 1 1 1 0)%nat, (K 1 1 1 1)%nat by lia.
    apply (f_equal fst) in Ex. cbn in Ex |- *. lra.
Qed.

(** bit flips without a code, and the decoder that does nothing *)
Example C67_case : exists P, decoder_programme (arg_matrices bit_flip) (1, 1)%nat 2 2 None = Ok P /\ fits 2 2 (arg_matrices bit_flip) /\
  real_matrices (arg_matrices bit_flip) /\ trace_preserving 2 (arg_matrices bit_flip) /\ fits 2 2 (arg_matrices (ident 2 : kraus_arg CC)) /\ trace_preserving 2 (arg_matrices (ident 2 : kraus_arg CC)) /\
  value P (choi_arr_of (arg_matrices (ident 2 : kraus_arg CC)) 2 2) = ((9 / 25)%R, 0%R).
Proof.
  destruct (C67_programme_partial (arg_matrices bit_flip) 2 2 (1, 1)%nat 2 2 None bit_flip_fits ltac:(discriminate) eq_refl) as (P & HP & _). exists P. split; [exact HP|]. split; [exact bit_flip_fits|].
  assert (HR : real_matrices (arg_matrices bit_flip)) by (repeat constructor).
  split; [exact HR|]. split; [exact bit_flip_tp|]. split; [apply id_fits|]. split; [apply ident_tp|].
  rewrite (C67_exact_partial _ _ 2 2 (1, 1)%nat 2 2 None P bit_flip_fits (id_fits 2) HP). unfold ksum, tr, mm, entrywise_conj. apply CC_eq; cbn; field.
Qed.
Print Assumptions C67_programme_partial.
Print Assumptions C67_exact_partial.
Print Assumptions C67_real_partial.
Print Assumptions C67_range_partial.
Print Assumptions C67_refuted.

(** ** C68: optimize_decoder *)
Theorem C68_never_partial encoder kraus_chan nq din dout options d : optimize_decoder encoder kraus_chan nq din dout options <> Ok d.
Proof. unfold optimize_decoder. destruct (chan_init _ _ _ _ _ _); discriminate. Qed.
(** every channel that is accepted as such ends in a NameError *)
Theorem C68_name_error_partial encoder kraus_chan nq din dout options : arg_matrices kraus_chan <> [] ->
  fits (dout ^ snd nq) (din ^ fst nq) (arg_matrices kraus_chan) -> trace_preserving (din ^ fst nq) (arg_matrices kraus_chan) ->
  optimize_decoder encoder kraus_chan nq din dout options = Err NameError.
Proof.
  intros NE F T. destruct (proj2 (chan_init_iff kraus_chan nq din dout [] false NE)) as (c & HC); [split; [exact F|apply tp_nearly, T]|].
  unfold optimize_decoder. rewrite HC. reflexivity.
Qed.
Theorem C68_refuted : fits 2 2 (arg_matrices bit_flip) /\ trace_preserving 2 (arg_matrices bit_flip) /\
  forall encoder options, optimize_decoder encoder bit_flip (1, 1)%nat 2 2 options = Err NameError.
Proof.
  split; [exact bit_flip_fits|]. split; [exact bit_flip_tp|]. intros encoder options. apply C68_name_error_partial; [discriminate|exact bit_flip_fits|exact bit_flip_tp].
Qed.
Print Assumptions C68_never_partial.
Print Assumptions C68_name_error_partial.
Print Assumptions C68_refuted.

(** ** C77: the matrices over which optimize_decoder_stabilizers maximises *)
(** In the documented order of the numbers of qubits (decoder from n to k), the Choi matrix
    of a decoder is admitted exactly if the decoder preserves the trace, ... *)
Theorem C77_documented_partial kraus Rs N D nq din dout options P : fits N D kraus -> fits D N Rs -> (din ^ fst nq)%nat = N -> (dout ^ snd nq)%nat = D ->
  decoder_programme kraus nq din dout options = Ok P -> (feasible P (choi_arr_of Rs N D) <-> trace_preserving N Rs).
Proof.
  intros F FR EN ED HP. assert (NE : kraus <> []) by (intros ->; discriminate).
  destruct (C67_programme_partial kraus N D nq din dout options F NE) as (P' & HP' & SZ & TR & DM); [congruence|]. rewrite HP in HP'. injection HP' as <-.
  unfold feasible. rewrite SZ, TR, DM, EN, ED. rewrite <- (choi_tp Rs D N FR). split; [intros (_ & _ & _ & H); exact H|]. intros H.
  split; [split; reflexivity|]. split; [apply choi_is_hermitian, FR|]. split; [apply choi_is_psd, FR|exact H].
Qed.
(** ... and what is admitted are the Choi matrices of trace-preserving decoders, ... *)
Lemma feasible_choi P a b X : pr_size P = (a * b)%nat -> pr_traced P = 1%nat -> pr_dims P = [(a, a); (b, b)] -> (0 < b)%nat -> feasible P X ->
  exists ops, fits b a ops /\ trace_preserving a ops /\ eqm (a * b) (a * b) (me X) (choi_matrix ops b).
Proof.
  intros SZ TR DM Hb. unfold feasible. rewrite SZ, TR, DM. intros (_ & _ & PX & HT). destruct (psd_is_choi b a (me X) Hb PX) as (ops & FO & EO). exists ops. split; [exact FO|]. split.
  - apply (choi_tp ops b a FO). intros i j Hi Hj. rewrite <- (HT i j Hi Hj). unfold trace_second. apply bsum_ext. intros t Ht. apply EO; nia.
  - intros p q Hp Hq. symmetry. apply EO; assumption.
Qed.
Theorem C77_documented_only_partial kraus N D nq din dout options P X : fits N D kraus -> (din ^ fst nq)%nat = N -> (dout ^ snd nq)%nat = D -> (0 < D)%nat ->
  decoder_programme kraus nq din dout options = Ok P -> feasible P X ->
  exists Rs, fits D N Rs /\ trace_preserving N Rs /\ eqm (N * D) (N * D) (me X) (choi_matrix Rs D).
Proof.
  intros F EN ED HD HP HX. assert (NE : kraus <> []) by (intros ->; discriminate).
  destruct (C67_programme_partial kraus N D nq din dout options F NE) as (P' & HP' & SZ & TR & DM); [congruence|]. rewrite HP in HP'. injection HP' as <-. rewrite EN, ED in DM.
  apply (feasible_choi P N D X SZ TR DM HD HX).
Qed.
(** ... but the objective is then too small by the factor (D / N)^2. *)
Theorem C77_documented_value_partial kraus Rs N D nq din dout options P : fits N D kraus -> fits D N Rs -> real_matrices kraus -> (0 < D)%nat -> (0 < N)%nat ->
  (din ^ fst nq)%nat = N -> decoder_programme kraus nq din dout options = Ok P ->
  value P (choi_arr_of Rs N D) = ((entanglement_fidelity (prod_ops Rs kraus) (mixed D) * (INR D / INR N) ^ 2)%R, 0%R).
Proof.
  intros F FR HR HD HN EN. unfold decoder_programme. cbn [constraint_partial_trace]. destruct kraus as [|A r] eqn:EK; [discriminate|]. rewrite <- EK in *.
  destruct (objective_entries kraus N D (din ^ fst nq) F) as (C & EC & [C1 C2] & HC); [subst; discriminate|]. rewrite EC. cbn [bind]. rewrite C1, C2.
  destruct (Nat.eqb_spec (N * D) (din ^ fst nq * dout ^ snd nq)) as [E|E]; [|discriminate]. cbn [andb]. intros H. injection H as <-.
  unfold value. cbn [pr_size pr_objective choi_arr_of me]. rewrite <- E. rewrite EN in HC. apply (real_objective kraus Rs N D N C F FR HR HD HN HC).
Qed.
(** optimize_decoder_stabilizers passes the numbers in the other order.  What it returns is
    the Choi matrix of a channel from k to n qubits, of trace 2^k, ... *)
Lemma stabilizers_programme eigh solve g n k errors options d : optimize_decoder_stabilizers eigh solve g n k errors options = Ok d ->
  exists kraus P, encoded_operators eigh g n k errors = Ok kraus /\ decoder_programme kraus (k, n) 2 2 options = Ok P /\ solve P = Ok d /\
    pr_size P = (2 ^ k * 2 ^ n)%nat /\ pr_traced P = 1%nat /\ pr_dims P = [(2 ^ k, 2 ^ k); (2 ^ n, 2 ^ n)]%nat.
Proof.
  unfold optimize_decoder_stabilizers. destruct (encoded_operators eigh g n k errors) as [kraus|] eqn:EK; [|discriminate]. cbn [bind]. unfold optimize_average_entang_fid.
  destruct (decoder_programme kraus (k, n) 2 2 options) as [P|] eqn:EP; [|discriminate]. cbn [bind]. intros ES. exists kraus, P. split; [reflexivity|]. split; [exact EP|]. split; [exact ES|].
  unfold decoder_programme in EP. cbn [constraint_partial_trace fst snd] in EP. destruct kraus as [|A r]; [discriminate|]. destruct (objective_matrix (A :: r) (2 ^ k)) as [C|]; [|discriminate].
  cbn [bind] in EP. destruct (_ && _)%bool; [|discriminate]. injection EP as <-. cbn. auto.
Qed.
Lemma two_pos n : (0 < 2 ^ n)%nat. Proof. pose proof (Nat.pow_nonzero 2 n ltac:(discriminate)). lia. Qed.
Theorem C77_result_partial eigh solve g n k errors options d : solver_ok solve -> optimize_decoder_stabilizers eigh solve g n k errors options = Ok d ->
  exists ops, fits (2 ^ n) (2 ^ k) ops /\ trace_preserving (2 ^ k) ops /\ eqm (2 ^ k * 2 ^ n) (2 ^ k * 2 ^ n) (me (optimal_recov d)) (choi_matrix ops (2 ^ n)) /\
    tr (2 ^ k * 2 ^ n) (me (optimal_recov d)) = (INR (2 ^ k), 0%R).
Proof.
  intros HS HD. destruct (stabilizers_programme _ _ _ _ _ _ _ _ HD) as (kraus & P & _ & _ & ES & SZ & TR & DM). destruct (HS P d ES) as (FE & _ & _).
  destruct (feasible_choi P (2 ^ k) (2 ^ n) _ SZ TR DM (two_pos n) FE) as (ops & F & T & E). exists ops. split; [exact F|]. split; [exact T|]. split; [exact E|].
  rewrite <- (choi_trace ops (2 ^ n) (2 ^ k) F T). apply bsum_ext. intros i Hi. apply E; exact Hi.
Qed.
(** ... so that for n <> k it is not the Choi matrix of any decoder. *)
Theorem C77_never_partial eigh solve g n k errors options d : solver_ok solve -> optimize_decoder_stabilizers eigh solve g n k errors options = Ok d -> n <> k ->
  ~ exists Rs, fits (2 ^ k) (2 ^ n) Rs /\ trace_preserving (2 ^ n) Rs /\ eqm (2 ^ n * 2 ^ k) (2 ^ n * 2 ^ k) (me (optimal_recov d)) (choi_matrix Rs (2 ^ k)).
Proof.
  intros HS HD Nk (Rs & F & T & E). destruct (C77_result_partial _ _ _ _ _ _ _ _ HS HD) as (_ & _ & _ & _ & TX).
  assert (TY : tr (2 ^ n * 2 ^ k) (me (optimal_recov d)) = (INR (2 ^ n), 0%R)).
  { rewrite <- (choi_trace Rs (2 ^ k) (2 ^ n) F T). apply bsum_ext. intros i Hi. apply E; exact Hi. }
  rewrite Nat.mul_comm in TY. rewrite TY in TX. injection TX as TX. apply INR_eq in TX. apply Nk. apply (Nat.pow_inj_r 2); [lia|exact TX].
Qed.
Lemma value_bound kraus n k options P X q : decoder_programme kraus (k, n) 2 2 options = Ok P -> fits (2 ^ n) (2 ^ k) kraus -> real_matrices kraus ->
  ForallOrdPairs (fun A B => tr (2 ^ k) (mm (2 ^ n) (adj (me A)) (me B)) = 0) kraus -> (0 < q)%R ->
  Forall (fun A : marr CC => (fst (tr (2 ^ k) (mm (2 ^ n) (adj (me A)) (me A))) <= q * INR (2 ^ k))%R) kraus ->
  feasible P X -> (fst (value P X) <= q)%R.
Proof.
  intros EP F HR HO Hq Hb FE. set (N := (2 ^ n)%nat) in *. set (D := (2 ^ k)%nat) in *. assert (HD0 : (0 < D)%nat) by apply two_pos.
  assert (NE : kraus <> []) by (intros ->; discriminate).
  unfold decoder_programme in EP. cbn [constraint_partial_trace fst snd] in EP. destruct kraus as [|A r] eqn:EKr; [discriminate|]. rewrite <- EKr in *.
  destruct (objective_entries kraus N D D F NE) as (C & EC & [C1 C2] & HC). fold D in EP. rewrite EC in EP. cbn [bind] in EP. destruct (_ && _)%bool; [|discriminate]. injection EP as <-.
  unfold value. cbn [pr_size pr_objective]. fold N. rewrite (Nat.mul_comm D N). rewrite (value_quad kraus N D D C _ F HR HC).
  unfold feasible in FE. cbn [pr_size pr_traced pr_dims] in FE. fold N in FE. destruct FE as (_ & _ & PX & TX). apply trace_of_second in TX. rewrite (Nat.mul_comm D N) in PX, TX.
  pose proof (psd_bound (N * D) (me X) (map (vec D) kraus) (q * INR D) (INR D)) as B. rewrite map_map in B.
  assert (I0 : (0 < INR D)%R) by (apply lt_0_INR; exact HD0).
  specialize (B ltac:(apply Rmult_lt_0_compat; assumption) PX TX).
  assert (OO : ForallOrdPairs (fun w w' : nat -> CC => dotp (N * D) w w' = 0) (map (vec D) kraus)).
  { clear -HO HD0. induction HO as [|A l HA HO IH]; cbn [map]; constructor; [|exact IH]. apply Forall_map. revert HA. apply Forall_impl. intros B HB. rewrite vec_dot by exact HD0. exact HB. }
  specialize (B OO). assert (NN : Forall (fun w : nat -> CC => (fst (dotp (N * D) w w) <= q * INR D)%R) (map (vec D) kraus)).
  { apply Forall_map. revert Hb. apply Forall_impl. intros A0 HA. rewrite vec_dot by exact HD0. exact HA. }
  specialize (B NN). rewrite pow_INR. cbn in B |- *.
  set (z := ksum _) in *. assert (0 < / (INR D * (INR D * 1)))%R by (apply Rinv_0_lt_compat; nra).
  apply Rle_trans with (q * INR D * INR D * / (INR D * (INR D * 1)))%R; [nra|]. apply Req_le. field. lra.
Qed.
(** When the operators (error . encoder) are real and orthogonal, as for different Pauli
    errors of a non-degenerate code, the optimal value is at most the probability q of the
    likeliest error: no correction is seen. *)
Theorem C77_bound_partial eigh solve g n k errors options d kraus q : solver_ok solve -> optimize_decoder_stabilizers eigh solve g n k errors options = Ok d ->
  encoded_operators eigh g n k errors = Ok kraus -> fits (2 ^ n) (2 ^ k) kraus -> real_matrices kraus ->
  ForallOrdPairs (fun A B => tr (2 ^ k) (mm (2 ^ n) (adj (me A)) (me B)) = 0) kraus -> (0 < q)%R ->
  Forall (fun A : marr CC => (fst (tr (2 ^ k) (mm (2 ^ n) (adj (me A)) (me A))) <= q * INR (2 ^ k))%R) kraus ->
  (optimal_val d <= q)%R.
Proof.
  intros HS HD EK F HR HO Hq Hb. destruct (stabilizers_programme _ _ _ _ _ _ _ _ HD) as (kraus' & P & EK' & EP & ES & SZ & TR & DM). rewrite EK in EK'. injection EK' as <-.
  destruct (HS P d ES) as (FE & EV & _). pose proof (value_bound kraus n k options P _ q EP F HR HO Hq Hb FE) as B. rewrite EV in B. exact B.
Qed.

(** a solver that returns an optimum whenever there is one *)
Theorem solver_exists : exists solve, solver_ok solve /\
  forall P X v, feasible P X -> value P X = (v, 0%R) -> (forall Y, feasible P Y -> (fst (value P Y) <= v)%R) -> exists d, solve P = Ok d.
Proof.
  destruct (choice (fun (P : programme) (r : res decoder) =>
    (forall d, r = Ok d -> feasible P (optimal_recov d) /\ value P (optimal_recov d) = (optimal_val d, 0%R) /\ forall X, feasible P X -> (fst (value P X) <= optimal_val d)%R) /\
    (forall X v, feasible P X -> value P X = (v, 0%R) -> (forall Y, feasible P Y -> (fst (value P Y) <= v)%R) -> exists d, r = Ok d))) as (solve & H).
  - intros P. destruct (classic (exists X v, feasible P X /\ value P X = (v, 0%R) /\ (forall Y, feasible P Y -> (fst (value P Y) <= v)%R))) as [(X & v & H1 & H2 & H3)|N].
    + exists (Ok (Decoder "optimal"%string 0%R X v)). split; [|eauto]. intros d E. injection E as <-. cbn. auto.
    + exists (Err Unmodelled). split; [discriminate|]. intros X v H1 H2 H3. exfalso. apply N. exists X, v. auto.
  - exists solve. split; [intros P d E; apply (proj1 (H P)), E|]. intros P. apply (proj2 (H P)).
Qed.

(** The repetition code with bit flips of probability 9/25: the value found is the
    probability (16/25)^3 = 0.26 of no flip, the majority decoder has fidelity 0.70. *)
Definition best3 : marr CC := MA (K := CC) 16 16 (fun p q => ((if (Nat.eqb p 0 || Nat.eqb p 15)%bool then 1 else 0) * (if (Nat.eqb q 0 || Nat.eqb q 15)%bool then 1 else 0), 0)%R).
Definition ends (p : nat) : CC := (if (Nat.eqb p 0 || Nat.eqb p 15)%bool then 1%R else 0%R, 0%R).
Lemma best3_entry p q : me best3 p q = ends p * ends q.
Proof. unfold best3, ends. cbn [me]. destruct (Nat.eqb p 0 || Nat.eqb p 15)%bool, (Nat.eqb q 0 || Nat.eqb q 15)%bool; apply CC_eq; cbn; ring. Qed.
Lemma ends_conj p : (ends p)^* = ends p. Proof. apply CC_eq; cbn; ring. Qed.
Lemma best3_quad v : quad 16 (me best3) v = (((Cmod ((v 0%nat)^* + (v 15%nat)^* ) ^ 2)%R, 0%R) : CC).
Proof.
  rewrite <- Cmod_sq_rc. unfold quad. rewrite (bsum_ext 16 _ (fun i => (v i)^* * ends i * bsum 16 (fun j => ends j * v j))).
  - rewrite bsum_mul_r. assert (E : forall f : nat -> CC, bsum 16 (fun i => f i * ends i) = f 0%nat + f 15%nat).
    { intros f. cbn [bsum]. unfold ends. cbn [Nat.eqb orb]. apply CC_eq; cbn; ring. }
    rewrite (E (fun i => (v i)^* )). rewrite (bsum_ext 16 (fun j => ends j * v j) (fun j => v j * ends j)) by (intros; ring). rewrite (E v). rewrite sconj_add, !sconj_conj. ring.
  - intros i _. rewrite <- bsum_mul_l. apply bsum_ext; intros j _. rewrite best3_entry. ring.
Qed.
Lemma best3_psd : psd 16 (me best3).
Proof. rewrite psd_quad. intros v. rewrite best3_quad. eexists. split; [apply pow2_ge_0|reflexivity]. Qed.
Lemma best3_value kraus C : fits 8 2 kraus -> same_ops kraus flipped ->
  (forall i a j b, (i < 8)%nat -> (a < 2)%nat -> (j < 8)%nat -> (b < 2)%nat ->
      me C (i * 2 + a)%nat (j * 2 + b)%nat = ksum (map (fun A => (me A i a)^* * (me A j b)^* ) kraus) * ((/ INR (2 ^ 2))%R, 0%R)) ->
  inner 16 (me best3) (me C) = (likeliest, 0%R).
Proof.
  intros F H HC. change 16%nat with (8 * 2)%nat. rewrite (value_quad kraus 8 2 2 C _ F (same_real _ _ H flipped_real) HC).
  assert (E : map (fun A => quad (8 * 2) (me best3) (vec 2 A)) kraus = map (fun A => quad (8 * 2) (me best3) (vec 2 A)) flipped).
  { clear -F H. revert F. induction H as [|A B l m (E1 & E2 & E3) H IH]; intros F; [reflexivity|]. inversion F as [|? ? [F1 F2] F3]; subst. cbn [map]. f_equal; [|apply IH; exact F3].
    unfold quad. apply bsum_ext; intros i Hi. apply bsum_ext; intros j Hj. unfold vec.
    rewrite (E3 (i / 2)%nat (i mod 2)%nat), (E3 (j / 2)%nat (j mod 2)%nat); rewrite ?F1, ?F2; try (apply Nat.mod_upper_bound; discriminate); try (apply Nat.div_lt_upper_bound; lia). reflexivity. }
  rewrite E. unfold flipped. cbn [map]. rewrite !ksum_cons, ksum_nil. change (8 * 2)%nat with 16%nat. rewrite !best3_quad, !Cmod_sq. unfold vec, one_flip, likeliest. apply CC_eq; cbn; [field|ring].
Qed.
Theorem C77_refuted : exists eigh solve c kraus d Rs, eigh_ok eigh /\ solver_ok solve /\
  init (Strings rep3) 3 1 None = Ok c /\ valid_generators 3 1 (zd (stab c)) /\ fits 2 2 (arg_matrices flips) /\ trace_preserving 2 (arg_matrices flips) /\
  encoded_operators eigh (Strings rep3) 3 1 flips = Ok kraus /\ fits 2 8 Rs /\ trace_preserving 8 Rs /\
  optimize_decoder_stabilizers eigh solve (Strings rep3) 3 1 flips None = Ok d /\
  optimal_val d = ((16 / 25) ^ 3)%R /\
  entanglement_fidelity (prod_ops Rs kraus) (mixed 2) = ((16 / 25) ^ 3 + 3 * ((16 / 25) ^ 2 * (9 / 25)))%R.
Proof.
  destruct diagonal_eigh as (eigh & HE & HK). destruct solver_exists as (solve & HS & HX).
  assert (exists c, init (Strings rep3) 3 1 None = Ok c /\ valid_generators 3 1 (zd (stab c))) as (c & I & V) by (eexists; split; [vm_compute; reflexivity|valid]).
  destruct (rep3_operators eigh c HK I) as (kraus & EK & SK). pose proof (fits_same _ _ _ _ flipped_fits SK) as F.
  assert (NE : kraus <> []) by (intros ->; inversion SK).
  destruct (C67_programme_partial kraus 8 2 (1, 3)%nat 2 2 None F NE eq_refl) as (P & HP & SZ & TR & DM).
  assert (BV : value P best3 = (likeliest, 0%R)).
  { destruct (objective_entries kraus 8 2 2 F NE) as (C & EC & [C1 C2] & HC). pose proof HP as HP'. unfold decoder_programme in HP'. cbn [constraint_partial_trace fst snd] in HP'. destruct kraus as [|A0 r] eqn:EKr; [contradiction|]. rewrite <- EKr in *.
    change (2 ^ 1)%nat with 2%nat in HP'. rewrite EC in HP'. cbn [bind] in HP'. destruct (_ && _)%bool; [|discriminate]. injection HP' as <-. unfold value. cbn [pr_size pr_objective]. apply (best3_value kraus C F SK HC). }
  assert (BF : feasible P best3).
  { unfold feasible. rewrite SZ, TR, DM. cbn [fst snd]. split; [split; reflexivity|]. split; [|split; [exact best3_psd|]].
    - apply psd_hermitian. exact best3_psd.
    - intros i j Hi Hj. cbn in Hi, Hj. unfold trace_second, eye. cbn [Nat.pow Nat.mul Nat.add bsum]. rewrite !best3_entry. unfold ends. destruct i as [|[|i]]; [| |lia]; (destruct j as [|[|j]]; [| |lia]); apply CC_eq; cbn; ring. }
  assert (LP : (0 < likeliest)%R) by (unfold likeliest; lra).
  assert (UB : forall Y, feasible P Y -> (fst (value P Y) <= likeliest)%R).
  { intros Y FY. apply (value_bound kraus 3 1 None P Y likeliest HP F (same_real _ _ SK flipped_real) (same_orth 8 2 _ _ F SK flipped_orth) LP); [|exact FY]. apply (same_norm 8 2 _ _ _ F SK flipped_norm). }
  destruct (HX P best3 likeliest BF BV UB) as (d & ED).
  exists eigh, solve, c, kraus, d, majority. split; [exact HE|]. split; [exact HS|]. split; [exact I|]. split; [exact V|]. split; [exact flips_fits|]. split; [exact flips_tp|]. split; [exact EK|].
  split; [exact majority_fits|]. split; [exact majority_tp|]. split; [|split].
  - unfold optimize_decoder_stabilizers. rewrite EK. cbn [bind]. unfold optimize_average_entang_fid. rewrite HP. exact ED.
  - destruct (HS P d ED) as (F1 & V1 & M1). pose proof (UB _ F1) as L1. pose proof (M1 _ BF) as L2. rewrite V1 in L1. rewrite BV in L2. cbn [fst] in L1, L2. apply Rle_antisym; assumption.
  - apply (majority_fidelity kraus SK).
Qed.
Example C77_case : exists kraus P, decoder_programme kraus (3, 1)%nat 2 2 None = Ok P /\ fits 8 2 kraus /\ real_matrices kraus /\ fits 2 8 majority /\ trace_preserving 8 majority /\
  feasible P (choi_arr_of majority 8 2).
Proof.
  destruct (C67_programme_partial flipped 8 2 (3, 1)%nat 2 2 None flipped_fits ltac:(discriminate) eq_refl) as (P & HP & _). exists flipped, P. split; [exact HP|]. split; [exact flipped_fits|].
  split; [exact flipped_real|]. split; [exact majority_fits|]. split; [exact majority_tp|]. apply (C77_documented_partial flipped majority 8 2 (3, 1)%nat 2 2 None P flipped_fits majority_fits eq_refl eq_refl HP). exact majority_tp.
Qed.
Print Assumptions C77_documented_partial.
Print Assumptions C77_documented_only_partial.
Print Assumptions C77_documented_value_partial.
Print Assumptions C77_result_partial.
Print Assumptions C77_never_partial.
Print Assumptions C77_bound_partial.
Print Assumptions C77_refuted.

(** ** C78: the options of the solver *)
Definition default_option (k : string) : option R :=
  if String.eqb k "maxit"%string then Some 50%R
  else if (String.eqb k "feastol"%string || String.eqb k "abstol"%string || String.eqb k "reltol"%string)%bool then Some (/ 1000)%R else None.
Theorem C78_options kraus nq din dout options P : decoder_programme kraus nq din dout options = Ok P ->
  (forall k v0, default_option k = Some v0 ->
     lookup k (pr_options P) = Some (match options with Some given => match lookup k given with Some v => v | None => v0 end | None => v0 end)) /\
  lookup "tol"%string (pr_options P) = Some (/ 10000)%R /\
  (forall k, default_option k = None -> k <> "tol"%string -> lookup k (pr_options P) = None).
Proof.
  intros H. assert (E : pr_options P = solver_options options).
  { unfold decoder_programme in H. cbn [constraint_partial_trace] in H. destruct kraus; [discriminate|]. destruct (objective_matrix _ _); [|discriminate]. cbn [bind] in H. destruct (_ && _)%bool; [|discriminate]. injection H as <-. reflexivity. }
  rewrite E. clear. set (given := match options with None => [] | Some d => d end).
  assert (G : forall k, match options with Some g => lookup k g | None => None end = lookup k given) by (intros k; destruct options; reflexivity).
  unfold solver_options. fold given. split; [|split].
  - intros k v0 Hk. transitivity (Some (match lookup k given with Some v => v | None => v0 end)); [|f_equal; rewrite <- G; destruct options as [g|]; reflexivity].
    unfold default_option in Hk.
    destruct (String.eqb_spec k "maxit"%string) as [->|]; [injection Hk as <-|destruct (String.eqb_spec k "feastol"%string) as [->|]; [injection Hk as <-|destruct (String.eqb_spec k "abstol"%string) as [->|]; [injection Hk as <-|
      destruct (String.eqb_spec k "reltol"%string) as [->|]; [injection Hk as <-|discriminate]]]];
    destruct (lookup "maxit"%string given), (lookup "feastol"%string given), (lookup "abstol"%string given), (lookup "reltol"%string given); reflexivity.
  - destruct (lookup "maxit"%string given), (lookup "feastol"%string given), (lookup "abstol"%string given), (lookup "reltol"%string given); reflexivity.
  - intros k Hk Ht. unfold default_option in Hk.
    destruct (String.eqb_spec k "maxit"%string); [discriminate|]. destruct (String.eqb_spec k "feastol"%string); [discriminate|]. destruct (String.eqb_spec k "abstol"%string); [discriminate|]. destruct (String.eqb_spec k "reltol"%string); [discriminate|].
    assert (X : forall x v dd, x <> k -> lookup k (set_option x v dd) = lookup k dd) by (intros x v dd N; unfold set_option; cbn [lookup]; destruct (String.eqb_spec x k); [contradiction|reflexivity]).
    destruct (lookup "maxit"%string given), (lookup "feastol"%string given), (lookup "abstol"%string given), (lookup "reltol"%string given); rewrite !X by congruence; reflexivity.
Qed.
Example C78_case : exists P, decoder_programme (arg_matrices bit_flip) (1, 1)%nat 2 2 (Some [("maxit"%string, 7%R); ("verbose"%string, 1%R)]) = Ok P /\
  lookup "maxit"%string (pr_options P) = Some 7%R /\ lookup "abstol"%string (pr_options P) = Some (/ 1000)%R /\ lookup "verbose"%string (pr_options P) = None.
Proof.
  destruct (C67_programme_partial (arg_matrices bit_flip) 2 2 (1, 1)%nat 2 2 (Some [("maxit"%string, 7%R); ("verbose"%string, 1%R)]) bit_flip_fits ltac:(discriminate) eq_refl) as (P & HP & _).
  exists P. split; [exact HP|]. destruct (C78_options _ _ _ _ _ _ HP) as (A & B & C). split; [apply (A "maxit"%string 50%R eq_refl)|]. split; [apply (A "abstol"%string _ eq_refl)|apply C; [reflexivity|discriminate]].
Qed.
Print Assumptions C78_options.

(** ** C79: codes with more than one logical qubit *)
Lemma error_channel_power errors n k : arg_matrices errors <> [] -> fits 2 2 (arg_matrices errors) -> trace_preserving 2 (arg_matrices errors) -> (1 <= k)%nat -> (k <= n)%nat ->
  exists o, error_channel errors n k = Ok o /\ same_ops (slices (nth_ops o)) (power_ops (arg_matrices errors) (n / k)).
Proof.
  intros NE F T Hk Hn. destruct (proj2 (chan_init_iff errors (1, 1)%nat 2 2 [] false NE)) as (c & HC).
  { split; [exact F|]. apply tp_nearly. exact T. }
  unfold error_channel. rewrite HC. cbn [bind]. destruct (chan_init_made _ _ _ _ _ _ _ HC) as (o & -> & H0). cbn in H0.
  assert (H1 : (1 <= n / k)%nat) by (apply Nat.div_le_lower_bound; lia).
  destruct (history_updates false errors (1, 1)%nat 2 2 [] o [] (n / k) H0 NE (Forall_nil _) H1) as (A & _ & B & _); [discriminate|].
  cbn [run_updates fold_left List.app] in A, B. unfold floor_div. destruct (Nat.eqb_spec k 0); [lia|]. cbn [bind].
  destruct (update_kraus_operators o (n / k)) as [o' r]. cbn in A. subst r. cbn [bind]. exists o'. split; [reflexivity|exact B].
Qed.
(** errors on single qubits: the encoder and the errors do not fit *)
Theorem C79_value_error_partial eigh solve g n k c errors options : eigh_ok eigh -> init g n k None = Ok c -> (2 <= k)%nat -> (k <= n)%nat ->
  Forall binary (zd (stab c)) -> Forall (fun r => Nat.even (y_count n r) = true) (zd (stab c)) ->
  arg_matrices errors <> [] -> fits 2 2 (arg_matrices errors) -> trace_preserving 2 (arg_matrices errors) ->
  optimize_decoder_stabilizers eigh solve g n k errors options = Err ValueError.
Proof.
  intros HE I Hk Hn B Y NE F T. destruct (encoder_isometry eigh g n k None c HE I ltac:(lia) B Y) as (Ss & m & E & _ & EE & _).
  destruct (error_channel_power errors n k NE F T ltac:(lia) Hn) as (o & EO & SO).
  unfold optimize_decoder_stabilizers, encoded_operators. rewrite I. cbn [bind]. rewrite EO. cbn [bind]. rewrite EE. cbn [bind].
  pose proof (fits_power 2 2 _ (n / k) F) as FP. pose proof (fits_same _ _ _ _ FP SO) as FO.
  assert (LO : length (slices (nth_ops o)) = (length (arg_matrices errors) ^ (n / k))%nat) by (rewrite (Forall2_length SO); apply power_len).
  destruct (slices (nth_ops o)) as [|x l].
  { exfalso. cbn in LO. destruct (arg_matrices errors) as [|y r]; [contradiction|]. symmetry in LO. apply Nat.pow_nonzero in LO; [exact LO|discriminate]. }
  inversion FO as [|? ? [_ X2] _]; subst. cbn [mapM]. unfold np_dot. cbn [mr]. rewrite X2.
  assert (NN : (2 ^ (n / k) <> 2 ^ n)%nat).
  { intros Q. apply Nat.pow_inj_r in Q; [|lia]. assert (n / k < n)%nat by (apply Nat.div_lt; lia). lia. }
  destruct (Nat.eqb_spec (2 ^ (n / k)) (2 ^ n)); [contradiction|]. reflexivity.
Qed.
(** errors on k qubits, as documented: AssertionError *)
Theorem C79_assertion_partial eigh solve g n k c errors options d : init g n k None = Ok c -> arg_matrices errors <> [] -> fits d (2 ^ k) (arg_matrices errors) -> k <> 1%nat ->
  optimize_decoder_stabilizers eigh solve g n k errors options = Err AssertionError.
Proof.
  intros I NE F Hk.
  unfold optimize_decoder_stabilizers, encoded_operators. rewrite I. cbn [bind].
  assert (K2 : (2 ^ k <> 2)%nat). { destruct k as [|[|k]]; [discriminate|contradiction|]. cbn [Nat.pow]. pose proof (Nat.pow_nonzero 2 k ltac:(discriminate)). lia. }
  destruct (arg_matrices errors) as [|e l] eqn:EA; [contradiction|]. destruct (Forall_inv F) as [F1 F2].
  assert (A : exists t, arg_array errors = Ok t).
  { destruct errors as [m|t]; cbn in EA |- *; [|eauto]. subst m. unfold np_array.
    assert (forallb (fun b : marr CC => Nat.eqb (mr b) (mr e) && Nat.eqb (mc b) (mc e))%bool l = true) as ->; [|eauto].
    apply forallb_forall. intros y Hy. destruct (proj1 (Forall_forall _ _) F y (or_intror Hy)) as [Y1 Y2]. rewrite F1, F2, Y1, Y2, !Nat.eqb_refl. reflexivity. }
  destruct A as (t & EAr). unfold error_channel, chan_init, kraus_init. rewrite EAr. cbn [bind]. rewrite EA. cbn [foldM fst snd]. rewrite F2. change (2 ^ 1)%nat with 2%nat.
  rewrite (proj2 (Nat.eqb_neq _ _) K2). reflexivity.
Qed.
Theorem C79_refuted : exists eigh c, eigh_ok eigh /\ init (Strings four2) 4 2 None = Ok c /\ valid_generators 4 2 (zd (stab c)) /\ trace_preserving 2 (arg_matrices bit_flip) /\ trace_preserving 4 (arg_matrices (ident 4 : kraus_arg CC)) /\
  forall solve options, optimize_decoder_stabilizers eigh solve (Strings four2) 4 2 bit_flip options = Err ValueError /\
    optimize_decoder_stabilizers eigh solve (Strings four2) 4 2 (ident 4) options = Err AssertionError.
Proof.
  destruct C13_case_contract as (eigh & HE). destruct C10_case as (c & I & V & _). exists eigh, c. split; [exact HE|]. split; [exact I|]. split; [exact V|]. split; [exact bit_flip_tp|]. split; [apply ident_tp|].
  intros solve options. split.
  - apply (C79_value_error_partial eigh solve _ 4 2 c); auto; [apply V| |discriminate|exact bit_flip_fits|exact bit_flip_tp]. apply even_rows. clear V. vm_compute in I. injection I as <-. reflexivity.
  - apply (C79_assertion_partial eigh solve _ 4 2 c _ options 4); auto; [discriminate|apply id_fits].
Qed.
Print Assumptions C79_value_error_partial.
Print Assumptions C79_assertion_partial.
Print Assumptions C79_refuted.
