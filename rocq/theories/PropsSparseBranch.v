(** Properties of the branches for scipy.sparse matrices: C134 (kraus_operators_correcting_errors) and
    C135 (optimize_decoder_stabilizers).  Specification: CsrSpec.v, KrausSpec.v, CodesSpec.v.
    Model: SparseBranchModel.v, CsrModel.v, PauliModel.v, AvgFidModel.v. *)
From Verif Require Import Py ZMat CodesModel RankSpec CodesSpec CodesProofs PropsCodes Scalar PauliModel PauliSpec PauliProofs2 EncoderProofs EighExists PropsPauli
  KrausModel KrausSpec KrausProofs KrausProofs2 KrausProofs6 KrausProofs8 KrausProofs9 KrausProofs10 Spectral SpectralProofs KrausExamples ChoiModel ChoiSpec ChoiProofs ChoiProofs2 ChannelModel ChannelSpec
  FindModel FindSpec FindProofs PropsKraus OptimProofs3 PropsFind AvgFidModel AvgFidSpec AvgFidProofs AvgFidProofs2 AvgFidProofs3 AvgFidExample AvgFidExample2 PropsAvgFid
  CsrModel CsrSpec CsrProofs PropsSparse SparseBranchModel.
From Coq Require Import Reals Lra.
Open Scope nat_scope.
Open Scope K_scope.

(** ** C134: kraus_operators_correcting_errors(errors, sparse=True) *)
(** The claim, "the sparse call returns the operators of the dense one", is false of the code: as soon as there is
    an error to correct and a generator to compare it with, the call raises ValueError, whatever the error. *)
Theorem C134_raises_partial g n k ops c e errors : init g n k ops = Ok c -> (1 <= n)%nat -> Forall binary (zd (stab c)) ->
  kraus_operators_correcting_errors_sparse c (e :: errors) = Err ValueError.
Proof.
  intros I Hn B. destruct (init_inv _ _ _ _ _ I) as (M & [WL WR] & RL & ZC & EM & _ & POS & _). subst M.
  assert (RW : Forall (fun r => length r = (2 * n)%nat) (zd (stab c))) by (rewrite <- ZC; exact WR).
  destruct (C117_shapes CC n (stab c) Hn ZC RW B) as (Ss & ES & LS & SH). unfold kraus_operators_correcting_errors_sparse, correcting_errors_with. rewrite ES. cbn [bind].
  destruct Ss as [|S Ss]; [exfalso; cbn in LS; lia|]. inversion SH as [|? ? (S1 & S2 & _) _]; subst. cbn [mapM correct_error_with].
  unfold csr_dot at 1. destruct (Nat.eqb (sc S) (sr e)); [|reflexivity]. cbn [bind].
  unfold csr_dot at 1. destruct (Nat.eqb (sc e) (sr S)); [|reflexivity]. cbn [bind].
  unfold csr_add. cbn [sr sc]. destruct (Nat.eqb_spec (sr e) (sr S)) as [Q|Q]; [|reflexivity]. destruct (Nat.eqb_spec (sc S) (sc e)); [|reflexivity]. cbn [andb bind].
  unfold all_below. cbn [sr]. rewrite Q, S1. destruct (Nat.eqb_spec (2 ^ n) 1) as [Z|]; [|reflexivity].
  exfalso. assert (2 <= 2 ^ n)%nat by (destruct n; [lia|cbn; pose proof (Nat.neq_0_lt_0 (2 ^ n)); assert (2 ^ n <> 0)%nat by (apply Nat.pow_nonzero; lia); lia]). lia.
Qed.
(** Only the empty list of errors comes back. *)
Theorem C134_empty_partial g n k ops c : init g n k ops = Ok c -> (1 <= n)%nat -> Forall binary (zd (stab c)) ->
  kraus_operators_correcting_errors_sparse c [] = Ok [] /\ kraus_operators_correcting_errors c [] = Ok [].
Proof.
  intros I Hn B. destruct (init_inv _ _ _ _ _ I) as (M & [WL WR] & RL & ZC & EM & _). subst M.
  assert (RW : Forall (fun r => length r = (2 * n)%nat) (zd (stab c))) by (rewrite <- ZC; exact WR).
  destruct (C117_shapes CC n (stab c) Hn ZC RW B) as (Ss & ES & _). unfold kraus_operators_correcting_errors_sparse, correcting_errors_with. rewrite ES. split; [reflexivity|].
  pose proof (C117_paulis CC (stab c)) as H. rewrite ES in H. unfold kraus_operators_correcting_errors. destruct (binary_rep_to_pauli_mat (stab c)); [reflexivity|contradiction].
Qed.
(** The five-qubit code and the error X on the first qubit: the dense call returns, the sparse one raises. *)
Theorem C134_refuted : exists c E Es Ks, init (Strings five_qubit) 5 1 None = Ok c /\
  binary_rep_to_pauli_mat (K := CC) (ZM 1 10 [[1; 0; 0; 0; 0; 0; 0; 0; 0; 0]%Z]) = Ok [E] /\
  binary_rep_to_pauli_csr (ZM 1 10 [[1; 0; 0; 0; 0; 0; 0; 0; 0; 0]%Z]) = Ok [Es] /\ represents Es E /\
  kraus_operators_correcting_errors c [E] = Ok Ks /\ kraus_operators_correcting_errors_sparse c [Es] = Err ValueError.
Proof.
  destruct C13_case_code as (c & I & (_ & _ & _ & V3 & _) & _).
  assert (BX : Forall binary [[1; 0; 0; 0; 0; 0; 0; 0; 0; 0]%Z]) by (repeat constructor; auto).
  destruct (C117_shapes CC 5 (ZM 1 10 [[1; 0; 0; 0; 0; 0; 0; 0; 0; 0]%Z]) ltac:(lia) eq_refl ltac:(repeat constructor) BX) as (Ss & ES & LS & SH).
  pose proof (C117_paulis CC (ZM 1 10 [[1; 0; 0; 0; 0; 0; 0; 0; 0; 0]%Z])) as H. rewrite ES in H.
  destruct (binary_rep_to_pauli_mat (ZM 1 10 [[1; 0; 0; 0; 0; 0; 0; 0; 0; 0]%Z])) as [Ms|] eqn:EM; [|contradiction]. cbn [same_outcome] in H.
  destruct Ss as [|Es [|? ?]]; try discriminate LS. inversion H as [|? E ? Ms' R H']; subst. inversion H'; subst.
  inversion SH as [|? ? (S1 & S2 & _) _]; subst. destruct R as ((R1 & R2 & RE) & OE). cbn [todense mr mc] in R1, R2.
  destruct (C14_correcting_errors (Strings five_qubit) 5 1 None c [me E] I ltac:(lia) V3) as (_ & Ks & _ & EK & _).
  assert (EE : MA (2 ^ 5) (2 ^ 5) (me E) = E) by (rewrite <- S1 at 1; rewrite <- S2; change (sr Es = mr E) in R1; change (sc Es = mc E) in R2; rewrite R1, R2; destruct E; reflexivity). cbn [map] in EK. rewrite EE in EK.
  exists c, E, Es, (map (MA (2 ^ 5) (2 ^ 5)) Ks). split; [exact I|]. split; [reflexivity|]. split; [exact ES|]. split; [split; [split; [exact R1|split; [exact R2|exact RE]]|exact OE]|].
  split; [exact EK|]. apply (C134_raises_partial (Strings five_qubit) 5 1 None); [exact I|lia|exact V3].
Qed.
Print Assumptions C134_raises_partial.
Print Assumptions C134_empty_partial.
Print Assumptions C134_refuted.

(** ** C135: optimize_decoder_stabilizers(..., sparse=True) *)
(** It never returns, whatever the arguments and the solver, ... *)
Theorem C135_never_partial eigh solve g n k errors d : optimize_decoder_stabilizers_sparse eigh solve g n k errors <> Ok d.
Proof.
  unfold optimize_decoder_stabilizers_sparse. destruct (encoded_operators_sparse eigh g n k errors) as [ks|e]; [|intros H; discriminate H].
  cbn [bind]. unfold sparse_objective. destruct ks as [|x l]; [intros H; discriminate H|]. destruct (mapM _ (x :: l)); intros H; discriminate H.
Qed.
(** ... and for a code and a channel that are in order it raises ValueError. *)
Lemma error_channel_sparse_power errors n k : arg_matrices errors <> [] -> fits 2 2 (arg_matrices errors) -> trace_preserving 2 (arg_matrices errors) -> (1 <= k)%nat -> (k <= n)%nat ->
  exists o, error_channel_sparse errors n k = Ok o /\ same_ops (slices (nth_ops o)) (power_ops (arg_matrices errors) (n / k)).
Proof.
  intros NE F T Hk Hn. destruct (proj2 (chan_init_iff errors (1, 1)%nat 2 2 [] true NE)) as (c & HC).
  { split; [exact F|]. apply tp_nearly. exact T. }
  unfold error_channel_sparse. rewrite HC. cbn [bind]. destruct (chan_init_made _ _ _ _ _ _ _ HC) as (o & -> & H0). cbn in H0.
  assert (H1 : (1 <= n / k)%nat) by (apply Nat.div_le_lower_bound; lia).
  destruct (history_updates true errors (1, 1)%nat 2 2 [] o [] (n / k) H0 NE (Forall_nil _) H1) as (A & _ & B & _); [intros _; constructor|].
  cbn [run_updates fold_left List.app] in A, B. unfold floor_div. destruct (Nat.eqb_spec k 0); [lia|]. cbn [bind].
  destruct (update_kraus_operators o (n / k)) as [o' r]. cbn in A. subst r. cbn [bind]. exists o'. split; [reflexivity|exact B].
Qed.
Theorem C135_raises_partial eigh solve g n k c errors : eigh_ok eigh -> init g n k None = Ok c -> (1 <= k)%nat -> (k <= n)%nat ->
  Forall binary (zd (stab c)) -> Forall (fun r => Nat.even (y_count n r) = true) (zd (stab c)) ->
  arg_matrices errors <> [] -> fits 2 2 (arg_matrices errors) -> trace_preserving 2 (arg_matrices errors) ->
  optimize_decoder_stabilizers_sparse eigh solve g n k errors = Err ValueError.
Proof.
  intros HE I Hk Hn B Y NE F T. destruct (encoder_isometry eigh g n k None c HE I ltac:(lia) B Y) as (Ss & m & E & _ & EE & _).
  destruct (error_channel_sparse_power errors n k NE F T Hk Hn) as (o & EO & SO).
  unfold optimize_decoder_stabilizers_sparse, encoded_operators_sparse. rewrite I. cbn [bind]. rewrite EO. cbn [bind]. unfold encode_krauss_operators_sparse. rewrite EE. cbn [bind].
  pose proof (fits_power 2 2 _ (n / k) F) as FP. pose proof (fits_same _ _ _ _ FP SO) as FO.
  assert (LO : length (slices (nth_ops o)) = (length (arg_matrices errors) ^ (n / k))%nat) by (rewrite (Forall2_length SO); apply power_len).
  destruct (slices (nth_ops o)) as [|x l].
  { exfalso. cbn in LO. destruct (arg_matrices errors) as [|y r]; [contradiction|]. symmetry in LO. apply Nat.pow_nonzero in LO; [exact LO|discriminate]. }
  inversion FO as [|? ? [X1 X2] FO']; subst.
  assert (MV : forall l, match mapM (fun x => csr_dot (csr_matrix x) (csr_matrix (MA (2 ^ n) m E))) l with Ok _ => True | Err e => e = ValueError end).
  { clear. induction l as [|y l IH]; [exact Logic.I|]. cbn [mapM]. unfold csr_dot at 1. destruct (Nat.eqb _ _); [|reflexivity]. cbn [bind]. destruct (mapM _ l); [exact Logic.I|exact IH]. }
  cbn [mapM]. unfold csr_dot at 1. destruct (Nat.eqb (sc (csr_matrix x)) (sr (csr_matrix (MA (2 ^ n) m E)))); [|reflexivity]. cbn [bind].
  specialize (MV l). destruct (mapM _ l) as [ks|e]; [|cbn [bind]; rewrite MV; reflexivity]. cbn [bind sparse_objective mapM].
  unfold csr_dot at 1. cbn [conj_column sr sc csr_matrix]. rewrite X1. cbn [mc].
  destruct (Nat.eqb_spec 1 (2 ^ (n / k) * m)) as [Q|]; [|reflexivity]. exfalso. symmetry in Q. apply Nat.eq_mul_1 in Q. destruct Q as [Q _].
  assert (H1 : (1 <= n / k)%nat) by (apply Nat.div_le_lower_bound; lia). destruct (n / k)%nat; [lia|]. cbn in Q. lia.
Qed.
(** The repetition code on three qubits and the bit flip channel: the dense call returns, the sparse one raises, with the same solver. *)
Theorem C135_refuted : exists eigh solve c d, eigh_ok eigh /\ solver_ok solve /\ init (Strings rep3) 3 1 None = Ok c /\ valid_generators 3 1 (zd (stab c)) /\
  optimize_decoder_stabilizers eigh solve (Strings rep3) 3 1 flips None = Ok d /\
  optimize_decoder_stabilizers_sparse eigh solve (Strings rep3) 3 1 flips = Err ValueError.
Proof.
  destruct C77_refuted as (eigh & solve & c & kraus & d & Rs & HE & HS & I & V & FF & FT & EK & H).
  exists eigh, solve, c, d. split; [exact HE|]. split; [exact HS|]. split; [exact I|]. split; [exact V|].
  destruct H as (_ & _ & ED & _). split; [exact ED|].
  assert (Y : Forall (fun r => Nat.even (y_count 3 r) = true) (zd (stab c))).
  { destruct (init_inv _ _ _ _ _ I) as (M & _ & _ & _ & -> & _ & _ & _ & EM & _). vm_compute in EM. injection EM as EM. rewrite <- EM. repeat constructor. }
  pose proof V as (_ & _ & _ & V3 & _). apply (C135_raises_partial eigh solve (Strings rep3) 3 1 c flips HE I); [lia|lia|exact V3|exact Y| |exact FF|exact FT]. discriminate.
Qed.
Print Assumptions C135_never_partial.
Print Assumptions C135_raises_partial.
Print Assumptions C135_refuted.
