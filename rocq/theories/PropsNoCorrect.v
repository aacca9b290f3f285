(** Properties of kraus_operators_correcting_errors and effective_channel_with_stabilizers on
    encoded states: C115, C116.  Specification: NoCorrectSpec.v, FindSpec.v, KrausSpec.v.
    Models: PauliModel.v, FindModel.v. *)
From Verif Require Import Py ZMat CodesModel RankSpec CodesSpec CodesProofs PropsCodes Scalar PauliModel PauliSpec PauliProofs2 EncoderProofs EighExists PropsPauli
  KrausModel KrausSpec KrausProofs KrausProofs2 KrausProofs8 KrausProofs10 ChoiModel ChoiSpec ChoiProofs3 ChannelModel ChannelSpec EntropySpec SpectralExists
  ParamModel OptimModel OptimSpec FindModel FindSpec FindProofs PropsOptim PropsFind NoCorrectSpec NoCorrectProofs.
From Verif Require PropsDepend.
From Coq Require Import Reals Lra.
From Coq Require String.
Import String.StringSyntax.
Delimit Scope string_scope with string.
Open Scope nat_scope.

(** ** C115: an error that the code detects is undone by the operator returned for it *)
(** On encoded states each operator returned does the same as the error it was made for, up to a
    sign, so the channel made of the returned operators is the channel made of the errors. *)
Theorem C115_exact_partial eigh g n k ops c errors : eigh_ok eigh -> init g n k ops = Ok c -> 1 <= n ->
  Forall binary (zd (stab c)) -> Forall (fun r => Nat.even (y_count n r) = true) (zd (stab c)) -> Forall (pauli_multiple n) errors ->
  exists E Ks, encode_krauss_operators eigh c = Ok E /\ kraus_operators_correcting_errors c errors = Ok Ks /\
    Forall2 (fun W K => up_to_sign (product K E) (product W E)) errors Ks /\
    same_channel (2 ^ n) (map (fun K => product K E) Ks) (map (fun W => product W E) errors).
Proof.
  intros HE I Hn B HY FW. destruct (uncorrected_all eigh g n k ops c errors HE I Hn B HY FW) as (E & Ks & H1 & H2 & _ & _ & H3 & H4 & _). exists E, Ks. auto.
Qed.
(** An encoded state with a detected error ends up, after the correction, outside the code
    space: orthogonal to all encoded states, with the full weight of the error. *)
Theorem C115_orthogonal_partial eigh g n k ops c errors : eigh_ok eigh -> init g n k ops = Ok c -> 1 <= n ->
  Forall binary (zd (stab c)) -> Forall (fun r => Nat.even (y_count n r) = true) (zd (stab c)) -> Forall (pauli_multiple n) errors ->
  exists E Ks, encode_krauss_operators eigh c = Ok E /\ kraus_operators_correcting_errors c errors = Ok Ks /\
    Forall2 (fun W K => forall a b, pauli_multiple_of n a b W -> detected (zd (stab c)) b ->
      orthogonal_to E (product K E) /\
      eqm (mc E) (mc E) (mm (2 ^ n) (adj (me (product K E))) (me (product K E))) (scale (smul (sconj a) a) eye)) errors Ks.
Proof.
  intros HE I Hn B HY FW. destruct (uncorrected_all eigh g n k ops c errors HE I Hn B HY FW) as (E & Ks & H1 & H2 & _ & _ & _ & _ & H5 & H6). exists E, Ks.
  split; [exact H1|]. split; [exact H2|]. clear -H5 H6. induction H5 as [|W K Ws Ks H H5 IH]; [constructor|]. inversion H6 as [|? ? ? ? G1 G2]; subst. constructor; [|apply IH; exact G2].
  intros a b Hb D. split; [exact (H a b Hb D)|exact (G1 a b Hb)].
Qed.
(** The same for arbitrary errors of the right size, up to the tolerance 1e-5 with which the code
    compares matrices: on encoded states the result is the error, or minus the error up to
    2^n 1e-5 in every entry. *)
Theorem C115_any_partial eigh g n k ops c errors : eigh_ok eigh -> init g n k ops = Ok c -> 1 <= n ->
  Forall binary (zd (stab c)) -> Forall (fun r => Nat.even (y_count n r) = true) (zd (stab c)) -> fits (2 ^ n) (2 ^ n) errors ->
  exists E Ks, encode_krauss_operators eigh c = Ok E /\ kraus_operators_correcting_errors c errors = Ok Ks /\
    Forall2 (fun W K => same_mat (product K E) (product W E) \/
       forall i j, i < 2 ^ n -> j < mc E -> (Cmod (sadd (me (product K E) i j) (me (product W E) i j)) <= INR (2 ^ n) * / 100000)%R) errors Ks.
Proof. exact (any_uncorrected eigh g n k ops c errors). Qed.

(** The five-qubit code, which detects and can correct a bit flip of its first qubit. *)
Definition first_flip : list Z := [1; 0; 0; 0; 0; 0; 0; 0; 0; 0]%Z.
Lemma row_matrix n b : 1 <= n -> length b = 2 * n -> binary b -> exists W, binary_rep_to_pauli_mat (K := CC) (ZM 1 (2 * n) [b]) = Ok [W] /\ pauli_multiple_of n s1 b W.
Proof.
  intros Hn L Bi. destruct (PauliProofs.pauli_row_mat_spec (K := CC) n b Hn L Bi) as (B & EB & HB). exists (MA (2 ^ n) (2 ^ n) B).
  assert (X : binary_rep_to_pauli_mat (K := CC) (ZM 1 (2 * n) [b]) = Ok [MA (2 ^ n) (2 ^ n) B]) by (unfold binary_rep_to_pauli_mat; cbn [zc zd mapM]; rewrite CodesProofs.div2_double, EB; reflexivity).
  split; [exact X|]. split; [reflexivity|]. split; [reflexivity|]. split; [exact L|]. split; [exact Bi|]. exists B. split; [exact X|]. intros i j _ _. unfold scale. apply CC_eq; cbn; ring.
Qed.
Ltac bits := repeat (apply Forall_cons; [first [left; reflexivity|right; reflexivity]|]); apply Forall_nil.
Theorem C115_refuted : exists c W, init (Strings five_qubit) 5 1 None = Ok c /\ valid_generators 5 1 (zd (stab c)) /\
  binary_rep_to_pauli_mat (ZM 1 10 [first_flip]) = Ok [W] /\ detected (zd (stab c)) first_flip /\
  forall eigh, eigh_ok eigh -> exists E K, encode_krauss_operators eigh c = Ok E /\ kraus_operators_correcting_errors c [W] = Ok [K] /\
    mr E = 32 /\ mc E = 2 /\ orthogonal_to E (product K E) /\ ~ exists z, eqm 32 2 (me (product K E)) (scale z (me E)).
Proof.
  destruct (row_matrix 5 first_flip) as (W & EW & MW); [lia|reflexivity|unfold binary; bits|].
  assert (G : exists c, init (Strings five_qubit) 5 1 None = Ok c /\ valid_generators 5 1 (zd (stab c)) /\ detected (zd (stab c)) first_flip /\ forallb (fun r => Nat.even (y_count 5 r)) (zd (stab c)) = true).
  { eexists. split; [run|]. split; [valid|]. split; [|run]. eexists. split; [right; right; right; left; reflexivity|run]. }
  destruct G as (c & I & V & D & Y). exists c, W. split; [exact I|]. split; [exact V|]. split; [exact EW|]. split; [exact D|]. intros eigh HE. pose proof V as (V0 & V1 & V2 & V3 & V4 & V5).
  destruct (uncorrected_all eigh (Strings five_qubit) 5 1 None c [W] HE I) as (E & Ks & H1 & H2 & RE & TE & H3 & _ & H5 & H6); [lia|exact V3|apply even_rows, Y|constructor; [exists s1, first_flip; exact MW|constructor]|].
  inversion H3 as [|? K ? Ks' S3 N3]; subst. inversion N3; subst. inversion H5 as [|? ? ? ? S5 _]; subst. inversion H6 as [|? ? ? ? S6 _]; subst.
  destruct (C13_encoder_isometry eigh _ 5 1 None c HE I) as (Ss & m & E' & _ & EE & _ & _ & _ & HM); [lia|exact V3|apply even_rows, Y|]. rewrite H1 in EE. injection EE as ->. specialize (HM V5 V1). subst m.
  exists (MA (2 ^ 5) (2 ^ 1) E'), K. split; [exact H1|]. split; [exact H2|]. split; [reflexivity|]. split; [reflexivity|].
  specialize (S5 _ _ MW D). specialize (S6 _ _ MW). split; [exact S5|].
  assert (RK : mr K = 32) by (destruct S3 as (X & _); cbn [product mr] in X; rewrite X; exact (proj1 MW)).
  pose proof (no_multiple (product K (MA (2 ^ 5) (2 ^ 1) E')) (MA (2 ^ 5) (2 ^ 1) E') (smul (sconj (s1 (s := CC))) s1)) as NM. unfold product in *. cbn [mr mc me] in *. rewrite RK in NM, S5.
  apply NM; [reflexivity|reflexivity|cbn; lia|exact TE|exact S5|exact S6|]. intros X. apply (f_equal fst) in X. cbn in X. lra.
Qed.
Print Assumptions C115_exact_partial.
Print Assumptions C115_orthogonal_partial.
Print Assumptions C115_any_partial.
Print Assumptions C115_refuted.
(** the hypotheses are met by the Steane code with a Y, a Z and a two-qubit error *)
Example C115_case : exists eigh c W1 W2 W3, eigh_ok eigh /\ init (Rows (rows_of steane)) 7 1 None = Ok c /\ Forall binary (zd (stab c)) /\ Forall (fun r => Nat.even (y_count 7 r) = true) (zd (stab c)) /\
  Forall (pauli_multiple 7) [W1; W2; W3] /\ detected (zd (stab c)) [0; 0; 1; 0; 0; 0; 0; 0; 0; 1; 0; 0; 0; 0]%Z.
Proof.
  destruct C13_case_contract as (eigh & HE).
  destruct (row_matrix 7 [0; 0; 1; 0; 0; 0; 0; 0; 0; 1; 0; 0; 0; 0]%Z) as (W1 & _ & M1); [lia|reflexivity|unfold binary; bits|].
  destruct (row_matrix 7 [0; 0; 0; 0; 0; 0; 0; 0; 0; 0; 0; 0; 0; 1]%Z) as (W2 & _ & M2); [lia|reflexivity|unfold binary; bits|].
  destruct (row_matrix 7 [0; 1; 0; 0; 0; 0; 0; 0; 0; 0; 0; 1; 0; 0]%Z) as (W3 & _ & M3); [lia|reflexivity|unfold binary; bits|].
  exists eigh. eexists. exists W1, W2, W3. split; [exact HE|]. split; [run|]. split; [apply PropsDepend.binary_rows; run|]. split; [apply even_rows; run|]. split.
  - repeat constructor; eexists; eexists; eassumption.
  - first [eexists; split; [left; reflexivity|run]|eexists; split; [right; left; reflexivity|run]|eexists; split; [right; right; left; reflexivity|run]|eexists; split; [right; right; right; left; reflexivity|run]].
Qed.

(** ** C116: the effective channel contains the error correction *)
(** encoding followed by the n-fold noise, without any correction *)
Definition uncorrected_ops (errors : kraus_arg CC) (n : nat) (E : marr CC) : list (marr CC) := map (fun W => product W E) (power_ops (arg_matrices errors) n).
(** For a noise of Pauli type on each qubit the total channel is encoding followed by the noise. *)
Theorem C116_channel_partial eigh g n c errors : eigh_ok eigh -> init g n 1 None = Ok c -> valid_generators n 1 (zd (stab c)) ->
  Forall (fun r => Nat.even (y_count n r) = true) (zd (stab c)) ->
  arg_matrices errors <> [] -> trace_preserving 2 (arg_matrices errors) -> Forall (pauli_multiple 1) (arg_matrices errors) ->
  exists E ops, encode_krauss_operators eigh c = Ok E /\ effective_operators eigh g n 1 errors = Ok ops /\
    Forall2 up_to_sign ops (uncorrected_ops errors n E) /\ same_channel (2 ^ n) ops (uncorrected_ops errors n E).
Proof.
  intros HE I V HY NE T FW. destruct (effective_uncorrected eigh g n c errors HE I V HY NE T FW) as (E & ops & EE & _ & _ & _ & EO & SG & SC & _).
  exists E, ops. split; [exact EE|]. split; [exact EO|]. split; [|exact SC]. unfold uncorrected_ops. clear -SG. induction SG as [|W A Ws ops H SG IH]; constructor; assumption.
Qed.
(** Each detected n-fold error leaves the state outside the code space, with its full weight. *)
Theorem C116_orthogonal_partial eigh g n c errors : eigh_ok eigh -> init g n 1 None = Ok c -> valid_generators n 1 (zd (stab c)) ->
  Forall (fun r => Nat.even (y_count n r) = true) (zd (stab c)) ->
  arg_matrices errors <> [] -> trace_preserving 2 (arg_matrices errors) -> Forall (pauli_multiple 1) (arg_matrices errors) ->
  exists E ops, encode_krauss_operators eigh c = Ok E /\ effective_operators eigh g n 1 errors = Ok ops /\
    Forall2 (fun W A => forall a b, pauli_multiple_of n a b W -> detected (zd (stab c)) b ->
      orthogonal_to E A /\ eqm 2 2 (mm (mr A) (adj (me A)) (me A)) (scale (smul (sconj a) a) eye)) (power_ops (arg_matrices errors) n) ops.
Proof.
  intros HE I V HY NE T FW. destruct (effective_uncorrected eigh g n c errors HE I V HY NE T FW) as (E & ops & EE & _ & _ & _ & EO & _ & _ & H5 & H6).
  exists E, ops. split; [exact EE|]. split; [exact EO|]. clear -H5 H6. induction H5 as [|W K Ws Ks H H5 IH]; [constructor|]. inversion H6 as [|? ? ? ? G1 G2]; subst. constructor; [|apply IH; exact G2].
  intros a b Hb D. split; [exact (H a b Hb D)|exact (G1 a b Hb)].
Qed.
(** The value returned is the coherent information of encoding followed by the noise. *)
Theorem C116_value_partial eigh eigvalsh sqrtm s r g n c errors o : eigh_ok eigh -> eigvalsh_ok eigvalsh -> scipy_ok s ->
  init g n 1 None = Ok c -> valid_generators n 1 (zd (stab c)) -> Forall (fun r => Nat.even (y_count n r) = true) (zd (stab c)) ->
  arg_matrices errors <> [] -> trace_preserving 2 (arg_matrices errors) -> Forall (pauli_multiple 1) (arg_matrices errors) ->
  effective_channel_with_stabilizers eigh eigvalsh sqrtm s r g n 1 errors "coherent"%string = Ok o ->
  exists E s1 s2, encode_krauss_operators eigh c = Ok E /\ density 2 (me (o_rho o)) /\ o_val o = Float (s1 - s2)%R /\
    vn_entropy (2 ^ n) (channel_map (uncorrected_ops errors n E) (me (o_rho o))) s1 /\
    vn_entropy (length (uncorrected_ops errors n E)) (exchange_entry (uncorrected_ops errors n E) (me (o_rho o))) s2.
Proof.
  intros HE OK Hs I V HY NE T FW EO.
  assert (F : fits 2 2 (arg_matrices errors)) by (unfold fits; rewrite Forall_forall in *; intros A HA; destruct (FW A HA) as (a & b & H1 & H2 & _); auto).
  destruct (C116_channel_partial eigh g n c errors HE I V HY NE T FW) as (E & ops & EE & EF & SG & SC).
  destruct (C65_operators eigh g n c errors HE I V HY NE F T) as (Ss & E' & ops' & _ & EE' & RE & CE & _ & _ & EF' & _ & FO & _).
  rewrite EE in EE'. injection EE' as <-. rewrite EF in EF'. injection EF' as <-.
  destruct (C65_value eigh eigvalsh sqrtm s r g n c errors o HE OK Hs I V HY NE F T EO) as (ops' & s1 & s2 & EF' & SQ & D & HV & V1 & V2). rewrite EF in EF'. injection EF' as <-.
  exists E, s1, s2. split; [exact EE|]. split; [exact D|]. split; [exact HV|]. split; [exact (vn_ext _ _ _ _ (SC _) V1)|].
  assert (FU : fits (2 ^ n) 2 (uncorrected_ops errors n E)).
  { unfold fits, uncorrected_ops. apply Forall_map. pose proof (fits_power 2 2 _ n F) as FP. unfold fits in FP. rewrite Forall_forall in *. intros A HA. cbn. split; [apply FP; exact HA|exact CE]. }
  exact (exchange_uncorrected (2 ^ n) 2 ops (uncorrected_ops errors n E) _ s2 FO FU SC D V2).
Qed.

(** The five-qubit code and a bit flip with probability 16/25 on every qubit: the operator for
    "only the last qubit flips", an error that the code detects and can correct, takes encoded
    states to states orthogonal to the code space. *)
Definition last_flip : list Z := [0; 0; 0; 0; 1; 0; 0; 0; 0; 0]%Z.
Lemma stay : pauli_multiple_of 1 ((3 / 5, 0)%R : CC) [0; 0]%Z (MA 2 2 (fun i j => (if Nat.eqb i j then (3 / 5)%R else 0%R, 0%R) : CC)).
Proof.
  apply multiple_intro; [lia|reflexivity|reflexivity|reflexivity|unfold binary; bits|]. intros i j Hi Hj. destruct i as [|[|i]]; [| |cbn in Hi; lia]; (destruct j as [|[|j]]; [| |cbn in Hj; lia]); apply CC_eq; cbn; ring.
Qed.
Lemma flip : pauli_multiple_of 1 ((4 / 5, 0)%R : CC) [1; 0]%Z (MA 2 2 (fun i j => (if Nat.eqb i j then 0%R else (4 / 5)%R, 0%R) : CC)).
Proof.
  apply multiple_intro; [lia|reflexivity|reflexivity|reflexivity|unfold binary; bits|]. intros i j Hi Hj. destruct i as [|[|i]]; [| |cbn in Hi; lia]; (destruct j as [|[|j]]; [| |cbn in Hj; lia]); apply CC_eq; cbn; ring.
Qed.
Lemma bit_flip_pauli : Forall (pauli_multiple 1) (arg_matrices bit_flip).
Proof. repeat constructor; eexists; eexists; [exact stay|exact flip]. Qed.
Lemma one_flip : exists W a, nth_error (power_ops (arg_matrices bit_flip) 5) 1 = Some W /\ pauli_multiple_of 5 a last_flip W /\ smul (sconj a) a = ((((3 / 5) ^ 2) ^ 4 * (4 / 5) ^ 2)%R, 0%R) :> CC.
Proof.
  eexists. eexists. split; [reflexivity|]. split.
  - eapply (tens_multiple 4 _ _ 0 0 [0; 0; 0; 1]%Z [0; 0; 0; 0]%Z); [lia|reflexivity|exact stay|].
    eapply (tens_multiple 3 _ _ 0 0 [0; 0; 1]%Z [0; 0; 0]%Z); [lia|reflexivity|exact stay|].
    eapply (tens_multiple 2 _ _ 0 0 [0; 1]%Z [0; 0]%Z); [lia|reflexivity|exact stay|].
    eapply (tens_multiple 1 _ _ 0 0 [1]%Z [0]%Z); [lia|reflexivity|exact stay|].
    eapply multiple_same; [lia|exact flip|apply tens_one].
  - apply CC_eq; cbn; field.
Qed.
Lemma forall2_nth {A B : Type} (Q : A -> B -> Prop) l m t x : Forall2 Q l m -> nth_error l t = Some x -> exists y, nth_error m t = Some y /\ Q x y.
Proof. intros H. revert t. induction H as [|a b l m H F IH]; intros [|t]; cbn; intros E; try discriminate; [injection E as <-; eauto|apply IH; exact E]. Qed.
Theorem C116_refuted : exists c W a, init (Strings five_qubit) 5 1 None = Ok c /\ valid_generators 5 1 (zd (stab c)) /\ detected (zd (stab c)) last_flip /\
  arg_matrices bit_flip <> [] /\ fits 2 2 (arg_matrices bit_flip) /\ trace_preserving 2 (arg_matrices bit_flip) /\
  nth_error (power_ops (arg_matrices bit_flip) 5) 1 = Some W /\ pauli_multiple_of 5 a last_flip W /\
  forall eigh, eigh_ok eigh -> exists E ops A, encode_krauss_operators eigh c = Ok E /\ effective_operators eigh (Strings five_qubit) 5 1 bit_flip = Ok ops /\ nth_error ops 1 = Some A /\
    orthogonal_to E A /\ eqm 2 2 (mm (mr A) (adj (me A)) (me A)) (scale (((((3 / 5) ^ 2) ^ 4 * (4 / 5) ^ 2)%R, 0%R) : CC) eye) /\
    ~ exists z, eqm 32 2 (me A) (scale z (me E)).
Proof.
  destruct one_flip as (W & a & EW & MW & HA).
  assert (G : exists c, init (Strings five_qubit) 5 1 None = Ok c /\ valid_generators 5 1 (zd (stab c)) /\ detected (zd (stab c)) last_flip /\ forallb (fun r => Nat.even (y_count 5 r)) (zd (stab c)) = true).
  { eexists. split; [run|]. split; [valid|]. split; [|run]. eexists. split; [right; right; left; reflexivity|run]. }
  destruct G as (c & I & V & D & Y). exists c, W, a. split; [exact I|]. split; [exact V|]. split; [exact D|]. split; [discriminate|]. split; [exact bit_flip_fits|]. split; [exact bit_flip_tp|]. split; [exact EW|]. split; [exact MW|].
  intros eigh HE. destruct (effective_uncorrected eigh (Strings five_qubit) 5 c bit_flip HE I V (even_rows _ _ Y)) as (E & ops & EE & RE & CE & TE & EO & SG & _ & H5 & H6); [discriminate|exact bit_flip_tp|exact bit_flip_pauli|].
  destruct (forall2_nth _ _ _ 1 W SG EW) as (A & EA & (R & C & _)). destruct (forall2_nth _ _ _ 1 W H5 EW) as (A' & EA' & O). rewrite EA in EA'. injection EA' as <-.
  destruct (forall2_nth _ _ _ 1 W H6 EW) as (A' & EA' & X). rewrite EA in EA'. injection EA' as <-. specialize (O _ _ MW D). specialize (X _ _ MW). rewrite HA in X.
  exists E, ops, A. split; [exact EE|]. split; [exact EO|]. split; [exact EA|]. split; [exact O|]. split; [exact X|].
  cbn [product mr mc] in R, C. destruct MW as (W1 & _). rewrite W1 in R. rewrite CE in C.
  pose proof (no_multiple A E (((((3 / 5) ^ 2) ^ 4 * (4 / 5) ^ 2)%R, 0%R) : CC)) as NM. rewrite R, C, RE, CE in NM. rewrite R in X. apply NM; [reflexivity|reflexivity|lia|exact TE|exact O|exact X|].
  intros Z. apply (f_equal fst) in Z. cbn [fst s0 CC] in Z. lra.
Qed.
Print Assumptions C116_channel_partial.
Print Assumptions C116_orthogonal_partial.
Print Assumptions C116_value_partial.
Print Assumptions C116_refuted.
Example C116_case : exists eigh eigvalsh c o, eigh_ok eigh /\ eigvalsh_ok eigvalsh /\ scipy_ok lazy_scipy /\ init (Strings five_qubit) 5 1 None = Ok c /\ valid_generators 5 1 (zd (stab c)) /\
  Forall (fun r => Nat.even (y_count 5 r) = true) (zd (stab c)) /\ arg_matrices bit_flip <> [] /\ trace_preserving 2 (arg_matrices bit_flip) /\ Forall (pauli_multiple 1) (arg_matrices bit_flip) /\
  effective_channel_with_stabilizers eigh eigvalsh (fun A => A) lazy_scipy one_rng (Strings five_qubit) 5 1 bit_flip "coherent"%string = Ok o.
Proof.
  destruct C65_case_value as (eigh & ev & o & HE & OK & LS & EO). destruct C65_case as (_ & c & _ & I & V & HY & NE & _ & T). exists eigh, ev, c, o.
  repeat (split; [first [exact HE|exact OK|exact LS|exact I|exact V|exact HY|exact NE|exact T|exact bit_flip_pauli]|]). exact EO.
Qed.
