(** Properties of channel objects (C87-C89, C91) and further parts of C43 and C84.
    Specification: ChanSpec.v, KrausSpec.v, ChoiSpec.v, ChannelSpec.v.  Model: ChannelModel.v,
    KrausModel.v, ChoiModel.v.  istp_ok and iscp_ok say what qutip's istp and iscp are assumed
    to decide; C89_case shows that they can be met. *)
From Verif Require Import Py Scalar PauliModel PauliSpec EncoderProofs EighExists KrausModel KrausSpec KrausProofs KrausProofs2 KrausProofs3 KrausProofs4 KrausProofs5 KrausProofs9 KrausProofs10 KrausProofs11
  ChoiModel ChannelModel ChannelSpec ChoiSpec ChoiProofs ChoiProofs4 Spectral SpectralProofs EntropySpec EntropyProofs CohProofs4 ChanSpec ChanProofs ChanProofs2 ChanProofs3 KrausExamples.
From Verif Require Import UnitalProofs.
From Coq Require Import Reals Lra.
From Coq Require Import ClassicalEpsilon.
Open Scope nat_scope.
Add Ring CCring38 : (s_rt CC).

(** ** C87: the accessors, after any calls; n is the last n asked for, or 1 *)
Theorem C87_accessors eigvalsh sqrtm eigh sp (a : kraus_arg CC) nq din dout orthogonal o0 xs :
  kraus_init sp a nq din dout orthogonal = Ok o0 -> arg_matrices a <> [] -> Forall (fun m => 1 <= m) (flat_map asks xs) ->
  let c := performed eigvalsh sqrtm (KrausType o0) xs in let n := last (flat_map asks xs) 1 in
  input_dimension c = (din ^ fst nq) ^ n /\ output_dimension c = (dout ^ snd nq) ^ n /\
  (exists t, nth_kraus_operators c = Ok t /\ same_ops (slices t) (power_ops (arg_matrices a) n)) /\
  chan_kraus eigh c = arg_matrices a /\ chan_dim_in c = din /\ chan_dim_out c = dout /\ chan_numb_qubits c = nq /\ chan_n c = n.
Proof.
  intros H NE HP c n. destruct (accessors sp a nq din dout orthogonal o0 (flat_map asks xs) H NE HP) as (A1 & A2 & A3 & (k & A4 & A5) & A6).
  unfold c, n in *. rewrite performed_state. split; [exact A1|]. split; [exact A2|]. split; [exact A3|]. split; [rewrite A4; exact A5|exact A6].
Qed.
(** the private check for qubit channels, which picks the default objective *)
Theorem C87_qubit eigvalsh sqrtm sp (a : kraus_arg CC) nq din dout orthogonal o0 xs :
  kraus_init sp a nq din dout orthogonal = Ok o0 -> arg_matrices a <> [] -> Forall (fun m => 1 <= m) (flat_map asks xs) ->
  let n := last (flat_map asks xs) 1 in
  is_qubit_channel (performed eigvalsh sqrtm (KrausType o0) xs) = true <-> n = 1 /\ din ^ fst nq = 2 /\ dout ^ snd nq = 2.
Proof.
  intros H NE HP n. destruct (accessors sp a nq din dout orthogonal o0 (flat_map asks xs) H NE HP) as (A1 & A2 & _).
  rewrite performed_state. unfold is_qubit_channel. rewrite A1, A2, Bool.andb_true_iff, !Nat.eqb_eq. fold n. split.
  - intros [E1 E2]. assert (L1 : n = 1).
    { destruct n as [|[|n]]; [cbn in E1; discriminate|reflexivity|]. exfalso. set (x := din ^ fst nq) in *. destruct x as [|[|x]]; [rewrite Nat.pow_0_l in E1; discriminate|rewrite Nat.pow_1_l in E1; discriminate|].
      cbn [Nat.pow] in E1. assert (1 <= S (S x) ^ n) by (apply Nat.neq_0_lt_0, Nat.pow_nonzero; discriminate). nia. }
    rewrite L1, Nat.pow_1_r in E1, E2. auto.
  - intros (-> & -> & ->). split; reflexivity.
Qed.
(** Choi-type objects *)
Theorem C87_choi istp iscp (m : marr CC) nq din dout sp c : chan_init_choi istp iscp m nq din dout sp = Ok c ->
  input_dimension c = din ^ fst nq /\ output_dimension c = dout ^ snd nq /\ chan_dim_in c = din /\ chan_dim_out c = dout /\ chan_numb_qubits c = nq /\ nth_kraus_operators c = Err AssertionError.
Proof.
  unfold chan_init_choi, choi_init. destruct (guard _ _); [|discriminate]. cbn [bind]. destruct (assert_ (istp _)); [|discriminate]. cbn [bind]. destruct (assert_ (iscp _)); [|discriminate].
  cbn [bind]. intros H. injection H as <-. destruct nq. repeat split.
Qed.
Print Assumptions C87_accessors.
Print Assumptions C87_qubit.
Print Assumptions C87_choi.
Example C87_case : exists o0 : kraus CC, kraus_init true reset_ops (1, 1) 2 2 [] = Ok o0 /\
  Forall (fun m => 1 <= m) (flat_map asks [Channel plus 3 false; AverageFidelity [] []; Exchange plus 2]) /\
  last (flat_map asks [Channel plus 3 false; AverageFidelity [] []; Exchange plus 2]) 1 = 2.
Proof. destruct (reset_init (K := CC) true) as (o0 & H). exists o0. split; [exact H|]. split; [repeat constructor|reflexivity]. Qed.

(** ** C88: the product of two Kraus objects *)
Theorem C88_product_partial (K : StarRing) sp opA nqA dinA doutA orA a opB nqB dinB doutB orB (b : kraus K) : arg_matrices opA <> [] -> arg_matrices opB <> [] ->
  kraus_init sp opA nqA dinA doutA orA = Ok a -> kraus_init sp opB nqB dinB doutB orB = Ok b ->
  dinA * dinB = dinA ^ fst nqA * dinB ^ fst nqB -> doutA * doutB = doutA ^ snd nqA * doutB ^ snd nqB ->
  exists k, kraus_mul a b = Ok k /\ same_ops (slices (kraus_ops k)) (tens_ops (arg_matrices opA) (arg_matrices opB)) /\
    sparse k = sp /\ numb_qubits k = (1, 1) /\ dim_in k = dinA * dinB /\ dim_out k = doutA * doutB /\ numb_kraus k = length (arg_matrices opA) * length (arg_matrices opB).
Proof. intros NA NB EA EB. exact (proj1 (proj2 (kraus_mul_iff sp opA nqA dinA doutA orA a sp opB nqB dinB doutB orB b NA NB EA EB)) eq_refl). Qed.
(** ... and every other case is refused, e.g. two-qubit objects and objects of different classes *)
Theorem C88_refused_partial (K : StarRing) spA opA nqA dinA doutA orA a spB opB nqB dinB doutB orB (b : kraus K) : arg_matrices opA <> [] -> arg_matrices opB <> [] ->
  kraus_init spA opA nqA dinA doutA orA = Ok a -> kraus_init spB opB nqB dinB doutB orB = Ok b ->
  spA <> spB \/ dinA * dinB <> dinA ^ fst nqA * dinB ^ fst nqB \/ doutA * doutB <> doutA ^ snd nqA * doutB ^ snd nqB -> kraus_mul a b = Err AssertionError.
Proof.
  intros NA NB EA EB. destruct (kraus_mul_iff spA opA nqA dinA doutA orA a spB opB nqB dinB doutB orB b NA NB EA EB) as (X1 & _ & X3).
  intros [H|H]; [exact (X1 H)|]. apply X3. intros [E1 E2]. destruct H; contradiction.
Qed.
(** the product applies the two maps to the two halves *)
Theorem C88_tensor_partial (K : StarRing) (opsA opsB : list (marr K)) rA cA rB cB X Y : fits rA cA opsA -> fits rB cB opsB -> is_square cA X -> is_square cB Y ->
  eqm (rA * rB) (rA * rB) (channel_map (tens_ops opsA opsB) (me (tens X Y))) (me (tens (MA rA rA (channel_map opsA (me X))) (MA rB rB (channel_map opsB (me Y))))).
Proof. intros FA FB _ [Y1 Y2] i j _ _. cbn [tens me mr mc]. rewrite Y1, Y2. exact (channel_tens rA cA rB cB opsA opsB (me X) (me Y) FA FB i j). Qed.
Theorem C88_refuted : exists (a : kraus CC), kraus_init false (ident 4) (2, 2) 2 2 [] = Ok a /\ kraus_mul a a = Err AssertionError.
Proof.
  eexists. split; [reflexivity|]. eapply (C88_refused_partial CC false (ident 4) (2, 2) 2 2 [] _ false (ident 4) (2, 2) 2 2 []); try discriminate; try reflexivity. right. left. discriminate.
Qed.
Print Assumptions C88_product_partial.
Print Assumptions C88_refused_partial.
Print Assumptions C88_tensor_partial.
Print Assumptions C88_refuted.
Example C88_case : exists a : kraus CC, kraus_init true reset_ops (1, 1) 2 2 [] = Ok a /\ 2 * 2 = 2 ^ fst (1, 1) * 2 ^ fst (1, 1).
Proof. destruct (reset_init (K := CC) true) as (o0 & H). exists o0. split; [exact H|reflexivity]. Qed.

(** ** C89: the constructor on a Choi matrix *)
Theorem C89_accepts istp iscp m nq din dout sp : istp_ok istp -> iscp_ok iscp -> let D := din ^ fst nq in let O := dout ^ snd nq in is_square (D * O) m ->
  (exists ops, fits O D ops /\ trace_preserving D ops /\ eqm (D * O) (D * O) (me m) (choi_matrix ops O)) ->
  chan_init_choi istp iscp m nq din dout sp = Ok (ChoiType sp (CH m (fst nq) (snd nq) din dout)).
Proof. intros T C D O SM X. destruct (choi_accepts istp iscp T C m nq din dout sp SM) as [[E _]|[_ N]]; [exact E|contradiction]. Qed.
Theorem C89_rejects istp iscp m nq din dout sp : istp_ok istp -> iscp_ok iscp -> let D := din ^ fst nq in let O := dout ^ snd nq in is_square (D * O) m ->
  ~ (exists ops, fits O D ops /\ trace_preserving D ops /\ eqm (D * O) (D * O) (me m) (choi_matrix ops O)) ->
  chan_init_choi istp iscp m nq din dout sp = Err AssertionError.
Proof. intros T C D O SM X. destruct (choi_accepts istp iscp T C m nq din dout sp SM) as [[_ N]|[E _]]; [contradiction|exact E]. Qed.
Theorem C89_wrong_size istp iscp m nq din dout sp : mc m <> din ^ fst nq * dout ^ snd nq -> chan_init_choi istp iscp m nq din dout sp = Err ValueError.
Proof. exact (choi_wrong_size istp iscp m nq din dout sp). Qed.
(** the matrices accepted are those with non-negative expectation values whose partial trace is the identity *)
Theorem C89_positive D O M : (psd (D * O) M /\ choi_tp D O M) <-> exists ops, fits O D ops /\ trace_preserving D ops /\ eqm (D * O) (D * O) M (choi_matrix ops O).
Proof.
  rewrite <- choi_theorem. split; [intros [P T]; split; [apply psd_hermitian, P|auto]|intros (_ & P & T); auto].
Qed.
(** what is accepted maps density matrices to density matrices *)
Theorem C89_density istp iscp m k din dout sp c rho : istp_ok istp -> iscp_ok iscp -> is_square (din ^ k * dout ^ k) m -> chan_init_choi istp iscp m (k, k) din dout sp = Ok c ->
  is_square (din ^ k) rho -> density (din ^ k) (me rho) ->
  exists out, snd (chan_channel c rho 1 false) = Ok out /\ is_square (dout ^ k) out /\ density (dout ^ k) (me out).
Proof. intros T C SM IN. exact (accepted_density istp iscp T C m k din dout sp c SM IN rho). Qed.
(** only n = 1 is allowed *)
Theorem C89_once eigvalsh sqrtm sp (h : choi CC) rho n adjoint reg : n <> 1 ->
  snd (chan_channel (ChoiType sp h) rho n adjoint) = Err AssertionError /\ snd (coherent_information eigvalsh sqrtm (ChoiType sp h) rho n reg) = Err AssertionError /\
  snd (fidelity_two_states sqrtm (ChoiType sp h) rho n) = Err AssertionError /\ snd (chan_exchange (ChoiType sp h) rho n) = Err AssertionError.
Proof.
  intros N. assert (E : snd (chan_channel (ChoiType sp h) rho n adjoint) = Err AssertionError) by (cbn [chan_channel snd]; rewrite (proj2 (Nat.eqb_neq _ _) N); reflexivity).
  split; [exact E|]. unfold coherent_information, fidelity_two_states. cbn [chan_channel]. rewrite (proj2 (Nat.eqb_neq _ _) N). cbn [assert_ guard bind snd]. auto.
Qed.
(** calls do not change the object *)
Theorem C89_unchanged eigvalsh sqrtm sp (h : choi CC) xs : performed eigvalsh sqrtm (ChoiType sp h) xs = ChoiType sp h.
Proof.
  induction xs as [|x xs IH]; [reflexivity|]. unfold performed in *. cbn [fold_left]. replace (fst (perform eigvalsh sqrtm (ChoiType sp h) x)) with (ChoiType sp h); [exact IH|].
  destruct x; try reflexivity; cbn [perform coherent_information fidelity_two_states chan_channel]; destruct (do _ <- assert_ _; choi_channel h rho); reflexivity.
Qed.
Print Assumptions C89_accepts.
Print Assumptions C89_rejects.
Print Assumptions C89_wrong_size.
Print Assumptions C89_positive.
Print Assumptions C89_density.
Print Assumptions C89_once.
Print Assumptions C89_unchanged.
Definition decide_tp (c : choi CC) : bool := if excluded_middle_informative (choi_tp (ch_input_dim c) (ch_output_dim c) (me (ch_mat c))) then true else false.
Definition decide_cp (c : choi CC) : bool := if excluded_middle_informative (psd (ch_input_dim c * ch_output_dim c) (me (ch_mat c))) then true else false.
Lemma decide_ok : istp_ok decide_tp /\ iscp_ok decide_cp.
Proof.
  split; intros c _.
  - unfold decide_tp. destruct (excluded_middle_informative _) as [H|H]; split; auto; discriminate.
  - unfold decide_cp. destruct (excluded_middle_informative _) as [H|H]; split; try discriminate; [intros _; split; [apply psd_hermitian, H|exact H]|auto|intros [_ X]; contradiction].
Qed.
Definition scaled_choi (x : R) : marr CC := MA 4 4 (fun i j => smul ((x, 0%R) : CC) (choi_matrix (arg_matrices reset_ops) 2 i j)).
Example C89_case : chan_init_choi decide_tp decide_cp (MA 4 4 (choi_matrix (arg_matrices reset_ops) 2)) (1, 1) 2 2 false = Ok (ChoiType false (CH (MA 4 4 (choi_matrix (arg_matrices reset_ops) 2)) 1 1 2 2)) /\
  chan_init_choi decide_tp decide_cp (scaled_choi 2) (1, 1) 2 2 false = Err AssertionError.
Proof.
  destruct decide_ok as [T C]. split.
  - apply C89_accepts; [exact T|exact C|split; reflexivity|]. exists (arg_matrices reset_ops). split; [exact reset_fits|]. split; [exact reset_tp|apply eqm_refl].
  - apply C89_rejects; [exact T|exact C|split; reflexivity|]. intros X. apply (choi_theorem 2 2) in X. destruct X as (_ & _ & X). specialize (X 0 0 ltac:(lia) ltac:(lia)). apply (f_equal fst) in X. cbn in X. lra.
Qed.

(** ** C84 for Choi channels *)
Theorem C84_choi eigvalsh sqrtm istp iscp m k din dout sp c rho reg : eigvalsh_ok eigvalsh -> sqrtm_ok sqrtm -> istp_ok istp -> iscp_ok iscp ->
  let D := din ^ k in let O := dout ^ k in is_square (D * O) m -> chan_init_choi istp iscp m (k, k) din dout sp = Ok c ->
  is_square D rho -> density D (me rho) ->
  exists r s, snd (coherent_information eigvalsh sqrtm c rho 1 reg) = Ok r /\ von_neumann D (me rho) s /\ (- s - INR O * slack <= r <= s + INR (D * O) * slack)%R.
Proof. intros OK OS T C D O SM IN SQ DR. exact (accepted_coherent istp iscp T C m k din dout sp c SM IN eigvalsh sqrtm rho reg OK OS SQ DR). Qed.
Print Assumptions C84_choi.

(** ** C43 for channel objects: the Kraus average fidelity does not depend on the calls made before *)
Theorem C43_object_partial eigvalsh sqrtm sp a nq din dout orthogonal o0 xs probs states : kraus_init sp a nq din dout orthogonal = Ok o0 -> arg_matrices a <> [] -> Forall (fun m => 1 <= m) (flat_map asks xs) ->
  length probs = length states -> Forall (is_square (din ^ fst nq)) states ->
  chan_fidelity (performed eigvalsh sqrtm (KrausType o0) xs) probs states =
    Ok ((ensemble (if sp then diagonal_fidelity (arg_matrices a) (dout ^ snd nq) else all_entries_fidelity (arg_matrices a)) probs states, 0%R) : CC).
Proof.
  intros H NE HP L F. destruct (made _ _ _ _ _ _ _ H NE) as (S & SP & _). rewrite performed_state. destruct (after_ok o0 _ HP S) as (o & E & ((St & _) & _)). rewrite E. cbn [chan_fidelity].
  assert (G : forall ps ss, kraus_fidelity o ps ss = kraus_fidelity o0 ps ss).
  { destruct St as (T1 & T2 & _). induction ps as [|p ps IH]; intros ss; [reflexivity|]. destruct ss as [|s ss]; [reflexivity|]. cbn [kraus_fidelity]. rewrite IH. unfold kraus_overlaps. rewrite T1, T2. reflexivity. }
  rewrite G. destruct sp; [rewrite (fidelity_sparse a nq din dout orthogonal o0 probs states H NE L F)|rewrite (fidelity_dense a nq din dout orthogonal o0 probs states H NE L F)]; reflexivity.
Qed.
Print Assumptions C43_object_partial.

(** ** C32 for every n: the adjoint fixes the identity exactly when the operators given are trace preserving *)
Theorem C32_unital_iff sp (a : kraus_arg CC) nq din dout orthogonal o0 past n :
  kraus_init sp a nq din dout orthogonal = Ok o0 -> arg_matrices a <> [] -> Forall (fun m => 1 <= m) past -> 1 <= n -> clean sp past n ->
  let D := (din ^ fst nq) ^ n in let D' := (dout ^ snd nq) ^ n in
  exists A, snd (chan_channel (after (KrausType o0) past) (MA D' D' eye) n true) = Ok A /\ is_square D A /\
    (eqm D D (me A) eye <-> trace_preserving (din ^ fst nq) (arg_matrices a)).
Proof.
  intros H NE HP Hn CL D D'. destruct (KrausProofs12.c32_unital (K := CC) sp a nq din dout orthogonal o0 past n H NE HP Hn CL) as (A & E & SQ & I1 & I2).
  exists A. split; [exact E|]. split; [exact SQ|]. split; [|exact I2]. intros G. apply (tp_of_power (dout ^ snd nq) (din ^ fst nq) (arg_matrices a) n); [|exact Hn|apply I1, G].
  eapply KrausProofs12.fits0; eassumption.
Qed.
Print Assumptions C32_unital_iff.
Example C32_case_iff : exists o0 : kraus CC, kraus_init true reset_ops (1, 1) 2 2 [] = Ok o0 /\ trace_preserving (K := CC) 2 (arg_matrices reset_ops) /\ clean true [1; 3; 2] 2 /\
  (exists o1 : kraus CC, kraus_init true (OpList [MA 2 2 (fun i j => if Nat.eqb i j then ((2%R, 0%R) : CC) else s0)]) (1, 1) 2 2 [] = Ok o1) /\
  ~ trace_preserving (K := CC) 2 [MA 2 2 (fun i j => if Nat.eqb i j then ((2%R, 0%R) : CC) else s0)].
Proof.
  destruct (reset_init (K := CC) true) as (o & E). exists o. split; [exact E|]. split; [apply reset_tp|]. split; [intros _ H; discriminate|]. split; [eexists; reflexivity|].
  intros Q. specialize (Q 0 0 ltac:(lia) ltac:(lia)). apply (f_equal fst) in Q. cbn in Q. lra.
Qed.

(** ** C91: Choi channels with different numbers of particles *)
(** more particles at the output: every call fails *)
Theorem C91_more_out_partial sp (h : choi CC) rho adjoint : num_in h < num_out h -> is_square (ch_input_dim h) rho -> is_square (ch_input_dim h * ch_output_dim h) (ch_mat h) ->
  snd (chan_channel (ChoiType sp h) rho 1 adjoint) = Err IndexError.
Proof. exact (more_out h rho). Qed.
(** at least twice as many at the input: the answer is the transposed state of some of the
    input particles, whatever the channel *)
Theorem C91_fewer_out_partial sp (h : choi CC) rho adjoint : 2 * num_out h <= num_in h -> is_square (ch_input_dim h) rho -> is_square (ch_input_dim h * ch_output_dim h) (ch_mat h) ->
  choi_tp (ch_input_dim h) (ch_output_dim h) (me (ch_mat h)) -> let m := ch_din h ^ num_out h in
  exists out, snd (chan_channel (ChoiType sp h) rho 1 adjoint) = Ok out /\ is_square m out /\
    eqm m m (me out) (transpose (marginal m m (ch_din h ^ (num_in h - 2 * num_out h)) (me rho))).
Proof. exact (fewer_out h rho). Qed.
(** from as many to twice as many at the input: with A the size of the last num_in - num_out
    input particles, B and W those of the first 2 num_out - num_in and of the other output
    particles, the block (a, b) of the answer is the state of the first output particles for the
    input (1 x |a><b|) rho *)
Theorem C91_between_partial sp (h : choi CC) ops rho adjoint : num_out h <= num_in h <= 2 * num_out h -> is_square (ch_input_dim h) rho -> is_square (ch_input_dim h * ch_output_dim h) (ch_mat h) ->
  let D := ch_input_dim h in let O := ch_output_dim h in fits O D ops -> eqm (D * O) (D * O) (me (ch_mat h)) (choi_matrix ops O) ->
  let A := ch_din h ^ (num_in h - num_out h) in let B := ch_dout h ^ (2 * num_out h - num_in h) in let W := ch_dout h ^ (num_in h - num_out h) in
  exists out, snd (chan_channel (ChoiType sp h) rho 1 adjoint) = Ok out /\ is_square (A * B) out /\
    forall a o b o', a < A -> o < B -> b < A -> o' < B -> me out (a * B + o) (b * B + o') = marginal 1 B W (channel_map ops (mm D (on_last A a b) (me rho))) o o'.
Proof. exact (ChanProofs3.between h rho ops). Qed.
(** the channel that discards the second of two qubits, on |01>: the code returns the second *)
Definition discard_ops : list (marr CC) := [MA 2 4 (fun a i => if Nat.eqb i (2 * a) then s1 else s0); MA 2 4 (fun a i => if Nat.eqb i (2 * a + 1) then s1 else s0)].
Lemma discard_tp : fits 2 4 discard_ops /\ trace_preserving 4 discard_ops.
Proof.
  split; [repeat constructor|]. intros i j Hi Hj. do 4 (destruct i as [|i]; [do 4 (destruct j as [|j]; [apply CC_eq; cbn; ring|]); lia|]). lia.
Qed.
Definition discard_choi : choi CC := CH (MA 8 8 (choi_matrix discard_ops 2)) 2 1 2 2.
Theorem C91_refuted : exists (c : chan CC) ops rho out, fits 2 4 ops /\ trace_preserving 4 ops /\
  chan_init_choi decide_tp decide_cp (MA 8 8 (choi_matrix ops 2)) (2, 1) 2 2 false = Ok c /\ is_square 4 rho /\ density 4 (me rho) /\
  snd (chan_channel c rho 1 false) = Ok out /\ me out 0 0 = s0 /\ channel_map ops (me rho) 0 0 = s1.
Proof.
  destruct decide_ok as [T C]. destruct discard_tp as [F TP]. set (rho := unit_mat (K := CC) 4 4 1 1).
  destruct (C91_fewer_out_partial false discard_choi rho false) as (out & E & _ & V); [cbn; lia|split; reflexivity|split; reflexivity|exact (choi_of_tp 4 2 discard_ops F TP)|].
  exists (ChoiType false discard_choi), discard_ops, rho, out. split; [exact F|]. split; [exact TP|]. split.
  { apply C89_accepts; [exact T|exact C|split; reflexivity|]. exists discard_ops. split; [exact F|]. split; [exact TP|apply eqm_refl]. }
  split; [split; reflexivity|]. split.
  { apply (density_ext 4 (pure (fun i => if Nat.eqb i 1 then s1 else s0))); [|apply pure_density; apply CC_eq; cbn; ring].
    intros i j Hi Hj. unfold rho, unit_mat, pure. cbn [me]. destruct (Nat.eqb i 1), (Nat.eqb j 1); apply CC_eq; cbn; ring. }
  split; [exact E|]. split; [rewrite V by (cbn; lia); apply CC_eq; cbn; ring|apply CC_eq; cbn; ring].
Qed.
Example C91_case : exists h : choi CC, num_in h = 1 /\ num_out h = 2 /\ is_square (ch_input_dim h * ch_output_dim h) (ch_mat h) /\
  choi_tp (ch_input_dim h) (ch_output_dim h) (me (ch_mat h)) /\ is_square (ch_input_dim h) (unit_mat (K := CC) 2 2 1 1).
Proof.
  exists (CH (MA 8 8 (choi_matrix [MA 4 2 (fun a i => if Nat.eqb a (3 * i) then s1 else s0 : CC)] 4)) 1 2 2 2).
  split; [reflexivity|]. split; [reflexivity|]. split; [split; reflexivity|]. split; [|split; reflexivity].
  apply (choi_of_tp 2 4); [repeat constructor|]. intros i j Hi Hj. do 2 (destruct i as [|i]; [do 2 (destruct j as [|j]; [apply CC_eq; cbn; ring|]); lia|]). lia.
Qed.
(** the channel that discards the last of three qubits *)
Definition discard3_ops : list (marr CC) := map (fun t => MA 4 8 (fun a i => if Nat.eqb i (2 * a + t) then s1 else s0)) [0; 1].
Lemma discard3_tp : fits 4 8 discard3_ops /\ trace_preserving 8 discard3_ops.
Proof.
  split; [repeat constructor|]. intros i j Hi Hj. unfold discard3_ops. cbn [map]. rewrite !ksum_cons, ksum_nil. unfold mm, adj. cbn [mr mc me bsum]. unfold eye.
  do 8 (destruct i as [|i]; [do 8 (destruct j as [|j]; [cbn [Nat.eqb Nat.mul Nat.add]; rewrite ?sconj_1, ?sconj_0; ring|]); lia|]). lia.
Qed.
Example C91_between_case : let h := CH (MA 32 32 (choi_matrix discard3_ops 4)) 3 2 2 2 in num_out h < num_in h < 2 * num_out h /\
  exists out, snd (chan_channel (ChoiType false h) (unit_mat 8 8 1 1) 1 false) = Ok out /\ is_square 4 out.
Proof.
  intros h. split; [cbn; lia|].
  destruct (C91_between_partial false h discard3_ops (unit_mat 8 8 1 1) false) as (out & E & Q & _); [unfold h; cbn [num_in num_out]; lia|split; reflexivity|split; reflexivity|apply discard3_tp|apply eqm_refl|].
  exists out. split; [exact E|exact Q].
Qed.
Print Assumptions C91_between_partial.
Print Assumptions C91_more_out_partial.
Print Assumptions C91_fewer_out_partial.
Print Assumptions C91_refuted.
