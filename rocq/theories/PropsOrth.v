(** Declaring groups of operators orthogonal (C127).
    Specification: OrthSpec.v, KnownSpec.v (erasure, dephrasure).  Model: ChannelModel.v, KrausModel.v. *)
From Verif Require Import Py Scalar PauliModel PauliSpec EncoderProofs EighExists Spectral SpectralProofs KrausModel KrausSpec KrausProofs KrausProofs2 KrausProofs5 KrausProofs6 KrausProofs7 KrausProofs8 KrausProofs12
  ChoiModel ChannelModel ChannelSpec ChoiSpec ChoiProofs ChoiProofs2 ChoiProofs3 SpectralExists EntropyProofs EntropySpec CohProofs CohProofs3 CohProofs4 Processing ProcessingSpec Processing2 Degradable OptimProofs3 KnownSpec KnownProofs KnownProofs2 KnownProofs3 KnownProofs4 PropsKnown2 OrthSpec OrthProofs.
From Coq Require Import Reals Lra.
Open Scope nat_scope.

(** ** C127 *)
(** The claim fails: half-erasure, maximally mixed input, index 1 of three operators (the index of the
    docstring's example).  The value without the index is 0, the value with it 1/2. *)
Definition half_erasure := erasure (/ 2) 2.
Lemma half_apart : apart_at 2 half_erasure 1.
Proof.
  intros i j x y Hi [Hj Hj'] Hx Hy. change (length half_erasure) with 3 in Hj'. assert (i = 0) as -> by lia.
  destruct j as [|[|[|j]]]; try lia; destruct x as [|[|x]]; try lia; destruct y as [|[|y]]; try lia; apply CC_eq; cbn; ring.
Qed.
Theorem C127_refuted : exists c1 c2, chan_init (OpList half_erasure) (1, 1) 2 3 [1] false = Ok c1 /\ chan_init (OpList half_erasure) (1, 1) 2 3 [] false = Ok c2 /\
  apart_at 2 half_erasure 1 /\ density 2 (me (mixed_state 2)) /\
  forall eigvalsh sqrtm, eigvalsh_ok eigvalsh ->
    snd (coherent_information eigvalsh sqrtm c1 (mixed_state 2) 1 false) = Ok (/ 2)%R /\
    snd (coherent_information eigvalsh sqrtm c2 (mixed_state 2) 1 false) = Ok 0%R.
Proof.
  assert (Q : (0 <= / 2 <= 1)%R) by lra. assert (NE : half_erasure <> []) by discriminate.
  assert (FT : fits (3 ^ 1) (2 ^ 1) half_erasure /\ nearly_tp (2 ^ 1) half_erasure). { split; [apply (erasure_fits (/ 2) 2)|apply tp_nearly, (erasure_tp (/ 2) 2 Q)]. }
  destruct (proj2 (chan_init_iff (OpList half_erasure) (1, 1)%nat 2 3 [1] false NE) FT) as (c1 & E1). destruct (proj2 (chan_init_iff (OpList half_erasure) (1, 1)%nat 2 3 [] false NE) FT) as (c2 & E2).
  exists c1, c2. split; [exact E1|]. split; [exact E2|]. split; [exact half_apart|]. destruct (mixed_state_entropy 2 ltac:(lia)) as [DM _]. split; [exact DM|]. intros ev sq OK.
  destruct (chan_init_made _ _ _ _ _ _ _ E1) as (k1 & -> & K1). destruct (chan_init_made _ _ _ _ _ _ _ E2) as (k2 & -> & K2).
  assert (FE : fits 3 2 half_erasure) by apply FT. pose proof (power_ops_1 (K := CC) half_erasure) as P1.
  assert (VO : eqm 3 3 (channel_map (power_ops half_erasure 1) (me (mixed_state 2))) (diag_mat [/ 4; / 4; / 2]%R)).
  { intros i j Hi Hj. rewrite <- (channel_map_same 3 2 _ _ (me (mixed_state 2)) (me (mixed_state 2)) FE P1 (fun _ _ _ _ => eq_refl) i j Hi Hj).
    unfold half_erasure. rewrite (erasure_out (/ 2) 2 (me (mixed_state 2)) Q i j Hi Hj). destruct i as [|[|[|i]]]; [| | |lia]; destruct j as [|[|[|j]]]; try lia; apply CC_eq; cbn; lra. }
  assert (VE : eqm 3 3 (exchange_entry (power_ops half_erasure 1) (me (mixed_state 2))) (diag_mat [/ 2; / 4; / 4]%R)).
  { intros i j Hi Hj. rewrite <- (exchange_entry_same 3 2 _ _ (me (mixed_state 2)) (me (mixed_state 2)) i j FE P1 (fun _ _ _ _ => eq_refl) Hi Hj).
    unfold half_erasure. rewrite (erasure_env (/ 2) 2 (me (mixed_state 2)) Q i j Hi Hj). destruct i as [|[|[|i]]]; [| | |lia]; destruct j as [|[|[|j]]]; try lia; apply CC_eq; cbn; lra. }
  assert (Q0 : forall x y : R, entropy_of (/ 10000000000)%R [x; y] = (entropy_of (/ 10000000000) [x] + entropy_of (/ 10000000000) [y])%R) by (intros; apply (entropy_of_app _ [x] [y])).
  assert (Q1 : entropy_of (/ 10000000000)%R [/ 4; / 4; / 2]%R = (3 / 2)%R). { rewrite (entropy_of_app _ [/ 4]%R [/ 4; / 2]%R), Q0, entropy_half, !entropy_quarter. lra. }
  assert (Q2 : entropy_of (/ 10000000000)%R [/ 2; / 4; / 4]%R = (3 / 2)%R). { rewrite (entropy_of_app _ [/ 2]%R [/ 4; / 4]%R), Q0, entropy_half, !entropy_quarter. lra. }
  split.
  - destruct (c31 false (OpList half_erasure) (1, 1) 2 3 [1] k1 [] 1 (mixed_state 2) K1 NE ltac:(constructor) ltac:(lia) ltac:(intros X; discriminate X) (conj eq_refl eq_refl)) as (out & O1 & O2 & O3 & _ & O4 & _).
    destruct (blocks_run (OpList half_erasure) (1, 1) 2 3 [1] k1 ([] ++ [1]) 1 (mixed_state 2) K1 NE ltac:(discriminate) ltac:(repeat constructor) ltac:(lia) (conj eq_refl eq_refl)) as (Ws & W1 & G).
    specialize (G (MA 3 3 (exchange_entry (power_ops half_erasure 1) (me (mixed_state 2)))) (conj eq_refl eq_refl) (fun i j _ _ => eq_refl)).
    cbn [code_blocks list_sum fold_right List.app] in G. inversion G as [|A1 B1 l1 l2 S1 G1 X1 X2]; subst. inversion G1 as [|A2 B2 l3 l4 S2 G2 X3 X4]; subst. inversion G2; subst. clear G G1 G2.
    destruct S1 as (R1 & C1 & V1). destruct S2 as (R2 & C2 & V2). cbn in R1, C1, R2, C2. rewrite R1, C1 in V1. rewrite R2, C2 in V2.
    assert (D1 : eqm 1 1 (me A1) (diag_mat [/ 2]%R)). { intros i j Hi Hj. assert (i = 0) as -> by lia. assert (j = 0) as -> by lia. rewrite V1 by lia. apply (VE 0 0); lia. }
    assert (D2 : eqm 1 1 (me A2) (diag_mat [/ 4]%R)). { intros i j Hi Hj. assert (i = 0) as -> by lia. assert (j = 0) as -> by lia. rewrite V2 by lia. apply (VE 2 2); lia. }
    assert (H1 : hermitian 1 (me A1)) by (apply (hermitian_ext 1 (diag_mat [/ 2]%R)); [apply eqm_sym, D1|apply diag_hermitian]).
    assert (H2 : hermitian 1 (me A2)) by (apply (hermitian_ext 1 (diag_mat [/ 4]%R)); [apply eqm_sym, D2|apply diag_hermitian]).
    destruct (entropy_one ev out 3 OK O2 (O4 (proj1 DM))) as (s1 & T1 & T2).
    assert (N1 : entropy_of (/ 10000000000)%R (ev A1) = (/ 2)%R). { rewrite <- entropy_half. apply (vn_diag 1 (me A1)); [reflexivity|exact D1|]. exists (ev A1). split; [apply OK; [split; assumption|exact H1]|reflexivity]. }
    assert (N2 : entropy_of (/ 10000000000)%R (ev A2) = (/ 2)%R). { rewrite <- entropy_quarter. apply (vn_diag 1 (me A2)); [reflexivity|exact D2|]. exists (ev A2). split; [apply OK; [split; assumption|exact H2]|reflexivity]. }
    assert (T3 : entropy ev [A1; A2] = Ok 1%R). { cbn [entropy forallb flat_map]. rewrite R1, C1, R2, C2. cbn [Nat.eqb andb]. rewrite app_nil_r. f_equal. etransitivity; [apply entropy_eigs_of|]. change (entropy_of (/ 10000000000)%R (ev A1 ++ ev A2) = 1%R). rewrite entropy_of_app, N1, N2. lra. }
    pose proof (coherent_steps ev sq k1 [] 1 (mixed_state 2) false out _ s1 1%R O1 W1 T1 T3) as F. cbn [after fold_left] in F. etransitivity; [exact F|]. f_equal.
    rewrite (vn_diag 3 _ [/ 4; / 4; / 2]%R s1 eq_refl VO (vn_ext _ _ _ _ O3 T2)), Q1. lra.
  - destruct (coherent_kraus ev sq false (OpList half_erasure) (1, 1) 2 3 [] k2 [] 1 (mixed_state 2) false OK K2 NE (or_intror eq_refl) ltac:(constructor) ltac:(lia) ltac:(intros X; discriminate X) (conj eq_refl eq_refl) (proj1 DM)) as (s1 & s2 & F & S1 & S2).
    cbn [after fold_left] in F. etransitivity; [exact F|]. f_equal.
    rewrite (vn_diag 3 _ [/ 4; / 4; / 2]%R s1 eq_refl VO S1), (vn_diag 3 _ [/ 2; / 4; / 4]%R s2 eq_refl VE S2), Q1, Q2. lra.
Qed.
(** It holds if the index splits the operators into halves, for every n and every history of either object. *)
Theorem C127_halves_partial eigvalsh sqrtm (a : kraus_arg CC) nq din dout b sp c1 c2 past1 past2 n rho reg : eigvalsh_ok eigvalsh ->
  chan_init a nq din dout [b] false = Ok c1 -> chan_init a nq din dout [] sp = Ok c2 -> arg_matrices a <> [] ->
  2 * b = length (arg_matrices a) -> apart_at (din ^ fst nq) (arg_matrices a) b ->
  Forall (fun m => 1 <= m) past1 -> Forall (fun m => 1 <= m) past2 -> 1 <= n -> clean sp past2 n ->
  is_square ((din ^ fst nq) ^ n) rho -> hermitian ((din ^ fst nq) ^ n) (me rho) ->
  exists r, snd (coherent_information eigvalsh sqrtm (after c1 past1) rho n reg) = Ok r /\ snd (coherent_information eigvalsh sqrtm (after c2 past2) rho n reg) = Ok r.
Proof.
  intros OK I1 I2 NE HB AP P1 P2 Hn CL SQ HE. destruct (chan_init_made _ _ _ _ _ _ _ I1) as (k1 & -> & K1). destruct (chan_init_made _ _ _ _ _ _ _ I2) as (k2 & -> & K2).
  destruct (coherent_halves eigvalsh sqrtm a nq din dout b k1 past1 n rho reg OK K1 NE HB AP P1 Hn SQ HE) as (s1 & s2 & E1 & A1 & A2).
  assert (K2' : kraus_init sp a nq din dout [] = Ok k2) by (destruct sp; exact K2).
  destruct (coherent_kraus eigvalsh sqrtm sp a nq din dout [] k2 past2 n rho reg OK K2' NE (or_intror eq_refl) P2 Hn CL SQ HE) as (t1 & t2 & E2 & B1 & B2).
  pose proof (vn_unique _ _ _ _ _ _ A1 B1 (fun _ => eq_refl)) as X1. pose proof (vn_unique _ _ _ _ _ _ A2 B2 (fun _ => eq_refl)) as X2. rewrite <- X1, <- X2 in E2. eexists. split; [exact E1|exact E2].
Qed.
Lemma dephrasure_apart p q : apart_at 2 (dephrasure p q) 2.
Proof.
  intros i j x y Hi [Hj Hj'] Hx Hy. change (length (dephrasure p q)) with 4 in Hj'.
  destruct i as [|[|i]]; try lia; (destruct j as [|[|[|[|j]]]]; try lia); destruct x as [|[|x]]; try lia; destruct y as [|[|y]]; try lia; apply CC_eq; cbn; ring.
Qed.
Print Assumptions C127_refuted.
Print Assumptions C127_halves_partial.
(** the dephrasure channel as the test-suite makes it, with index 2 of four operators, has the value of C126 *)
Example C127_case p q x : (0 < p < 1)%R -> (0 <= q <= 1)%R -> (0 < x < 1)%R -> exists c, chan_init (OpList (dephrasure p q)) (1, 1) 2 3 [2] false = Ok c /\
  forall eigvalsh sqrtm past n reg, eigvalsh_ok eigvalsh -> Forall (fun m => 1 <= m) past -> 1 <= n ->
    value_between eigvalsh sqrtm c past n (corners x (2 ^ n)) reg (paper_value x n p q - INR (3 ^ n) * slack)%R (paper_value x n p q + INR (4 ^ n) * slack)%R.
Proof.
  intros Hp Hq Hx. assert (NE : dephrasure p q <> []) by discriminate. assert (Hp' : (0 <= p <= 1)%R) by lra.
  assert (FT : fits (3 ^ 1) (2 ^ 1) (dephrasure p q) /\ nearly_tp (2 ^ 1) (dephrasure p q)). { split; [apply dephrasure_fits|apply tp_nearly, (dephrasure_tp p q Hp' Hq)]. }
  destruct (proj2 (chan_init_iff (OpList (dephrasure p q)) (1, 1)%nat 2 3 [2] false NE) FT) as (c1 & E1). destruct (proj2 (chan_init_iff (OpList (dephrasure p q)) (1, 1)%nat 2 3 [] false NE) FT) as (c2 & E2).
  exists c1. split; [exact E1|]. intros ev sq past n reg OK HP Hn.
  assert (C : channel_of (dephrasure p q) false c2) by (exists (OpList (dephrasure p q)), (1, 1)%nat, 2, 3; split; [exact E2|apply same_ops_refl]).
  destruct (C126_paper ev sq OK p q x false c2 [] n reg Hp Hq Hx C ltac:(constructor) Hn ltac:(intros X; discriminate X)) as (r & V & B).
  destruct (C127_halves_partial ev sq (OpList (dephrasure p q)) (1, 1) 2 3 2 false c1 c2 past [] n (corners x (2 ^ n)) reg OK E1 E2 NE eq_refl (dephrasure_apart p q) HP ltac:(constructor) Hn ltac:(intros X; discriminate X) (conj eq_refl eq_refl) (proj1 (corners_density x n ltac:(lra) Hn))) as (s & F1 & F2).
  exists r. split; [|exact B]. rewrite F1, <- F2. exact V.
Qed.
