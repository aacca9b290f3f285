(** Entanglement fidelity of Kraus channels; associativity of *. *)
From Verif Require Import Py Scalar PauliModel PauliSpec KrausModel KrausSpec KrausProofs KrausProofs2 KrausProofs3 KrausProofs4 KrausProofs5 KrausProofs6 KrausProofs8 KrausProofs9 ChoiModel ChannelModel ChannelSpec.
From Coq Require Import Reals Lra.
Open Scope nat_scope.

Lemma overlaps_dense a nq din dout orthogonal o0 rho : kraus_init false a nq din dout orthogonal = Ok o0 -> arg_matrices a <> [] -> is_square (din ^ fst nq) rho ->
  exists v, kraus_overlaps o0 rho = Ok v /\ Rsum (map (fun z => (Cmod z ^ 2)%R) v) = all_entries_fidelity (arg_matrices a) rho.
Proof.
  intros H NE [R1 R2]. destruct (made _ _ _ _ _ _ _ H NE) as (S & SP & SL & F & E0 & E1 & E2 & _). unfold kraus_overlaps. rewrite SP, R1, E2, Nat.eqb_refl.
  eexists. split; [reflexivity|]. unfold all_entries_fidelity, Rsum, reals_sum. f_equal. rewrite <- SL. unfold slices. rewrite !map_map. apply map_ext. intros i.
  f_equal. f_equal. cbn [slice0 mr mc me]. apply bsum_ext. intros j _. rewrite E2, bsum_swap. reflexivity.
Qed.
Lemma overlaps_sparse a nq din dout orthogonal o0 rho : kraus_init true a nq din dout orthogonal = Ok o0 -> arg_matrices a <> [] -> is_square (din ^ fst nq) rho ->
  exists v, kraus_overlaps o0 rho = Ok v /\ Rsum (map (fun z => (Cmod z ^ 2)%R) v) = diagonal_fidelity (arg_matrices a) (dout ^ snd nq) rho.
Proof.
  intros H NE [R1 R2]. destruct (made _ _ _ _ _ _ _ H NE) as (S & SP & SL & F & E0 & E1 & E2 & _). unfold kraus_overlaps. rewrite SP. unfold matmul32. rewrite R1, E2, Nat.eqb_refl.
  cbn [bind t0 t1 t2 te]. eexists. split; [reflexivity|]. unfold diagonal_fidelity, Rsum, reals_sum. f_equal. rewrite map_map. apply map_ext. intros p.
  f_equal. f_equal. rewrite E0, E1. apply bsum_ext. intros d Hd. rewrite <- SL, nth_slices by lia. cbn [slice0 mc me]. rewrite E2. reflexivity.
Qed.
Lemma fidelity_loop (o0 : kraus CC) (g : marr CC -> R) probs : forall states, length probs = length states ->
  Forall (fun s => exists v, kraus_overlaps o0 s = Ok v /\ Rsum (map (fun z => (Cmod z ^ 2)%R) v) = g s) states ->
  kraus_fidelity o0 probs states = Ok (ensemble g probs states).
Proof.
  induction probs as [|p ps IH]; intros [|s ss] L H; cbn in L; try lia; [reflexivity|]. inversion H as [|? ? (v & EV & SV) H2]; subst.
  cbn [kraus_fidelity]. rewrite EV. cbn [bind]. rewrite (IH ss) by (auto; lia). cbn [bind]. rewrite SV. reflexivity.
Qed.
Lemma ensemble_ext f g probs : forall states, (forall s, In s states -> f s = g s) -> ensemble f probs states = ensemble g probs states.
Proof.
  unfold ensemble. induction probs as [|p ps IH]; intros [|s ss] H; try reflexivity. cbn [combine map reals_sum fold_right fst snd]. 
  rewrite (H s) by (left; reflexivity). f_equal. apply IH. intros x Hx. apply H. right. exact Hx.
Qed.
(** when every K rho is diagonal the sum of the entries is the trace *)
Lemma diagonal_entries r c l rho : fits r c l -> r = c -> mc rho = c -> Forall (fun A => diagonal r c (mm c (me A) (me rho))) l ->
  all_entries_fidelity l rho = entanglement_fidelity l rho.
Proof.
  intros F E M D. unfold all_entries_fidelity, entanglement_fidelity. f_equal. apply map_ext_in. intros A HA. f_equal. f_equal.
  destruct (in_fits _ _ _ _ F HA) as [E1 E2]. rewrite Forall_forall in D. specialize (D A HA). rewrite E1, E2, M. unfold tr. apply bsum_ext. intros j Hj.
  rewrite (bsum_one _ j); [reflexivity|lia|]. intros p Hp NP. apply D; auto.
Qed.
Theorem fidelity_dense a nq din dout orthogonal o0 probs states : kraus_init false a nq din dout orthogonal = Ok o0 -> arg_matrices a <> [] ->
  length probs = length states -> Forall (is_square (din ^ fst nq)) states ->
  kraus_fidelity o0 probs states = Ok (ensemble (all_entries_fidelity (arg_matrices a)) probs states).
Proof.
  intros H NE L F. apply fidelity_loop; [exact L|]. eapply Forall_impl; [|exact F]. intros s Hs. eapply overlaps_dense; eassumption.
Qed.
Theorem fidelity_sparse a nq din dout orthogonal o0 probs states : kraus_init true a nq din dout orthogonal = Ok o0 -> arg_matrices a <> [] ->
  length probs = length states -> Forall (is_square (din ^ fst nq)) states ->
  kraus_fidelity o0 probs states = Ok (ensemble (diagonal_fidelity (arg_matrices a) (dout ^ snd nq)) probs states).
Proof.
  intros H NE L F. apply fidelity_loop; [exact L|]. eapply Forall_impl; [|exact F]. intros s Hs. eapply overlaps_sparse; eassumption.
Qed.
Theorem fidelity_diagonal a nq din dout orthogonal o0 probs states : kraus_init false a nq din dout orthogonal = Ok o0 -> arg_matrices a <> [] ->
  length probs = length states -> Forall (is_square (din ^ fst nq)) states -> din ^ fst nq = dout ^ snd nq ->
  Forall (fun s => Forall (fun A => diagonal (din ^ fst nq) (din ^ fst nq) (mm (din ^ fst nq) (me A) (me s))) (arg_matrices a)) states ->
  kraus_fidelity o0 probs states = Ok (ensemble (entanglement_fidelity (arg_matrices a)) probs states).
Proof.
  intros H NE L F D G. rewrite (fidelity_dense _ _ _ _ _ _ _ _ H NE L F). f_equal. apply ensemble_ext. intros s Hs.
  destruct (made _ _ _ _ _ _ _ H NE) as (_ & _ & _ & FT & _). rewrite Forall_forall in F, G. destruct (F s Hs) as [_ Q2].
  apply (diagonal_entries (dout ^ snd nq) (din ^ fst nq)); auto. specialize (G s Hs). rewrite D in *. exact G.
Qed.

(** ** associativity of * on AnalyticQChan *)
Lemma mul_made (a b : kraus CC) c : chan_mul (KrausType a) (KrausType b) = Ok c -> exists k, c = KrausType k /\
  kraus_ops k = np_kron3 (kraus_ops a) (kraus_ops b) /\ dim_in k = dim_in a * dim_in b /\ dim_out k = dim_out a * dim_out b /\
  chan_init (OpArray (np_kron3 (kraus_ops a) (kraus_ops b))) (1, 1) (dim_in a * dim_in b) (dim_out a * dim_out b) [] (sparse a || sparse b) = Ok (KrausType k).
Proof.
  intros H. cbn [chan_mul] in H. pose proof H as H'. apply chan_init_made in H. destruct H as (k & -> & E). exists k. split; [reflexivity|].
  apply kraus_init_ok in E. destruct E as (ops & EA & _ & ->). injection EA as <-. cbn. auto.
Qed.
Theorem mul_associative (a b c : kraus CC) bc ab l r : slices (kraus_ops a) <> [] -> slices (kraus_ops b) <> [] -> slices (kraus_ops c) <> [] ->
  chan_mul (KrausType b) (KrausType c) = Ok bc -> chan_mul (KrausType a) bc = Ok l -> chan_mul (KrausType a) (KrausType b) = Ok ab -> chan_mul ab (KrausType c) = Ok r ->
  exists kl kr, l = KrausType kl /\ r = KrausType kr /\ same_ops (slices (kraus_ops kl)) (slices (kraus_ops kr)) /\
   forall rho, is_square (dim_in a * (dim_in b * dim_in c)) rho -> exists x y, snd (chan_channel l rho 1 false) = Ok x /\ snd (chan_channel r rho 1 false) = Ok y /\ same_mat x y.
Proof.
  intros NA NB NC H1 H2 H3 H4. apply mul_made in H1. destruct H1 as (kbc & -> & E1 & I1 & O1 & _). apply mul_made in H2. destruct H2 as (kl & -> & E2 & I2 & O2 & C2).
  apply mul_made in H3. destruct H3 as (kab & -> & E3 & I3 & O3 & _). apply mul_made in H4. destruct H4 as (kr & -> & E4 & I4 & O4 & C4).
  exists kl, kr. split; [reflexivity|]. split; [reflexivity|]. pose proof (kron_assoc (kraus_ops a) (kraus_ops b) (kraus_ops c)) as KA.
  split; [rewrite E2, E1, E4, E3; exact KA|]. intros rho SQ.
  assert (N1 : arg_matrices (OpArray (np_kron3 (kraus_ops a) (kraus_ops kbc))) <> []).
  { cbn [arg_matrices]. apply (same_nonempty _ _ (same_ops_sym _ _ (slices_kron _ _))), tens_nonempty; [exact NA|]. rewrite E1. apply (same_nonempty _ _ (same_ops_sym _ _ (slices_kron _ _))), tens_nonempty; assumption. }
  assert (N2 : arg_matrices (OpArray (np_kron3 (kraus_ops kab) (kraus_ops c))) <> []).
  { cbn [arg_matrices]. apply (same_nonempty _ _ (same_ops_sym _ _ (slices_kron _ _))), tens_nonempty; [|exact NC]. rewrite E3. apply (same_nonempty _ _ (same_ops_sym _ _ (slices_kron _ _))), tens_nonempty; assumption. }
  destruct (use_channel _ _ _ _ _ _ _ rho N1 C2) as (x & EX & SX); [cbn [fst]; rewrite Nat.pow_1_r, I1; exact SQ|].
  destruct (use_channel _ _ _ _ _ _ _ rho N2 C4) as (y & EY & SY); [cbn [fst]; rewrite Nat.pow_1_r, I3, <- Nat.mul_assoc; exact SQ|].
  exists x, y. split; [exact EX|]. split; [exact EY|]. eapply same_mat_trans; [exact SX|]. eapply same_mat_trans; [|apply same_mat_sym, SY].
  cbn [snd arg_matrices]. rewrite !Nat.pow_1_r, O1, O3, E1, E3. rewrite <- Nat.mul_assoc. split; [reflexivity|]. split; [reflexivity|]. cbn [mr mc me].
  destruct (proj1 (chan_init_iff _ _ _ _ _ _ N1) (ex_intro _ _ C2)) as [FO _]. cbn [fst snd arg_matrices] in FO. rewrite !Nat.pow_1_r, O1, I1, E1 in FO.
  apply (channel_map_same _ _ _ _ _ _ FO KA (eqm_refl _ _ _)).
Qed.
