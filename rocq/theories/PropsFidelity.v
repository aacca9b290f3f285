(** Properties of the two fidelities (C118-C121).
    Specification: FidelitySpec.v, KrausSpec.v, ChoiSpec.v.  Model: ChannelModel.v, ChoiModel.v.
    sqrtm_ok says what scipy.linalg.sqrtm is assumed to return on positive matrices;
    SpectralExists.v shows that it can be met. *)
From Verif Require Import Py Scalar PauliModel PauliSpec EncoderProofs EighExists KrausModel KrausSpec KrausProofs KrausProofs2 KrausProofs5 KrausProofs6 KrausProofs8 KrausProofs12
  ChoiModel ChannelModel ChannelSpec ChoiSpec ChoiProofs ChoiProofs2 ChoiProofs3 ChoiProofs4 SpectralExists Sqrt EntropyProofs KrausExamples ParamSpec CohProofs4 FidelitySpec FidelityProofs PropsChoi SpectralProofs.
From Verif Require AvgFidSpec PropsAvgFid PropsDegradable.
From Coq Require Import Reals Lra.
Open Scope nat_scope.
Add Ring CCring57 : (s_rt CC).

Lemma kraus_fid sqrtm sp (a : kraus_arg CC) nq din dout orthogonal o0 past n rho : sqrtm_ok sqrtm ->
  kraus_init sp a nq din dout orthogonal = Ok o0 -> arg_matrices a <> [] -> Forall (fun m => 1 <= m) past -> 1 <= n -> clean sp past n ->
  let D := (din ^ fst nq) ^ n in dout ^ snd nq = din ^ fst nq -> trace_preserving (din ^ fst nq) (arg_matrices a) ->
  is_square D rho -> density D (me rho) -> let N := channel_map (power_ops (arg_matrices a) n) (me rho) in
  density D N /\ exists x, snd (fidelity_two_states sqrtm (after (KrausType o0) past) rho n) = Ok x /\ fidelity D (me rho) N x.
Proof.
  intros OK H NE HP Hn CL D ED TP SQ HD N. destruct (c31 sp a nq din dout orthogonal o0 past n rho H NE HP Hn CL SQ) as (out & E & Q & V & _ & _ & T).
  rewrite ED in Q, V, T. destruct (T TP) as [_ DO]. specialize (DO HD). assert (DN : density D N) by (apply (density_ext _ (me out)); [exact V|exact DO]).
  split; [exact DN|]. exact (fidelity_run sqrtm _ rho n out D N OK SQ HD E Q V DN).
Qed.
Lemma channel_density D ops rho : fits D D ops -> trace_preserving D ops -> density D rho -> density D (channel_map ops rho).
Proof.
  intros F TP (H1 & H2 & H3). assert (P : psd D (channel_map ops rho)) by (apply (channel_psd D D); assumption). split; [apply psd_hermitian, P|]. split; [exact P|].
  rewrite (channel_trace D D) by assumption. exact H3.
Qed.
Lemma choi_fid sqrtm sparse (m : marr CC) k d ops rho : sqrtm_ok sqrtm -> let D := d ^ k in
  is_square (D * D) m -> fits D D ops -> eqm (D * D) (D * D) (me m) (choi_matrix ops D) -> trace_preserving D ops ->
  is_square D rho -> density D (me rho) -> let N := channel_map ops (me rho) in
  density D N /\ exists x, snd (fidelity_two_states sqrtm (ChoiType sparse (CH m k k d d)) rho 1) = Ok x /\ fidelity D (me rho) N x.
Proof.
  intros OK D SM F E TP SQ HD N. assert (DN : density D N) by (apply channel_density; assumption). split; [exact DN|].
  destruct (C45_choi_is_kraus CC (CH m k k d d) rho ops k eq_refl eq_refl SQ SM F E) as (out & EO & Q & V). cbn [ch_dout] in Q, V. fold D in Q, V.
  apply (fidelity_run sqrtm _ rho 1 out D N OK SQ HD); [|exact Q|exact V|exact DN]. cbn [chan_channel Nat.eqb snd]. unfold assert_, guard. cbn [bind]. exact EO.
Qed.

(** ** C118: the value of fidelity_two_states is 1 exactly on the states the channel keeps and 0 exactly on those it moves to an orthogonal state *)
Theorem C118_kraus sqrtm sp (a : kraus_arg CC) nq din dout orthogonal o0 past n rho : sqrtm_ok sqrtm ->
  kraus_init sp a nq din dout orthogonal = Ok o0 -> arg_matrices a <> [] -> Forall (fun m => 1 <= m) past -> 1 <= n -> clean sp past n ->
  let D := (din ^ fst nq) ^ n in dout ^ snd nq = din ^ fst nq -> trace_preserving (din ^ fst nq) (arg_matrices a) ->
  is_square D rho -> density D (me rho) -> let N := channel_map (power_ops (arg_matrices a) n) (me rho) in
  exists x, snd (fidelity_two_states sqrtm (after (KrausType o0) past) rho n) = Ok x /\ (0 <= x <= 1)%R /\
    (x = 1%R <-> eqm D D N (me rho)) /\ (x = 0%R <-> orthogonal_states D (me rho) N).
Proof.
  intros OK H NE HP Hn CL D ED TP SQ HD N. destruct (kraus_fid sqrtm sp a nq din dout orthogonal o0 past n rho OK H NE HP Hn CL ED TP SQ HD) as (DN & x & E & Fx).
  exists x. split; [exact E|]. exact (fid_extremes D (me rho) N x HD DN Fx).
Qed.
(** ... the same for a channel given by its Choi matrix ... *)
Theorem C118_choi sqrtm sparse (m : marr CC) k d ops rho : sqrtm_ok sqrtm -> let D := d ^ k in
  is_square (D * D) m -> fits D D ops -> eqm (D * D) (D * D) (me m) (choi_matrix ops D) -> trace_preserving D ops ->
  is_square D rho -> density D (me rho) -> let N := channel_map ops (me rho) in
  exists x, snd (fidelity_two_states sqrtm (ChoiType sparse (CH m k k d d)) rho 1) = Ok x /\ (0 <= x <= 1)%R /\
    (x = 1%R <-> eqm D D N (me rho)) /\ (x = 0%R <-> orthogonal_states D (me rho) N).
Proof.
  intros OK D SM F E TP SQ HD N. destruct (choi_fid sqrtm sparse m k d ops rho OK SM F E TP SQ HD) as (DN & x & Ex & Fx).
  exists x. split; [exact Ex|]. exact (fid_extremes D (me rho) N x HD DN Fx).
Qed.
(** ... and the number depends on the channel alone: not on the Kraus operators that describe it, the kind of object, or the uses before *)
Theorem C118_description sqrtm sp (a : kraus_arg CC) nq din dout orthogonal o0 past sp' (b : kraus_arg CC) nq' din' dout' orthogonal' o1 past' n rho : sqrtm_ok sqrtm ->
  kraus_init sp a nq din dout orthogonal = Ok o0 -> arg_matrices a <> [] -> Forall (fun m => 1 <= m) past -> clean sp past n ->
  kraus_init sp' b nq' din' dout' orthogonal' = Ok o1 -> arg_matrices b <> [] -> Forall (fun m => 1 <= m) past' -> clean sp' past' n -> 1 <= n ->
  let D := din ^ fst nq in dout ^ snd nq = D -> din' ^ fst nq' = D -> dout' ^ snd nq' = D ->
  trace_preserving D (arg_matrices a) -> trace_preserving D (arg_matrices b) ->
  is_square (D ^ n) rho -> density (D ^ n) (me rho) ->
  eqm (D ^ n) (D ^ n) (channel_map (power_ops (arg_matrices a) n) (me rho)) (channel_map (power_ops (arg_matrices b) n) (me rho)) ->
  exists x, snd (fidelity_two_states sqrtm (after (KrausType o0) past) rho n) = Ok x /\ snd (fidelity_two_states sqrtm (after (KrausType o1) past') rho n) = Ok x.
Proof.
  intros OK H NE HP CL H' NE' HP' CL' Hn D ED ED1 ED2 TP TP' SQ HD E.
  destruct (kraus_fid sqrtm sp a nq din dout orthogonal o0 past n rho OK H NE HP Hn CL ED TP SQ HD) as (_ & x & E1 & F1). fold D in F1.
  destruct (kraus_fid sqrtm sp' b nq' din' dout' orthogonal' o1 past' n rho OK H' NE' HP' Hn CL') as (_ & y & E2 & F2); [congruence|rewrite ED1; exact TP'|rewrite ED1; exact SQ|rewrite ED1; exact HD|].
  rewrite ED1 in F2. exists x. split; [exact E1|]. rewrite E2. f_equal. symmetry. refine (fid_unique _ _ _ _ _ _ F2). exact (fid_ext _ _ _ _ _ _ (eqm_refl _ _ _) E F1).
Qed.
Theorem C118_kinds sqrtm sp sparse (a : kraus_arg CC) k d orthogonal o0 past (m : marr CC) rho : sqrtm_ok sqrtm ->
  kraus_init sp a (k, k) d d orthogonal = Ok o0 -> arg_matrices a <> [] -> Forall (fun m => 1 <= m) past -> clean sp past 1 ->
  let D := d ^ k in is_square (D * D) m -> eqm (D * D) (D * D) (me m) (choi_matrix (arg_matrices a) D) -> trace_preserving D (arg_matrices a) ->
  is_square D rho -> density D (me rho) ->
  exists x, snd (fidelity_two_states sqrtm (after (KrausType o0) past) rho 1) = Ok x /\ snd (fidelity_two_states sqrtm (ChoiType sparse (CH m k k d d)) rho 1) = Ok x.
Proof.
  intros OK H NE HP CL D SM E TP SQ HD. assert (F0 : fits D D (arg_matrices a)) by exact (fits0 sp a (k, k) d d orthogonal o0 H NE).
  destruct (kraus_fid sqrtm sp a (k, k) d d orthogonal o0 past 1 rho OK H NE HP (le_n 1) CL eq_refl TP) as (_ & x & E1 & F1); cbn [fst]; rewrite ?Nat.pow_1_r; [exact SQ|exact HD|].
  destruct (choi_fid sqrtm sparse m k d (arg_matrices a) rho OK SM F0 E TP SQ HD) as (_ & y & E2 & F2). cbn [fst] in F1. rewrite Nat.pow_1_r in F1. fold D in F1.
  exists x. split; [exact E1|]. rewrite E2. f_equal. symmetry. refine (fid_unique _ _ _ _ _ _ F2). refine (fid_ext _ _ _ _ _ _ (eqm_refl _ _ _) _ F1).
  apply eqm_sym, (channel_map_same D D); [exact F0|apply power_ops_1|apply eqm_refl].
Qed.
Print Assumptions C118_kraus.
Print Assumptions C118_choi.
Print Assumptions C118_description.
Print Assumptions C118_kinds.

(** ** C119: on product states the fidelity of n uses is the product of the fidelities of one use *)
Theorem C119_product sqrtm sp (a : kraus_arg CC) nq din dout orthogonal o0 past rhos : sqrtm_ok sqrtm ->
  kraus_init sp a nq din dout orthogonal = Ok o0 -> arg_matrices a <> [] -> Forall (fun m => 1 <= m) past ->
  let n := length rhos in let D := din ^ fst nq in 1 <= n -> clean sp past n ->
  dout ^ snd nq = D -> trace_preserving D (arg_matrices a) -> Forall (fun rho => is_square D rho /\ density D (me rho)) rhos ->
  exists xs, Forall2 (fun rho x => snd (fidelity_two_states sqrtm (KrausType o0) rho 1) = Ok x) rhos xs /\
    snd (fidelity_two_states sqrtm (after (KrausType o0) past) (tens_all rhos) n) = Ok (reals_prod xs).
Proof.
  intros OK H NE HP n D Hn CL ED TP S. assert (F0 : fits D D (arg_matrices a)). { pose proof (fits0 sp a nq din dout orthogonal o0 H NE) as X. rewrite ED in X. exact X. }
  assert (G : exists xs, Forall2 (fun rho x => snd (fidelity_two_states sqrtm (KrausType o0) rho 1) = Ok x) rhos xs /\
    Forall2 (fun rho x => is_square D rho /\ fidelity D (me rho) (channel_map (arg_matrices a) (me rho)) x) rhos xs).
  { clear Hn CL. clear n. induction S as [|rho l [SQ HD] S (xs & X1 & X2)]; [exists []; split; constructor|].
    destruct (kraus_fid sqrtm sp a nq din dout orthogonal o0 [] 1 rho OK H NE ltac:(constructor) (le_n 1)) as (_ & x & E1 & F1); [intros _ _; constructor|exact ED|exact TP|rewrite Nat.pow_1_r; exact SQ|rewrite Nat.pow_1_r; exact HD|].
    rewrite Nat.pow_1_r in F1. fold D in F1. exists (x :: xs). split; constructor; try assumption. split; [exact SQ|]. refine (fid_ext _ _ _ _ _ _ (eqm_refl _ _ _) _ F1).
    apply eqm_sym, (channel_map_same D D); [exact F0|apply power_ops_1|apply eqm_refl]. }
  destruct G as (xs & X1 & X2). exists xs. split; [exact X1|].
  assert (SQ : is_square (D ^ n) (tens_all rhos)) by (apply tens_all_dims; eapply Forall_impl; [|exact S]; intros ? [? _]; assumption).
  assert (DS : density (D ^ n) (me (tens_all rhos))).
  { unfold n. clear X1 X2 CL Hn SQ. clear n. induction S as [|rho l [Q1 Q2] S IH]; [exact density_one|]. change (tens_all (rho :: l)) with (tens rho (tens_all l)). cbn [length Nat.pow].
    assert (SS : is_square (D ^ length l) (tens_all l)) by (apply tens_all_dims; eapply Forall_impl; [|exact S]; intros ? [? _]; assumption). destruct SS as [D1 D2].
    apply (density_ext _ (kf (D ^ length l) (D ^ length l) (me rho) (me (tens_all l)))); [|apply density_kf; assumption]. intros i j _ _. rewrite me_tens, D1, D2. reflexivity. }
  destruct (kraus_fid sqrtm sp a nq din dout orthogonal o0 past n (tens_all rhos) OK H NE HP Hn CL ED TP SQ DS) as (_ & x & E1 & F1). rewrite E1. f_equal.
  exact (fid_unique _ _ _ _ _ F1 (fid_list D (arg_matrices a) rhos xs F0 X2)).
Qed.
Print Assumptions C119_product.

(** ** C120: average_entanglement_fidelity is at most the average of the squares of fidelity_two_states *)
Theorem C120_below sqrtm sparse (m : marr CC) k d ops probs states : sqrtm_ok sqrtm -> let D := d ^ k in let c := ChoiType sparse (CH m k k d d) in
  is_square (D * D) m -> fits D D ops -> eqm (D * D) (D * D) (me m) (choi_matrix ops D) -> trace_preserving D ops ->
  length probs = length states -> Forall (fun p => 0 <= p)%R probs -> Forall (fun rho => is_square D rho /\ density D (me rho)) states ->
  exists f xs, chan_fidelity c probs states = Ok ((f, 0%R) : CC) /\ Forall2 (fun rho x => snd (fidelity_two_states sqrtm c rho 1) = Ok x) states xs /\
    (f <= reals_sum (map (fun px => fst px * (snd px * snd px)) (combine probs xs)))%R.
Proof.
  intros OK D c SM F E TP L P S.
  assert (G : exists xs, Forall2 (fun rho x => snd (fidelity_two_states sqrtm c rho 1) = Ok x) states xs /\ Forall2 (fun rho x => (entanglement_fidelity ops rho <= x * x)%R) states xs).
  { clear L. induction S as [|rho l [SQ HD] S (xs & X1 & X2)]; [exists []; split; constructor|]. destruct (choi_fid sqrtm sparse m k d ops rho OK SM F E TP SQ HD) as (_ & x & E1 & F1).
    exists (x :: xs). split; constructor; try assumption. exact (entanglement_le D ops rho x F HD F1). }
  destruct G as (xs & X1 & X2). exists (ensemble (entanglement_fidelity ops) probs states), xs. split; [|split; [exact X1|]].
  - cbn [chan_fidelity c]. apply (C44_choi_fidelity (CH m k k d d) ops probs states eq_refl SM F E); [rewrite L; apply le_n|]. eapply Forall_impl; [|exact S]. intros rho [Q HD]. split; [exact Q|apply HD].
  - clear X1 S. revert probs L P. unfold ensemble, reals_sum. induction X2 as [|rho x l xs B X2 IH]; intros [|p probs] L P; try discriminate; cbn [combine map fold_right fst snd]; [apply Rle_refl|].
    apply Forall_cons_iff in P. destruct P as [P0 P]. apply Rplus_le_compat; [apply Rmult_le_compat_l; assumption|]. apply IH; [cbn in L; congruence|exact P].
Qed.
Print Assumptions C120_below.

(** ** C121: it is 1 exactly when no Kraus operator tells the states of the ensemble apart *)
Lemma average_one {X} (f : X -> R) probs l : length probs = length l -> Forall (fun p => 0 <= p)%R probs -> reals_sum probs = 1%R -> (forall x, In x l -> (0 <= f x <= 1)%R) ->
  (reals_sum (map (fun px => fst px * f (snd px))%R (combine probs l)) = 1%R <-> forall p x, In (p, x) (combine probs l) -> (0 < p)%R -> f x = 1%R).
Proof.
  intros L P T B.
  assert (Z : reals_sum (map (fun px => fst px * (1 - f (snd px)))%R (combine probs l)) = (1 - reals_sum (map (fun px => fst px * f (snd px))%R (combine probs l)))%R).
  { rewrite <- T at 1. clear T P B. revert probs L. unfold reals_sum. induction l as [|x l IH]; intros [|p probs] L; try discriminate; cbn [combine map fold_right fst snd]; [ring|]. rewrite IH by (cbn in L; congruence). ring. }
  assert (N : forall px, In px (combine probs l) -> (0 <= fst px * (1 - f (snd px)))%R).
  { intros [p x] H. cbn [fst snd]. rewrite Forall_forall in P. pose proof (P p (in_combine_l _ _ _ _ H)). pose proof (B x (in_combine_r _ _ _ _ H)). apply Rmult_le_pos; lra. }
  split.
  - intros E p x H Hp. rewrite E in Z. replace (1 - 1)%R with 0%R in Z by lra. pose proof (sum_zero _ _ N Z (p, x) H) as Q. cbn [fst snd] in Q. apply Rmult_integral in Q. destruct Q; lra.
  - intros H. assert (Z0 : reals_sum (map (fun px => fst px * (1 - f (snd px)))%R (combine probs l)) = 0%R); [|lra].
    clear Z. assert (H' : forall px, In px (combine probs l) -> (fst px * (1 - f (snd px)) = 0)%R).
    { intros [p x] I. cbn [fst snd]. rewrite Forall_forall in P. destruct (Rle_lt_or_eq_dec 0 p (P p (in_combine_l _ _ _ _ I))) as [Hp|<-]; [|ring]. rewrite (H p x I Hp). ring. }
    unfold reals_sum. revert H'. generalize (combine probs l) as q. induction q as [|y q IH]; intros H'; cbn [map fold_right]; [reflexivity|]. rewrite (H' y (or_introl eq_refl)), IH; [ring|]. intros; apply H'; right; assumption.
Qed.
Lemma identity_fidelity D ops rho : fits D D ops -> is_square D rho -> density D (me rho) -> (forall X : array CC, eqm D D (channel_map ops X) X) -> entanglement_fidelity ops rho = 1%R.
Proof.
  intros F SQ DE FX. destruct (Nat.eq_dec D 0) as [->|ND]. { exfalso. destruct DE as (_ & _ & T). cbn in T. apply (f_equal fst) in T. cbn in T. lra. }
  set (c := CH (MA (D * D) (D * D) (choi_matrix ops D)) 1 1 D D). assert (FI : fits D D [MA D D (eye (K := CC))]) by (repeat constructor).
  assert (EI : eqm (D * D) (D * D) (me (ch_mat c)) (choi_matrix [MA D D eye] D)).
  { intros x y Hx Hy. cbn [c ch_mat me]. unfold choi_matrix, choi_of. assert (B : forall z, z < D * D -> z mod D < D) by (intros; apply Nat.mod_upper_bound; exact ND).
    rewrite FX by (apply B; assumption). unfold channel_map. cbn [map mc]. rewrite ksum_cons, ksum_nil.
    set (U := ketbra (x / D) (y / D) : array CC). transitivity (mm D (mm D eye U) (adj eye) (x mod D) (y mod D)).
    - rewrite (mm_congr_r D _ (adj eye) eye) by (intros; apply adj_eye). rewrite mm_eye_r by (apply B; assumption). rewrite mm_eye_l by (apply B; assumption). reflexivity.
    - cbn [me]. ring. }
  pose proof (overlap_value c D ops (conj eq_refl eq_refl) F (eqm_refl _ _ _) rho SQ (proj1 DE)) as O1.
  pose proof (overlap_value c D _ (conj eq_refl eq_refl) FI EI rho SQ (proj1 DE)) as O2. rewrite O1 in O2. injection O2 as O2.
  rewrite O2. exact (C44_identity D rho SQ DE).
Qed.
Theorem C121_one sparse (m : marr CC) k d ops probs states : let D := d ^ k in let c := ChoiType sparse (CH m k k d d) in
  is_square (D * D) m -> fits D D ops -> eqm (D * D) (D * D) (me m) (choi_matrix ops D) -> trace_preserving D ops ->
  length probs = length states -> Forall (fun p => 0 <= p)%R probs -> reals_sum probs = 1%R -> Forall (fun rho => is_square D rho /\ density D (me rho)) states ->
  exists f, chan_fidelity c probs states = Ok ((f, 0%R) : CC) /\
    (f = 1%R <-> forall p rho, In (p, rho) (combine probs states) -> (0 < p)%R -> untouched D ops (me rho)).
Proof.
  intros D c SM F E TP L P T S. exists (ensemble (entanglement_fidelity ops) probs states). split.
  - cbn [chan_fidelity c]. apply (C44_choi_fidelity (CH m k k d d) ops probs states eq_refl SM F E); [rewrite L; apply le_n|]. eapply Forall_impl; [|exact S]. intros rho [Q HD]. split; [exact Q|apply HD].
  - rewrite Forall_forall in S. unfold ensemble. rewrite (average_one (entanglement_fidelity ops) probs states L P T); [|intros rho H; apply (C44_range D); [exact F|exact TP|apply S, H]].
    split; intros H p rho I Hp; (apply (entanglement_one D ops rho F TP); [apply (S rho), (in_combine_r _ _ _ _ I)|exact (H p rho I Hp)]).
Qed.
(** ... and then a state of full rank in the ensemble shows that the channel returns every matrix unchanged *)
Theorem C121_identity sparse (m : marr CC) k d ops probs states : let D := d ^ k in let c := ChoiType sparse (CH m k k d d) in
  is_square (D * D) m -> fits D D ops -> eqm (D * D) (D * D) (me m) (choi_matrix ops D) -> trace_preserving D ops -> 1 <= D ->
  length probs = length states -> Forall (fun p => 0 <= p)%R probs -> reals_sum probs = 1%R -> Forall (fun rho => is_square D rho /\ density D (me rho)) states ->
  (exists p rho, In (p, rho) (combine probs states) /\ (0 < p)%R /\ positive_definite D (me rho)) ->
  (chan_fidelity c probs states = Ok (s1 : CC) <->
   forall X, is_square D X -> exists out, snd (chan_channel c X 1 false) = Ok out /\ is_square D out /\ eqm D D (me out) (me X)).
Proof.
  intros D c SM F E TP HD L P T S (p0 & rho0 & I0 & Hp0 & PD).
  destruct (C121_one sparse m k d ops probs states SM F E TP L P T S) as (f & Ef & Hf). fold D c in Ef, Hf.
  assert (RUN : forall X, is_square D X -> exists out, snd (chan_channel c X 1 false) = Ok out /\ is_square D out /\ eqm D D (me out) (channel_map ops (me X))).
  { intros X SX. destruct (C45_choi_is_kraus CC (CH m k k d d) X ops k eq_refl eq_refl SX SM F E) as (out & EO & Q & V). exists out. split; [|split; [exact Q|exact V]]. unfold c. cbn [chan_channel Nat.eqb snd]. unfold assert_, guard. cbn [bind]. exact EO. }
  rewrite Ef. split.
  - intros E1. injection E1 as E1. pose proof (proj1 Hf E1 p0 rho0 I0 Hp0) as U. intros X SX. destruct (RUN X SX) as (out & EO & Q & V). exists out. split; [exact EO|]. split; [exact Q|].
    eapply eqm_trans; [exact V|]. exact (untouched_identity D ops rho0 F TP PD U HD (me X)).
  - intros ID. assert (f1 : f = 1%R); [|rewrite f1; reflexivity].
    assert (FX : forall X : array CC, eqm D D (channel_map ops X) X).
    { intros X. destruct (RUN (MA D D X) (conj eq_refl eq_refl)) as (out & EO & Q & V). destruct (ID (MA D D X) (conj eq_refl eq_refl)) as (out' & EO' & _ & V'). rewrite EO in EO'. injection EO' as <-. eapply eqm_trans; [apply eqm_sym, V|exact V']. }
    apply Hf. intros p rho I Hp. rewrite Forall_forall in S. destruct (S rho (in_combine_r _ _ _ _ I)) as [SQ DE]. apply (entanglement_one D ops rho F TP DE).
    apply (identity_fidelity D ops rho F SQ DE FX).
Qed.
Print Assumptions C121_one.
Print Assumptions C121_identity.

(** ** Cases: the channel that resets a qubit to |0> *)
Notation ket0 := (PropsDegradable.basis_state 0).
Notation ket1 := (PropsDegradable.basis_state 1).
Ltac small i := destruct i as [|[|i]]; [| |exfalso; lia].
Ltac entrywise := let i := fresh "i" in let j := fresh "j" in intros i j ? ?; small i; small j; apply CC_eq; cbn; lra.
Lemma reset_ket b : b < 2 -> eqm 2 2 (channel_map (arg_matrices reset_ops) (me (PropsDegradable.basis_state b))) (me ket0).
Proof. intros Hb. destruct b as [|[|b]]; [| |lia]; entrywise. Qed.
Lemma ket_density b : b < 2 -> density 2 (me (PropsDegradable.basis_state b)). Proof. exact (PropsDegradable.basis_density b). Qed.
Lemma mixed2 : density 2 (me (AvgFidSpec.mixed 2)). Proof. apply PropsAvgFid.mixed_density. lia. Qed.
Lemma mixed2_definite : positive_definite 2 (me (AvgFidSpec.mixed 2)).
Proof.
  split; [apply mixed2|]. intros v (i & Hi & N). cbn. destruct (v 0) as [a b] eqn:E0. destruct (v 1) as [c d] eqn:E1. cbn.
  assert (H : (0 < a * a + b * b + (c * c + d * d))%R); [|nra].
  assert (Q : forall x y : R, ((x, y) : CC) <> s0 -> (0 < x * x + y * y)%R).
  { intros x y NE. destruct (Req_EM_T x 0) as [->|]; [destruct (Req_EM_T y 0) as [->|]|]; [exfalso; apply NE; reflexivity|nra|nra]. }
  small i; [rewrite E0 in N|rewrite E1 in N]; specialize (Q _ _ N); nra.
Qed.
Example C118_case : exists sqrtm o0, sqrtm_ok sqrtm /\ kraus_init false reset_ops (1, 1) 2 2 [] = Ok o0 /\
  snd (fidelity_two_states sqrtm (after (KrausType o0) [3; 2]) ket0 1) = Ok 1%R /\ snd (fidelity_two_states sqrtm (after (KrausType o0) [3; 2]) ket1 1) = Ok 0%R /\
  snd (fidelity_two_states sqrtm (ChoiType false reset_choi) ket1 1) = Ok 0%R.
Proof.
  destruct sqrtm_exists as (sq & OS). destruct (reset_init (K := CC) false) as (o0 & H0). exists sq, o0. split; [exact OS|]. split; [exact H0|].
  assert (G : forall b, b < 2 -> exists x, snd (fidelity_two_states sq (after (KrausType o0) [3; 2]) (PropsDegradable.basis_state b) 1) = Ok x /\
    (x = 1%R <-> eqm 2 2 (me ket0) (me (PropsDegradable.basis_state b))) /\ (x = 0%R <-> orthogonal_states 2 (me (PropsDegradable.basis_state b)) (me ket0))).
  { intros b Hb. destruct (C118_kraus sq false reset_ops (1, 1) 2 2 [] o0 [3; 2] 1 (PropsDegradable.basis_state b) OS H0) as (x & Ex & _ & A & B);
      [discriminate|constructor; [lia|constructor; [lia|constructor]]|lia|intros H; discriminate H|reflexivity|exact reset_tp|split; reflexivity|apply ket_density, Hb|].
    cbn [fst Nat.pow Nat.mul Nat.add] in A, B. exists x. split; [exact Ex|].
    assert (E : eqm 2 2 (channel_map (power_ops (arg_matrices reset_ops) 1) (me (PropsDegradable.basis_state b))) (me ket0)).
    { eapply eqm_trans; [|apply (reset_ket b Hb)]. apply eqm_sym, (channel_map_same 2 2); [exact reset_fits|apply power_ops_1|apply eqm_refl]. }
    split; [rewrite A|rewrite B].
    - split; intros H; [eapply eqm_trans; [apply eqm_sym, E|exact H]|eapply eqm_trans; [exact E|exact H]].
    - unfold orthogonal_states. split; intros H i j Hi Hj; rewrite <- (H i j Hi Hj); apply mm_congr_r; intros k Hk; [symmetry|]; apply E; assumption. }
  split; [|split].
  - destruct (G 0 ltac:(lia)) as (x & Ex & A & _). rewrite Ex. f_equal. apply A. apply eqm_refl.
  - destruct (G 1 ltac:(lia)) as (x & Ex & _ & B). rewrite Ex. f_equal. apply B. entrywise.
  - destruct (C118_choi sq false (choi_arr (arg_matrices reset_ops) 2 2) 1 2 (arg_matrices reset_ops) ket1 OS) as (x & Ex & _ & _ & B);
      [split; reflexivity|exact reset_fits|apply eqm_refl|exact reset_tp|split; reflexivity|apply ket_density; lia|].
    unfold reset_choi. rewrite Ex. f_equal. apply B. change (2 ^ 1) with 2. entrywise.
Qed.
Example C119_case : exists sqrtm o0, sqrtm_ok sqrtm /\ kraus_init true reset_ops (1, 1) 2 2 [] = Ok o0 /\
  snd (fidelity_two_states sqrtm (after (KrausType o0) [4]) (tens_all [plus; plus]) 2) = Ok (/ 2)%R.
Proof.
  destruct sqrtm_exists as (sq & OS). destruct (reset_init (K := CC) true) as (o0 & H0). exists sq, o0. split; [exact OS|]. split; [exact H0|].
  destruct (C119_product sq true reset_ops (1, 1) 2 2 [] o0 [4] [plus; plus] OS H0) as (xs & X & E);
    [discriminate|constructor; [lia|constructor]|cbn; lia|intros _ H; discriminate H|reflexivity|exact reset_tp|constructor; [|constructor; [|constructor]]; (split; [split; reflexivity|exact plus_density])|].
  cbn [length] in E. rewrite E. f_equal.
  destruct (C70_pure sq true reset_ops (1, 1) 2 2 [] o0 [] 1 plus (fun _ => ((/ sqrt 2)%R, 0%R) : CC) OS H0) as (c & Ec & _ & Ef);
    [discriminate|constructor|lia|intros _ _; constructor|reflexivity|exact reset_tp|split; reflexivity|apply C69_case|apply C69_case|].
  assert (S2 : (/ sqrt 2 * / sqrt 2 = / 2)%R) by (rewrite <- Rinv_mult, sqrt_sqrt by lra; reflexivity).
  assert (c2 : c = (/ 2)%R).
  { apply (f_equal fst) in Ec. unfold expectation in Ec. cbn [fst Nat.pow Nat.mul Nat.add] in Ec.
    erewrite bsum_ext in Ec; [|intros i Hi; apply bsum_ext; intros j Hj; rewrite <- (channel_map_same 2 2 (arg_matrices reset_ops) (power_ops (arg_matrices reset_ops) 1) (pure (fun _ => ((/ sqrt 2)%R, 0%R) : CC)) (pure (fun _ => ((/ sqrt 2)%R, 0%R) : CC)) reset_fits (power_ops_1 _) (eqm_refl _ _ _) i j Hi Hj); reflexivity].
    revert Ec. set (q := (/ sqrt 2)%R) in *. clearbody q. cbn. intros Ec. rewrite <- Ec. nra. }
  subst c. change (after (KrausType o0) []) with (KrausType o0) in Ef. inversion X as [|? x ? l1 A1 A2]. subst. inversion A2 as [|? y ? l2 B1 B2]. subst. inversion B2. subst.
  rewrite Ef in A1, B1. injection A1 as <-. injection B1 as <-. unfold reals_prod. cbn [fold_right]. rewrite Rmult_1_r. apply sqrt_sqrt. lra.
Qed.
Example C120_case : exists sqrtm, sqrtm_ok sqrtm /\ exists x y, chan_fidelity (ChoiType true reset_choi) [1 / 3; 2 / 3]%R [plus; AvgFidSpec.mixed 2] = Ok (((1 / 3)%R, 0%R) : CC) /\
  snd (fidelity_two_states sqrtm (ChoiType true reset_choi) plus 1) = Ok x /\ snd (fidelity_two_states sqrtm (ChoiType true reset_choi) (AvgFidSpec.mixed 2) 1) = Ok y /\
  (1 / 3 <= 1 / 3 * (x * x) + 2 / 3 * (y * y))%R.
Proof.
  destruct sqrtm_exists as (sq & OS). exists sq. split; [exact OS|].
  assert (S : Forall (fun rho => is_square 2 rho /\ density 2 (me rho)) [plus; AvgFidSpec.mixed 2]).
  { constructor; [split; [split; reflexivity|exact plus_density]|]. constructor; [split; [split; reflexivity|exact mixed2]|constructor]. }
  destruct (C120_below sq true (choi_arr (arg_matrices reset_ops) 2 2) 1 2 (arg_matrices reset_ops) [1 / 3; 2 / 3]%R [plus; AvgFidSpec.mixed 2] OS) as (f & xs & Ef & X & B);
    [split; reflexivity|exact reset_fits|apply eqm_refl|exact reset_tp|reflexivity|repeat constructor; lra|exact S|].
  inversion X as [|? x ? l1 A1 A2]. subst. inversion A2 as [|? y ? l2 B1 B2]. subst. inversion B2. subst.
  assert (E : chan_fidelity (ChoiType true reset_choi) [1 / 3; 2 / 3]%R [plus; AvgFidSpec.mixed 2] = Ok (((1 / 3)%R, 0%R) : CC)).
  { cbn [chan_fidelity]. rewrite (C44_choi_fidelity reset_choi (arg_matrices reset_ops) [1 / 3; 2 / 3]%R [plus; AvgFidSpec.mixed 2]); [|reflexivity|split; reflexivity|exact reset_fits|apply eqm_refl|cbn; lia|eapply Forall_impl; [|exact S]; intros ? [? ?]; split; [assumption|apply H0]].
    f_equal. unfold ensemble, entanglement_fidelity, reals_sum. cbn [combine arg_matrices reset_ops map fold_right fst snd]. rewrite !Cmod_sq. apply CC_eq; cbn; lra. }
  assert (f3 : f = (1 / 3)%R). { assert (Ef' := Ef). unfold reset_choi in E. rewrite E in Ef'. injection Ef' as <-. reflexivity. }
  subst f. exists x, y. split; [exact E|]. split; [exact A1|]. split; [exact B1|]. unfold reals_sum in B. cbn [combine map fold_right fst snd] in B. lra.
Qed.
Example C121_case : chan_fidelity (ChoiType false reset_choi) [1%R] [ket0] = Ok (s1 : CC) /\ chan_fidelity (ChoiType false reset_choi) [1%R] [AvgFidSpec.mixed 2] <> Ok (s1 : CC).
Proof.
  split.
  - destruct (C121_one false (choi_arr (arg_matrices reset_ops) 2 2) 1 2 (arg_matrices reset_ops) [1%R] [ket0]) as (f & Ef & Hf);
      [split; reflexivity|exact reset_fits|apply eqm_refl|exact reset_tp|reflexivity|repeat constructor; lra|cbn; lra|repeat constructor; apply ket_density; lia|].
    unfold reset_choi. rewrite Ef. f_equal. assert (f1 : f = 1%R); [|rewrite f1; reflexivity]. apply Hf. intros p rho [H|[]] _. injection H as <- <-.
    change (2 ^ 1) with 2; constructor; [exists s1|constructor; [exists s0|constructor]]; entrywise.
  - intros H. destruct (C121_identity false (choi_arr (arg_matrices reset_ops) 2 2) 1 2 (arg_matrices reset_ops) [1%R] [AvgFidSpec.mixed 2]) as [I _];
      [split; reflexivity|exact reset_fits|apply eqm_refl|exact reset_tp|cbn; lia|reflexivity|repeat constructor; lra|cbn; lra|repeat constructor; apply mixed2|exists 1%R, (AvgFidSpec.mixed 2); split; [left; reflexivity|split; [lra|exact mixed2_definite]]|].
    destruct (I H ket1) as (out & EO & _ & V); [split; reflexivity|]. destruct (C45_choi_is_kraus CC reset_choi ket1 (arg_matrices reset_ops) 1 eq_refl eq_refl) as (out' & EO' & _ & V'); [split; reflexivity|split; reflexivity|exact reset_fits|apply eqm_refl|].
    assert (out' = out). { assert (X : snd (chan_channel (ChoiType false reset_choi) ket1 1 false) = Ok out') by (cbn [chan_channel Nat.eqb snd]; unfold assert_, guard; cbn [bind]; exact EO'). unfold reset_choi in X. rewrite EO in X. injection X as <-. reflexivity. }
    subst out'. specialize (V 1 1 ltac:(cbn; lia) ltac:(cbn; lia)). specialize (V' 1 1 ltac:(cbn; lia) ltac:(cbn; lia)). rewrite V in V'. apply (f_equal fst) in V'. cbn in V'. lra.
Qed.
