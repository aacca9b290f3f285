(** The state of a Kraus object after any history, and the values of the calls on it. *)
From Verif Require Import Py Scalar PauliModel PauliSpec KrausModel KrausSpec KrausProofs KrausProofs2 KrausProofs3 KrausProofs4 ChoiModel ChannelModel ChannelSpec.
Open Scope nat_scope.

Section C.
Context {K : StarRing}.
Add Ring Kr6 : (s_rt K).
Implicit Types (o : kraus K) (t : ten3 K).

(** the object a fresh call with n leaves behind *)
Definition canon o0 n : kraus K :=
  KR (sparse o0) (kraus_ops o0) (numb_kraus o0) (numb_qubits o0) (dim_in o0) (dim_out o0) (orth o0) n (power3 (kraus_ops o0) n)
     (if sparse o0 then ctrans (power3 (kraus_ops o0) n) else nth_conj o0) (exch3 (power3 (kraus_ops o0) n)).
Lemma tensor_loop_conj {A} o (s : list A) : sparse o = false ->
  nth_conj (fold_left (fun o _ => tensor_step (kraus_ops o) (nth_ops o) o) s o) = nth_conj o /\ sparse (fold_left (fun o _ => tensor_step (kraus_ops o) (nth_ops o) o) s o) = false.
Proof.
  revert o. induction s as [|x s IH]; intros o H; [auto|]. cbn [fold_left].
  destruct (IH (tensor_step (kraus_ops o) (nth_ops o) o)) as [E1 E2]; [unfold tensor_step; rewrite H; exact H|]. rewrite E1, E2. split; [|reflexivity].
  unfold tensor_step. rewrite H. reflexivity.
Qed.
Lemma update_conj o n : sparse o = false -> nth_conj (fst (update_kraus_operators o n)) = nth_conj o.
Proof.
  intros H. unfold update_kraus_operators. set (o1 := if Nat.ltb _ _ then _ else _).
  assert (G : nth_conj o1 = nth_conj o).
  { unfold o1. destruct (Nat.ltb (current_n o) n); [apply tensor_loop_conj, H|]. destruct (Nat.ltb n (current_n o)); [|reflexivity].
    destruct (Nat.eqb n 1); [reflexivity|]. assert (G : sparse (tensor_step (kraus_ops o) (kraus_ops o) o) = false) by (unfold tensor_step; rewrite H; exact H).
    destruct (tensor_loop_conj _ (seq 0 (n - 2)) G) as [-> _]. unfold tensor_step. rewrite H. reflexivity. }
  destruct (kraus_operators_exchange (set_n o1 n)); exact G.
Qed.
Definition conj_kept o0 o : Prop := sparse o0 = false -> nth_conj o = nth_conj o0.
Lemma after_conj o0 past : state_ok o0 [] o0 -> Forall (fun m => 1 <= m) past -> forall o, after (KrausType o0) past = KrausType o -> conj_kept o0 o.
Proof.
  intros S. induction past as [|n p IH] using rev_ind; intros H o E SP; [injection E as <-; reflexivity|].
  apply Forall_app in H. destruct H as [H1 H2]. unfold after in E. rewrite fold_left_app in E.
  destruct (after_ok o0 p H1 S) as (o1 & E1 & SO). unfold after in E1. rewrite E1 in E. cbn [fold_left update_channel_tensored] in E.
  assert (C1 : nth_conj o1 = nth_conj o0) by (apply (IH H1 o1 E1 SP)).
  assert (SP1 : sparse o1 = false) by (destruct SO as ((St & _) & _); destruct St as (-> & _); exact SP).
  destruct (Nat.eqb n (current_n o1)); [injection E as <-; exact C1|].
  pose proof (update_conj o1 n SP1) as U. destruct (update_kraus_operators o1 n) as [o' r]. injection E as <-. cbn in U. congruence.
Qed.
Lemma eq_canon o0 o n : static o0 o -> consistent o -> current_n o = n -> fresh o -> conj_kept o0 o -> o = canon o0 n.
Proof.
  intros (S1 & S2 & S3 & S4 & S5 & S6 & S7) (Hn & C) N (F1 & F2) CK. destruct o as [a b c d e f g h i j k]. unfold canon. cbn in *. subst.
  f_equal. destruct (sparse o0) eqn:SP; [apply F1; reflexivity|apply CK; exact SP].
Qed.
(** the master lemma: a call with n sees the canonical object *)
Theorem at_canon o0 past n : Forall (fun m => 1 <= m) past -> 1 <= n -> state_ok o0 [] o0 -> clean (sparse o0) past n ->
  exists o, after (KrausType o0) past = KrausType o /\ forall A (f : kraus K -> res A), at_n o n f = (KrausType (canon o0 n), f (canon o0 n)).
Proof.
  intros H Hn S C. destruct (at_n_ok o0 past n H Hn S C) as (o & E & o' & St & Co & N & F & AT). exists o. split; [exact E|].
  intros A f. rewrite AT. assert (o' = canon o0 n) as ->; [|reflexivity]. apply eq_canon; try assumption.
  assert (E' : after (KrausType o0) (past ++ [n]) = KrausType o').
  { unfold after in *. rewrite fold_left_app, E. cbn [fold_left]. rewrite <- (at_n_state o n (fun k => Ok tt)), AT. reflexivity. }
  apply (after_conj o0 (past ++ [n])); [exact S| |exact E']. apply Forall_app. split; [exact H|repeat constructor; exact Hn].
Qed.

(** ** what the constructor gives *)
Lemma nonempty_dims t r c : slices t <> [] -> fits r c (slices t) -> t1 t = r /\ t2 t = c.
Proof.
  intros N F. assert (0 < t0 t) by (rewrite <- slices_len; destruct (slices t); [contradiction|cbn; lia]).
  assert (I : In (slice0 t 0) (slices t)) by (apply in_map_iff; exists 0; split; [reflexivity|apply in_seq; lia]).
  apply (in_fits _ _ _ _ F I).
Qed.
Lemma made sp a nq din dout orthogonal o0 : kraus_init sp a nq din dout orthogonal = Ok o0 -> arg_matrices a <> [] ->
  state_ok o0 [] o0 /\ sparse o0 = sp /\ slices (kraus_ops o0) = arg_matrices a /\ fits (dout ^ snd nq) (din ^ fst nq) (arg_matrices a) /\
  t0 (kraus_ops o0) = length (arg_matrices a) /\ t1 (kraus_ops o0) = dout ^ snd nq /\ t2 (kraus_ops o0) = din ^ fst nq /\
  numb_kraus o0 = length (arg_matrices a) /\ orth o0 = orthogonal.
Proof.
  intros H NE. apply kraus_init_ok in H. destruct H as (ops & EA & F & ->). destruct (arg_slices a ops EA) as [ES EL].
  split; [apply built_ok|]. split; [reflexivity|]. cbn [built kraus_ops numb_kraus orth]. split; [exact ES|]. split; [exact F|]. split; [exact EL|].
  destruct (nonempty_dims ops (dout ^ snd nq) (din ^ fst nq)) as [D1 D2]; [rewrite ES; exact NE|rewrite ES; exact F|]. auto.
Qed.
Lemma canon_fresh o0 n : fresh (canon o0 n).
Proof. split; [intros H; cbn in *; rewrite H; reflexivity|reflexivity]. Qed.

(** ** channel, over every history *)
Theorem channel_run sp a nq din dout orthogonal o0 past n rho :
  kraus_init sp a nq din dout orthogonal = Ok o0 -> arg_matrices a <> [] -> Forall (fun m => 1 <= m) past -> 1 <= n -> clean sp past n ->
  is_square ((din ^ fst nq) ^ n) rho ->
  exists out, snd (chan_channel (after (KrausType o0) past) rho n false) = Ok out /\
    same_mat out (MA ((dout ^ snd nq) ^ n) ((dout ^ snd nq) ^ n) (channel_map (power_ops (arg_matrices a) n) (me rho))).
Proof.
  intros H NE HP Hn CL SQ. destruct (made _ _ _ _ _ _ _ H NE) as (S & SP & SL & F & E0 & E1 & E2 & _). subst sp.
  destruct (at_canon o0 past n HP Hn S CL) as (o & E & AT). rewrite E. cbn [chan_channel]. rewrite AT. cbn [snd].
  destruct (power3_dims (kraus_ops o0) n Hn) as (D0 & D1 & D2).
  destruct (channel_value (canon o0 n) rho (canon_fresh o0 n)) as (out & EO & O1 & O2 & V).
  { cbn [canon nth_ops]. rewrite D2, E2. exact SQ. }
  exists out. split; [exact EO|]. cbn [canon nth_ops] in *. rewrite D1, E1 in O1, O2. split; [exact O1|]. split; [exact O2|]. rewrite O1, O2. intros i j Hi Hj. rewrite V. cbn [me].
  refine (channel_map_same ((dout ^ snd nq) ^ n) ((din ^ fst nq) ^ n) _ _ _ _ _ _ _ i j Hi Hj); [|rewrite <- SL; apply slices_power, Hn|apply eqm_refl].
  pose proof (fits_slices (power3 (kraus_ops o0) n)) as FS. rewrite D1, D2, E1, E2 in FS. exact FS.
Qed.
Theorem adjoint_run sp a nq din dout orthogonal o0 past n X :
  kraus_init sp a nq din dout orthogonal = Ok o0 -> arg_matrices a <> [] -> Forall (fun m => 1 <= m) past -> 1 <= n -> clean sp past n ->
  is_square ((dout ^ snd nq) ^ n) X ->
  exists out, snd (chan_channel (after (KrausType o0) past) X n true) = Ok out /\
    same_mat out (MA ((din ^ fst nq) ^ n) ((din ^ fst nq) ^ n) (adjoint_map (power_ops (arg_matrices a) n) (me X))).
Proof.
  intros H NE HP Hn CL SQ. destruct (made _ _ _ _ _ _ _ H NE) as (S & SP & SL & F & E0 & E1 & E2 & _). subst sp.
  destruct (at_canon o0 past n HP Hn S CL) as (o & E & AT). rewrite E. cbn [chan_channel]. rewrite AT. cbn [snd].
  destruct (power3_dims (kraus_ops o0) n Hn) as (D0 & D1 & D2).
  destruct (channel_adj_value (canon o0 n) X (canon_fresh o0 n)) as (out & EO & O1 & O2 & V).
  { cbn [canon nth_ops]. rewrite D1, E1. exact SQ. }
  exists out. split; [exact EO|]. cbn [canon nth_ops] in *. rewrite D2, E2 in O1, O2. split; [exact O1|]. split; [exact O2|]. rewrite O1, O2. intros i j Hi Hj. rewrite V. cbn [me].
  refine (adjoint_map_same ((dout ^ snd nq) ^ n) ((din ^ fst nq) ^ n) _ _ _ _ _ _ _ i j Hi Hj); [|rewrite <- SL; apply slices_power, Hn|apply eqm_refl].
  pose proof (fits_slices (power3 (kraus_ops o0) n)) as FS. rewrite D1, D2, E1, E2 in FS. exact FS.
Qed.
(** a matrix of the wrong size is rejected *)
Theorem channel_run_err sp a nq din dout orthogonal o0 past n rho :
  kraus_init sp a nq din dout orthogonal = Ok o0 -> arg_matrices a <> [] -> Forall (fun m => 1 <= m) past -> 1 <= n -> clean sp past n ->
  ~ is_square ((din ^ fst nq) ^ n) rho -> snd (chan_channel (after (KrausType o0) past) rho n false) = Err ValueError.
Proof.
  intros H NE HP Hn CL SQ. destruct (made _ _ _ _ _ _ _ H NE) as (S & SP & SL & F & E0 & E1 & E2 & _). subst sp.
  destruct (at_canon o0 past n HP Hn S CL) as (o & E & AT). rewrite E. cbn [chan_channel]. rewrite AT. cbn [snd].
  destruct (power3_dims (kraus_ops o0) n Hn) as (D0 & D1 & D2).
  unfold channel. cbn beta iota zeta. rewrite right_conj by apply canon_fresh. unfold matmul32. cbn [canon nth_ops]. rewrite D2, E2.
  destruct (Nat.eqb_spec ((din ^ fst nq) ^ n) (mr rho)) as [X1|]; [|reflexivity]. cbn [bind]. unfold matmul33. cbn [t0 t1 t2 ctrans]. rewrite D2, E2.
  destruct (Nat.eqb_spec (mc rho) ((din ^ fst nq) ^ n)) as [X2|]; [|reflexivity]. exfalso. apply SQ. split; auto.
Qed.

(** ** the factors *)
Lemma tens_all_dims d l : Forall (is_square (K := K) d) l -> is_square (d ^ length l) (tens_all l).
Proof.
  induction 1 as [|A l [H1 H2] Hl IH]; [split; reflexivity|]. destruct IH as [I1 I2]. change (tens_all (A :: l)) with (tens A (tens_all l)).
  cbn [tens mr mc length Nat.pow]. split; cbn [tens mr mc]; rewrite ?H1, ?H2, ?I1, ?I2; reflexivity.
Qed.
Lemma channel_power r c (ops : list (marr K)) rhos outs : fits r c ops ->
  Forall2 (fun rho out => is_square c rho /\ same_mat out (MA r r (channel_map ops (me rho)))) rhos outs ->
  eqm (r ^ length rhos) (r ^ length rhos) (channel_map (power_ops ops (length rhos)) (me (tens_all rhos))) (me (tens_all outs)) /\
  is_square (r ^ length rhos) (tens_all outs) /\ is_square (c ^ length rhos) (tens_all rhos).
Proof.
  intros F H. induction H as [|rho out rhos outs [[Q1 Q2] SM] HF IH].
  - split; [|split; split; reflexivity]. intros i j Hi Hj. cbn in Hi, Hj. replace i with 0 by lia. replace j with 0 by lia.
    cbn [length power_ops tens_all fold_right]. unfold channel_map. cbn [map]. rewrite ksum_cons, ksum_nil. unfold mm, adj. cbn. rewrite sconj_1. ring.
  - destruct IH as (IH1 & [IH2 IH3] & [IH4 IH5]). destruct SM as (M1 & M2 & M3). cbn [mr mc me] in *.
    change (tens_all (rho :: rhos)) with (tens rho (tens_all rhos)). change (tens_all (out :: outs)) with (tens out (tens_all outs)). cbn [length Nat.pow power_ops].
    split; [|split; split; cbn [tens mr mc]; congruence].
    intros i j Hi Hj. rewrite me_tens, IH2, IH3.
    transitivity (kf (r ^ length rhos) (r ^ length rhos) (channel_map ops (me rho)) (channel_map (power_ops ops (length rhos)) (me (tens_all rhos))) i j).
    + rewrite <- (channel_tens r c (r ^ length rhos) (c ^ length rhos)) by (auto using fits_power).
      apply (channel_map_same (r * r ^ length rhos) (c * c ^ length rhos) _ (tens_ops ops (power_ops ops (length rhos)))); auto using same_ops_refl, fits_tens, fits_power.
      intros x y _ _. rewrite me_tens, IH4, IH5. reflexivity.
    + apply (kf_ext r (r ^ length rhos) r (r ^ length rhos)); try assumption. rewrite M1, M2 in M3. apply eqm_sym, M3.
Qed.
End C.
