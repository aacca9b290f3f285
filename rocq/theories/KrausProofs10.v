(** Update histories stated on the operators, the stale sparse conjugates, calls in
    any order, batches, fidelity. *)
From Verif Require Import Py Scalar PauliModel PauliSpec KrausModel KrausSpec KrausProofs KrausProofs2 KrausProofs3 KrausProofs4 KrausProofs5 KrausProofs6 KrausProofs8 KrausProofs9 ChoiModel ChannelModel ChannelSpec.
From Coq Require Import Reals Lra.
Open Scope nat_scope.

Section H.
Context {K : StarRing}.
Add Ring Kr11 : (s_rt K).
Implicit Types (o : kraus K) (t : ten3 K).

(** ** C28, C29: the object after a history of updates *)
Lemma exch3_tensor t (ops : list (marr K)) : same_ops (slices t) ops -> exchange_tensor ops (exch3 t) (t2 t).
Proof.
  intros S. pose proof (same_len _ _ S) as L. rewrite slices_len in L. unfold exchange_tensor. rewrite <- L. cbn [exch3 swap12 u0 u1 u2 u3 ctrans t0 t2].
  do 4 (split; [reflexivity|]). intros i j k l Hi Hj Hk Hl.
  destruct (same_nth _ _ i S) as (A1 & A2 & A3); [rewrite slices_len; exact Hi|]. destruct (same_nth _ _ j S) as (B1 & B2 & B3); [rewrite slices_len; exact Hj|].
  rewrite nth_slices in A1, A2, A3 by exact Hi. rewrite nth_slices in B1, B2, B3 by exact Hj. cbn [slice0 mr mc me] in *. rewrite <- A1.
  unfold exch3, swap12, mm, adj. cbn [ue te ctrans]. apply bsum_ext. intros m Hm. rewrite A3, B3 by assumption. reflexivity.
Qed.
Theorem history_updates sp a nq din dout orthogonal o0 past n :
  kraus_init sp a nq din dout orthogonal = Ok o0 -> arg_matrices a <> [] -> Forall (fun m => 1 <= m) past -> 1 <= n -> clean sp past n ->
  let o := run_updates o0 (past ++ [n]) in
  snd (update_kraus_operators (run_updates o0 past) n) = Ok tt /\ current_n o = n /\
  same_ops (slices (nth_ops o)) (power_ops (arg_matrices a) n) /\
  exchange_tensor (power_ops (arg_matrices a) n) (nth_exch o) ((din ^ fst nq) ^ n) /\
  (sp = true -> nth_conj o = ctrans (nth_ops o)).
Proof.
  intros H NE HP Hn CL o. destruct (made _ _ _ _ _ _ _ H NE) as (S & SP & SL & F & E0 & E1 & E2 & _).
  pose proof (run_updates_ok o0 past HP S) as SO. destruct (state_step o0 past (run_updates o0 past) n SO Hn) as [SO' OKs].
  assert (SPE : sparse (run_updates o0 past) = sp) by (destruct SO as (((-> & _) & _) & _); exact SP).
  rewrite SPE in OKs. split; [exact (OKs CL)|].
  assert (EO : o = fst (update_kraus_operators (run_updates o0 past) n)) by (unfold o, run_updates; rewrite fold_left_app; reflexivity).
  rewrite <- EO in SO'. destruct SO' as ((St & (Hc & Co) & _) & _ & L & Fr). pose proof (L past n eq_refl) as N. split; [exact N|].
  destruct St as (T1 & T2 & _). rewrite T2, N in Co.
  assert (SS : same_ops (slices (nth_ops o)) (power_ops (arg_matrices a) n)) by (rewrite Co, <- SL; apply slices_power, Hn). split; [exact SS|].
  assert (FF : fresh o).
  { apply Fr. rewrite T1, SP, N. destruct sp; [|left; reflexivity]. right. destruct (Nat.eq_dec n 1) as [->|N1]; [right|left; lia].
    apply Forall_app. split; [apply CL; reflexivity|repeat constructor]. }
  destruct FF as [F1 F2]. split.
  - rewrite F2. pose proof (exch3_tensor _ _ SS) as X. rewrite Co in X at 2. destruct (power3_dims (kraus_ops o0) n Hn) as (_ & _ & D2). rewrite D2, E2 in X. exact X.
  - intros X. apply F1. rewrite T1, SP. exact X.
Qed.
(** the exact failure of the sparse class *)
Lemma update_1_conj o : 1 <= current_n o -> nth_conj (fst (update_kraus_operators o 1)) = nth_conj o.
Proof.
  intros H. unfold update_kraus_operators. rewrite (proj2 (Nat.ltb_ge _ _)) by lia. cbn [Nat.eqb].
  destruct (Nat.ltb 1 (current_n o)); match goal with |- context[kraus_operators_exchange ?x] => destruct (kraus_operators_exchange x) end; reflexivity.
Qed.
Lemma stale_conj_gen (step : kraus K -> nat -> kraus K) o0 past :
  (forall o p n, state_ok o0 p o -> 1 <= n -> state_ok o0 (p ++ [n]) (step o n)) ->
  (forall o, 1 <= current_n o -> nth_conj (step o 1) = nth_conj o) ->
  state_ok o0 [] o0 -> sparse o0 = true -> Forall (fun m => 1 <= m) past -> went_up past ->
  exists m, 2 <= m /\ nth_conj (fold_left step past o0) = ctrans (power3 (kraus_ops o0) m).
Proof.
  intros ST C1 S SP. assert (SO : forall p, Forall (fun m => 1 <= m) p -> state_ok o0 p (fold_left step p o0)).
  { induction p as [|n p IH] using rev_ind; intros HP; [exact S|]. apply Forall_app in HP. destruct HP as [H1 H2]. inversion H2; subst. rewrite fold_left_app. apply ST; auto. }
  induction past as [|n p IH] using rev_ind; intros HP (m & Hm & H2); [destruct Hm|].
  apply Forall_app in HP. destruct HP as [HP1 HP2]. inversion HP2; subst. rewrite fold_left_app. cbn [fold_left].
  destruct (Nat.eq_dec n 1) as [->|N1].
  - rewrite C1 by (apply (SO p HP1)). apply IH; [exact HP1|]. exists m. split; [|exact H2]. apply in_app_or in Hm. destruct Hm as [Hm|[<-|[]]]; [exact Hm|lia].
  - exists n. split; [lia|]. pose proof (SO (p ++ [n]) ltac:(apply Forall_app; auto)) as X. rewrite fold_left_app in X. cbn [fold_left] in X.
    destruct X as (((T1 & T2 & _) & (_ & Co) & _) & _ & L & Fr). pose proof (L p n eq_refl) as N. rewrite T2, N in Co.
    destruct Fr as [Fr _]; [right; left; lia|]. rewrite Fr, Co; [reflexivity|rewrite T1; exact SP].
Qed.
Lemma stale_update o0 o m d : static o0 o -> consistent o -> sparse o0 = true -> 2 <= m -> nth_conj o = ctrans (power3 (kraus_ops o0) m) -> t1 (kraus_ops o0) = d -> 2 <= d ->
  snd (update_kraus_operators o 1) = Err ValueError.
Proof.
  intros (T1 & T2 & _) (Hc & Co) SP Hm EC E1 HD. unfold update_kraus_operators. set (o1 := if Nat.ltb _ _ then _ else _).
  assert (G : sparse o1 = true /\ nth_conj o1 = nth_conj o /\ nth_ops o1 = kraus_ops o).
  { unfold o1. rewrite (proj2 (Nat.ltb_ge _ _)) by lia. cbn [Nat.eqb]. destruct (Nat.ltb_spec 1 (current_n o)); [cbn; rewrite T1; auto|].
    assert (current_n o = 1) as C1 by lia. rewrite C1 in Co. rewrite T1. auto. }
  destruct G as (G1 & G2 & G3). unfold kraus_operators_exchange. cbn [set_n sparse nth_conj nth_ops]. rewrite G1, G2, G3, EC, T2. unfold tensordot21. cbn [ctrans t2].
  destruct (power3_dims (kraus_ops o0) m ltac:(lia)) as (_ & D1 & _). rewrite D1, E1.
  destruct (Nat.eqb_spec (d ^ m) d) as [X|X]; [|reflexivity].
  exfalso. assert (d ^ 1 < d ^ m) by (apply Nat.pow_lt_mono_r; lia). rewrite Nat.pow_1_r in *. lia.
Qed.
Theorem sparse_stale a nq din dout orthogonal o0 past :
  kraus_init true a nq din dout orthogonal = Ok o0 -> arg_matrices a <> [] -> Forall (fun m => 1 <= m) past -> 2 <= dout ^ snd nq -> went_up past ->
  snd (update_kraus_operators (run_updates o0 past) 1) = Err ValueError.
Proof.
  intros H NE HP HD W. destruct (made _ _ _ _ _ _ _ H NE) as (S & SP & SL & F & E0 & E1 & E2 & _).
  destruct (stale_conj_gen (fun o n => fst (update_kraus_operators o n)) o0 past) as (m & Hm & EC); try assumption.
  { intros o p n SO Hn. apply state_step; assumption. } { apply update_1_conj. }
  fold (run_updates o0 past) in EC. pose proof (run_updates_ok o0 past HP S) as ((St & Co & _) & _). eapply stale_update; eassumption.
Qed.
(** ... and of AnalyticQChan on top of it *)
Theorem sparse_stale_channel a nq din dout orthogonal o0 past rho :
  kraus_init true a nq din dout orthogonal = Ok o0 -> arg_matrices a <> [] -> Forall (fun m => 1 <= m) past -> 2 <= dout ^ snd nq -> 2 <= din ^ fst nq -> went_up past ->
  is_square (din ^ fst nq) rho ->
  snd (chan_channel (after (KrausType o0) past) rho 1 false) = Err ValueError.
Proof.
  intros H NE HP HD HI W [R1 R2]. destruct (made _ _ _ _ _ _ _ H NE) as (S & SP & SL & F & E0 & E1 & E2 & _).
  set (step := fun o n => if Nat.eqb n (current_n o) then o else fst (update_kraus_operators o n)).
  assert (AE : forall p o, after (KrausType o) p = KrausType (fold_left step p o)).
  { induction p as [|n p IH]; intros o; [reflexivity|]. unfold after in *. cbn [fold_left update_channel_tensored]. unfold step at 2. destruct (Nat.eqb n (current_n o)); [apply IH|].
    destruct (update_kraus_operators o n) as [o' r]. apply IH. }
  assert (ST : forall o p n, state_ok o0 p o -> 1 <= n -> state_ok o0 (p ++ [n]) (step o n)).
  { intros o p n SO Hn. unfold step. destruct (Nat.eqb_spec n (current_n o)); [apply state_skip; assumption|apply state_step; assumption]. }
  assert (SO : forall p, Forall (fun m => 1 <= m) p -> state_ok o0 p (fold_left step p o0)).
  { induction p as [|n p IH] using rev_ind; intros HP'; [exact S|]. apply Forall_app in HP'. destruct HP' as [H1 H2]. inversion H2; subst. rewrite fold_left_app. apply ST; auto. }
  destruct (stale_conj_gen step o0 past) as (m & Hm & EC); try assumption.
  { intros o Hc. unfold step. destruct (Nat.eqb 1 (current_n o)); [reflexivity|apply update_1_conj, Hc]. }
  rewrite AE. pose proof (SO past HP) as SOp. destruct SOp as ((St & CoH & _) & _). pose proof St as (T1 & T2 & _). pose proof CoH as (Hc & Co). set (o := fold_left step past o0) in *. clearbody o.
  cbn [chan_channel]. unfold at_n. destruct (power3_dims (kraus_ops o0) m ltac:(lia)) as (D0 & D1 & D2).
  destruct (Nat.eqb_spec 1 (current_n o)) as [C1|C1].
  - cbn [snd]. rewrite <- C1 in Co. cbn [power3] in Co. unfold channel. rewrite T1, SP, Co, T2, EC. unfold matmul32. rewrite E2.
    destruct (Nat.eqb_spec (din ^ fst nq) (mr rho)); [|reflexivity]. cbn [bind]. unfold matmul33. cbn [t0 t1 t2 ctrans]. rewrite D0, D2, E2, E0.
    destruct (Nat.eqb_spec (mc rho) ((din ^ fst nq) ^ m)) as [X|]; [|reflexivity]. exfalso.
    assert (LT : (din ^ fst nq) ^ 1 < (din ^ fst nq) ^ m) by (apply Nat.pow_lt_mono_r; lia). rewrite Nat.pow_1_r, <- X in LT. lia.
  - pose proof (stale_update o0 o m _ St CoH SP Hm EC E1 HD) as U. destruct (update_kraus_operators o 1) as [o' [u|e]]; cbn in *; [discriminate|injection U as ->; reflexivity].
Qed.

(** ** batches *)
Theorem batch_run a nq din dout orthogonal o0 past n (rho : ten3 K) (adjoint : bool) :
  kraus_init false a nq din dout orthogonal = Ok o0 -> arg_matrices a <> [] -> Forall (fun m => 1 <= m) past -> 1 <= n ->
  let d := if adjoint then (dout ^ snd nq) ^ n else (din ^ fst nq) ^ n in
  (t1 rho = d /\ t2 rho = d ->
   exists out, snd (chan_channel_batch (after (KrausType o0) past) rho n adjoint) = Ok out /\ t0 out = t0 rho /\
     forall l, l < t0 rho -> snd (chan_channel (after (KrausType o0) past) (slice0 rho l) n adjoint) = Ok (slice0 out l)) /\
  (~ (t1 rho = d /\ t2 rho = d) -> snd (chan_channel_batch (after (KrausType o0) past) rho n adjoint) = Err ValueError).
Proof.
  intros H NE HP Hn d. destruct (made _ _ _ _ _ _ _ H NE) as (S & SP & SL & F & E0 & E1 & E2 & _).
  assert (CL : clean (sparse o0) past n) by (intros X; congruence).
  destruct (at_canon o0 past n HP Hn S CL) as (o & E & AT). rewrite E. cbn [chan_channel_batch chan_channel]. rewrite AT. cbn [snd canon sparse]. rewrite SP.
  destruct (power3_dims (kraus_ops o0) n Hn) as (D0 & D1 & D2).
  fold (canon o0 n). assert (SC : sparse (canon o0 n) = false) by exact SP.
  assert (X : (if adjoint then t1 (nth_ops (canon o0 n)) else t2 (nth_ops (canon o0 n))) = d) by (cbn [canon nth_ops]; rewrite D1, D2, E1, E2; reflexivity).
  match goal with |- context[channel_batch ?k rho adjoint] => change k with (canon o0 n) end.
  rewrite (batch_value (canon o0 n) rho adjoint SC), X. split.
  - intros [R1 R2]. rewrite R1, R2, Nat.eqb_refl. cbn [andb]. eexists. split; [reflexivity|]. split; [reflexivity|]. intros l Hl. rewrite AT. cbn [snd].
    assert (Q : is_square d (slice0 rho l)) by (split; assumption).
    destruct adjoint.
    + destruct (channel_adj_value (canon o0 n) (slice0 rho l) (canon_fresh o0 n)) as (out & EO & O1 & O2 & V); [cbn [canon nth_ops] in *; rewrite X; exact Q|].
      unfold slice0 at 2. cbn [t1 t2 te]. rewrite EO. destruct out; cbn in *; congruence.
    + destruct (channel_value (canon o0 n) (slice0 rho l) (canon_fresh o0 n)) as (out & EO & O1 & O2 & V); [cbn [canon nth_ops] in *; rewrite X; exact Q|].
      unfold slice0 at 2. cbn [t1 t2 te]. rewrite EO. destruct out; cbn in *; congruence.
  - intros N. destruct (Nat.eqb_spec (t1 rho) d); [|reflexivity]. destruct (Nat.eqb_spec (t2 rho) d); [|reflexivity]. exfalso. apply N. auto.
Qed.
End H.

(** ** C30: any calls in any order *)
Section Calls.
Variables (eigvalsh : marr CC -> list R) (sqrtm : marr CC -> marr CC).
Notation perform := (perform eigvalsh sqrtm).
Notation performed := (performed eigvalsh sqrtm).

Lemma perform_state k x : fst (perform (KrausType k) x) = after (KrausType k) (asks x).
Proof.
  assert (AN : forall A n (f : kraus CC -> res A), fst (at_n k n f) = after (KrausType k) [n]) by (intros A n f; rewrite at_n_state; reflexivity).
  assert (CN : forall A n (f : kraus CC -> res A) k', fst (at_n k n f) = KrausType k' -> current_n k' = n).
  { intros A n f k'. unfold at_n. destruct (Nat.eqb_spec n (current_n k)) as [->|]; [intros X; injection X as <-; reflexivity|].
    unfold update_kraus_operators. match goal with |- context[kraus_operators_exchange ?q] => destruct (kraus_operators_exchange q) end; cbn; intros X; injection X as <-; reflexivity. }
  destruct x as [rho n a|rho n a|rho n|A n|rho n rg|rho n|ps ss]; cbn [perform asks]; try reflexivity.
  - unfold chan_channel. rewrite <- (AN _ n (fun k => channel k rho a)). destruct (at_n k n _); reflexivity.
  - unfold chan_channel_batch. rewrite <- (AN _ n (fun k => if sparse k then Err Unmodelled else channel_batch k rho a)). destruct (at_n k n _); reflexivity.
  - unfold chan_exchange. rewrite <- (AN _ n (fun k => entropy_exchange k rho n)). destruct (at_n k n _); reflexivity.
  - unfold chan_exchange_adjoint. rewrite <- (AN _ n (fun k => entropy_exchange_adjoint k A n)). destruct (at_n k n _); reflexivity.
  - unfold coherent_information. unfold chan_channel. pose proof (AN _ n (fun k => channel k rho false)) as AN1. pose proof (CN _ n (fun k => channel k rho false)) as CN1.
    destruct (at_n k n (fun k => channel k rho false)) as [c1 [out|e]]; [|exact AN1]. cbn [fst] in *.
    destruct c1 as [k1|s h].
    + unfold chan_exchange, at_n. rewrite (CN1 k1 eq_refl), Nat.eqb_refl. exact AN1.
    + exact AN1.
  - unfold fidelity_two_states, chan_channel. rewrite <- (AN _ n (fun k => channel k rho false)). destruct (at_n k n _); reflexivity.
Qed.
Lemma after_app {K : StarRing} (c : chan K) p q : after c (p ++ q) = after (after c p) q.
Proof. apply fold_left_app. Qed.
Lemma after_kraus {K : StarRing} (k : kraus K) p : exists k', after (KrausType k) p = KrausType k'.
Proof.
  revert k. induction p as [|n p IH]; intros k; [eexists; reflexivity|]. unfold after in *. cbn [fold_left update_channel_tensored].
  destruct (Nat.eqb n (current_n k)); [apply IH|]. destruct (update_kraus_operators k n). apply IH.
Qed.
Lemma performed_state k xs : performed (KrausType k) xs = after (KrausType k) (flat_map asks xs).
Proof.
  revert k. induction xs as [|x xs IH]; intros k; [reflexivity|]. unfold performed in *. cbn [fold_left flat_map]. rewrite perform_state, after_app.
  destruct (after_kraus k (asks x)) as (k' & ->). apply IH.
Qed.
(** results on a dense channel do not depend on the history; on a sparse one neither,
    as long as n = 1 is not asked for after a larger n *)
Theorem answers sp a nq din dout orthogonal o0 xs x :
  kraus_init sp a nq din dout orthogonal = Ok o0 -> arg_matrices a <> [] ->
  Forall (fun y => Forall (fun m => 1 <= m) (asks y)) (xs ++ [x]) -> (forall n, In n (asks x) -> clean sp (flat_map asks xs) n) ->
  snd (perform (performed (KrausType o0) xs) x) = snd (perform (KrausType o0) x).
Proof.
  intros H NE HP CL. destruct (made _ _ _ _ _ _ _ H NE) as (S & SP & SL & F & E0 & E1 & E2 & _). subst sp. rewrite performed_state.
  apply Forall_app in HP. destruct HP as [HP HX]. inversion HX as [|? ? Hx _]; subst.
  assert (HQ : Forall (fun m => 1 <= m) (flat_map asks xs)) by (apply Forall_flat_map; exact HP).
  assert (NIL : forall n, clean (sparse o0) [] n) by (intros n ? ?; constructor).
  set (past := flat_map asks xs) in *. clearbody past.
  destruct x as [rho n ad|rho n ad|rho n|A n|rho n rg|rho n|ps ss]; cbn [asks] in *.
  1-6: assert (Hn : 1 <= n) by (inversion Hx; assumption);
       destruct (at_canon o0 past n HQ Hn S (CL n (or_introl eq_refl))) as (o & E & AT); destruct (at_canon o0 [] n ltac:(constructor) Hn S (NIL n)) as (o' & E' & AT');
       cbn in E'; injection E' as <-; rewrite E; cbn [perform].
  - unfold chan_channel. rewrite AT, AT'. reflexivity.
  - unfold chan_channel_batch. rewrite AT, AT'. reflexivity.
  - unfold chan_exchange. rewrite AT, AT'. reflexivity.
  - unfold chan_exchange_adjoint. rewrite AT, AT'. reflexivity.
  - unfold coherent_information, chan_channel. rewrite AT, AT'. reflexivity.
  - unfold fidelity_two_states, chan_channel. rewrite AT, AT'. reflexivity.
  - destruct (after_static o0 past HQ S) as (o & E & (T1 & T2 & _)). rewrite E. cbn [perform snd chan_fidelity]. f_equal. f_equal.
    assert (G : forall ps ss, kraus_fidelity o ps ss = kraus_fidelity o0 ps ss).
    { induction ps0 as [|p ps0 IH]; intros ss0; [reflexivity|]. destruct ss0 as [|s ss0]; [reflexivity|]. cbn [kraus_fidelity]. rewrite IH. unfold kraus_overlaps. rewrite T1, T2. reflexivity. }
    rewrite G. reflexivity.
Qed.
End Calls.
