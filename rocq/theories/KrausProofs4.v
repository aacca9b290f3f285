(** Histories of calls and the value of each call. *)
From Verif Require Import Py Scalar PauliModel PauliSpec KrausModel KrausSpec KrausProofs KrausProofs2 KrausProofs3 ChoiModel ChannelModel ChannelSpec.
Open Scope nat_scope.

Section H.
Context {K : StarRing}.
Add Ring Kr5 : (s_rt K).
Implicit Types (o : kraus K) (t : ten3 K).

Definition state_ok o0 (past : list nat) o : Prop :=
  reached o0 o /\ (past = [] -> current_n o = 1) /\ (forall p n, past = p ++ [n] -> current_n o = n) /\
  (sparse o = false \/ 2 <= current_n o \/ Forall (fun m => m = 1) past -> fresh o).
Lemma built_ok sp a nq din dout orthogonal ops : state_ok (built (K := K) sp a nq din dout orthogonal ops) [] (built sp a nq din dout orthogonal ops).
Proof.
  split; [split; [apply static_refl|split; [split; [cbn; lia|reflexivity]|cbn; lia]]|].
  split; [reflexivity|]. split; [intros p n H; destruct p; discriminate|]. intros _. split; reflexivity.
Qed.
Lemma all_ones_cur o0 past o : state_ok o0 past o -> Forall (fun m => m = 1) past -> current_n o = 1.
Proof.
  intros (_ & E & L & _) H. destruct past as [|x p] using rev_ind; [apply E; reflexivity|].
  rewrite (L p x eq_refl). apply Forall_app in H. destruct H as [_ H]. inversion H; auto.
Qed.
Lemma state_step o0 past o n : state_ok o0 past o -> 1 <= n ->
  state_ok o0 (past ++ [n]) (fst (update_kraus_operators o n)) /\
  (clean (sparse o) past n -> snd (update_kraus_operators o n) = Ok tt).
Proof.
  intros SO Hn. pose proof SO as (R & E & L & F). destruct (reached_update o0 o n R Hn) as [R' N]. destruct R as (S & C & CC).
  destruct (update_kraus_operators o n) as [o' r] eqn:U. cbn [fst snd] in *.
  destruct (update_spec o n o' r U C Hn CC) as (S' & C' & N' & F' & OKs).
  assert (SA : sparse o = false \/ 2 <= n \/ Forall (fun m => m = 1) (past ++ [n]) -> safe o n).
  { intros [H|[H|H]]; [left; exact H|right; left; exact H|]. apply Forall_app in H. destruct H as [H1 H2]. inversion H2; subst.
    destruct (sparse o) eqn:SP; [|left; exact SP]. right; right. rewrite (all_ones_cur o0 past o) by assumption. split; [assumption|].
    apply F; [right; right; exact H1|exact SP]. }
  split.
  - split; [exact R'|]. split; [intros H; destruct past; discriminate|]. split; [intros p m H; apply app_inj_tail in H; destruct H; congruence|].
    intros H. apply OKs, SA. rewrite <- N'. destruct S' as (S1 & _). rewrite <- S1. destruct H as [H|[H|H]]; auto. subst n. right. right. exact H.
  - intros H. apply OKs, SA. destruct (sparse o) eqn:SP; [|left; reflexivity]. right. destruct (Nat.eq_dec n 1) as [->|N1]; [right|left; lia].
    apply Forall_app. split; [apply H; reflexivity|repeat constructor].
Qed.
Lemma run_updates_ok o0 past : Forall (fun m => 1 <= m) past -> state_ok o0 [] o0 -> state_ok o0 past (run_updates o0 past).
Proof.
  intros H S. induction past as [|n p IH] using rev_ind; [exact S|]. apply Forall_app in H. destruct H as [H1 H2]. inversion H2; subst.
  unfold run_updates. rewrite fold_left_app. cbn [fold_left]. apply state_step; [apply IH, H1|assumption].
Qed.
(** an update that is skipped because n is current leaves the right state too *)
Lemma state_skip o0 past o n : state_ok o0 past o -> n = current_n o -> state_ok o0 (past ++ [n]) o.
Proof.
  intros (R & E & L & F) ->. split; [exact R|]. split; [intros H; destruct past; discriminate|].
  split; [intros p m H; apply app_inj_tail in H; destruct H; congruence|]. intros [H|[H|H]]; apply F; auto.
  right; right. apply Forall_app in H. apply H.
Qed.
Lemma after_ok o0 past : Forall (fun m => 1 <= m) past -> state_ok o0 [] o0 ->
  exists o, after (KrausType o0) past = KrausType o /\ state_ok o0 past o.
Proof.
  intros H S. induction past as [|n p IH] using rev_ind; [exists o0; split; [reflexivity|exact S]|].
  apply Forall_app in H. destruct H as [H1 H2]. inversion H2; subst. destruct (IH H1) as (o & E & SO).
  unfold after in *. rewrite fold_left_app, E. cbn [fold_left update_channel_tensored].
  destruct (Nat.eqb_spec n (current_n o)) as [N|N].
  - exists o. split; [reflexivity|]. apply state_skip; assumption.
  - destruct (state_step o0 p o n SO ltac:(assumption)) as [SO' _]. destruct (update_kraus_operators o n) as [o' r]. exists o'. split; [reflexivity|exact SO'].
Qed.
Lemma at_n_ok o0 past n : Forall (fun m => 1 <= m) past -> 1 <= n -> state_ok o0 [] o0 -> clean (sparse o0) past n ->
  exists o, after (KrausType o0) past = KrausType o /\
   exists o', static o0 o' /\ consistent o' /\ current_n o' = n /\ fresh o' /\ forall A (f : kraus K -> res A), at_n o n f = (KrausType o', f o').
Proof.
  intros H Hn S C. destruct (after_ok o0 past H S) as (o & E & SO). exists o. split; [exact E|]. pose proof SO as ((St & Co & Cj) & E1 & L & F).
  assert (SPE : sparse o = sparse o0) by apply St. unfold at_n. destruct (Nat.eqb_spec n (current_n o)) as [N|N].
  - exists o. split; [exact St|]. split; [exact Co|]. split; [auto|]. split; [|reflexivity]. apply F. destruct (sparse o) eqn:SP; [|left; reflexivity]. right.
    destruct (Nat.eq_dec n 1) as [->|N1]; [right; apply C; [congruence|reflexivity]|left; lia].
  - destruct (state_step o0 past o n SO Hn) as [SO' OKs]. rewrite SPE in OKs. specialize (OKs C).
    destruct (reached_update o0 o n (proj1 SO) Hn) as [_ NN].
    destruct (update_kraus_operators o n) as [o' r] eqn:U. cbn [fst snd] in *. subst r.
    destruct SO' as ((St' & Co' & Cj') & _ & L' & F'). exists o'. split; [exact St'|]. split; [exact Co'|]. split; [exact NN|]. split; [|reflexivity].
    apply F'. rewrite NN. destruct (sparse o') eqn:SP; [|left; reflexivity]. right.
    destruct (Nat.eq_dec n 1) as [->|N1]; [right|left; lia]. apply Forall_app. split; [|repeat constructor]. apply C; [|reflexivity].
    rewrite <- SP. symmetry. apply St'.
Qed.
(** every call changes the object as the plain update does *)
Lemma at_n_state {A} o n (f : kraus K -> res A) : fst (at_n o n f) = fst (update_channel_tensored (KrausType o) n).
Proof.
  unfold at_n. cbn. destruct (Nat.eqb n (current_n o)); [reflexivity|]. destruct (update_kraus_operators o n) as [o' [u|e]]; reflexivity.
Qed.

(** ** values *)
Lemma right_conj o : fresh o -> (if sparse o then nth_conj o else ctrans (nth_ops o)) = ctrans (nth_ops o).
Proof. intros [F _]. destruct (sparse o); [apply F|]; reflexivity. Qed.
Lemma channel_value o rho : fresh o -> is_square (t2 (nth_ops o)) rho ->
  exists out, channel o rho false = Ok out /\ mr out = t1 (nth_ops o) /\ mc out = t1 (nth_ops o) /\
  forall i j, me out i j = channel_map (slices (nth_ops o)) (me rho) i j.
Proof.
  intros F [R1 R2]. unfold channel. cbn beta iota zeta. rewrite right_conj by exact F. unfold matmul32. rewrite R1, Nat.eqb_refl. cbn [bind].
  unfold matmul33. cbn [t0 t1 t2 ctrans]. rewrite R2, !Nat.eqb_refl. cbn [andb bind].
  eexists. split; [reflexivity|]. split; [reflexivity|]. split; [reflexivity|]. intros i j. cbn [sum0 me t0 t1 t2 te ctrans].
  unfold channel_map. rewrite ksum_slices. reflexivity.
Qed.
Lemma channel_adj_value o X : fresh o -> is_square (t1 (nth_ops o)) X ->
  exists out, channel o X true = Ok out /\ mr out = t2 (nth_ops o) /\ mc out = t2 (nth_ops o) /\
  forall i j, me out i j = adjoint_map (slices (nth_ops o)) (me X) i j.
Proof.
  intros F [R1 R2]. unfold channel. cbn beta iota zeta. rewrite right_conj by exact F. unfold matmul32. cbn [t0 t1 t2 ctrans te]. rewrite R1, Nat.eqb_refl. cbn [bind].
  unfold matmul33. cbn [t0 t1 t2 ctrans]. rewrite R2, !Nat.eqb_refl. cbn [andb bind].
  eexists. split; [reflexivity|]. split; [reflexivity|]. split; [reflexivity|]. intros i j. cbn [sum0 me t0 t1 t2 te ctrans].
  unfold adjoint_map. rewrite ksum_slices. reflexivity.
Qed.
(** a matrix of another shape is rejected *)
Lemma channel_shape o rho : sparse o = false -> ~ is_square (t2 (nth_ops o)) rho -> channel o rho false = Err ValueError.
Proof.
  intros SP N. unfold channel. rewrite SP. cbn beta iota zeta. unfold matmul32. destruct (Nat.eqb_spec (t2 (nth_ops o)) (mr rho)) as [E|]; [|reflexivity]. cbn [bind].
  unfold matmul33. cbn [t0 t1 t2 ctrans]. destruct (Nat.eqb_spec (mc rho) (t2 (nth_ops o))) as [E'|]; [|reflexivity]. exfalso. apply N. split; auto.
Qed.
Lemma batch_value o (rho : ten3 K) adjoint : sparse o = false -> 
  channel_batch o rho adjoint = 
  (if (Nat.eqb (t1 rho) (if adjoint then t1 (nth_ops o) else t2 (nth_ops o)) && Nat.eqb (t2 rho) (if adjoint then t1 (nth_ops o) else t2 (nth_ops o)))%bool
   then Ok (T3 (t0 rho) (if adjoint then t2 (nth_ops o) else t1 (nth_ops o)) (if adjoint then t2 (nth_ops o) else t1 (nth_ops o))
               (fun l => match channel o (slice0 rho l) adjoint with Ok m => me m | Err _ => fun _ _ => s0 end))
   else Err ValueError).
Proof.
  intros SP. unfold channel_batch. destruct adjoint; cbn [ctrans t1 t2].
  - rewrite (Nat.eqb_sym (t1 (nth_ops o)) (t1 rho)). destruct (Nat.eqb_spec (t1 rho) (t1 (nth_ops o))) as [E1|]; [|reflexivity].
    destruct (Nat.eqb_spec (t2 rho) (t1 (nth_ops o))) as [E2|]; [|reflexivity]. cbn [andb]. f_equal. f_equal.
    unfold channel. rewrite SP. cbn [matmul32 slice0 mr mc me ctrans t2 t1]. unfold matmul32. cbn [slice0 mr ctrans t2]. rewrite E1, Nat.eqb_refl. cbn [bind].
    unfold matmul33. cbn [t0 t1 t2 slice0 mc ctrans]. rewrite E2, !Nat.eqb_refl. cbn [andb bind sum0 me t0 te t2]. reflexivity.
  - rewrite (Nat.eqb_sym (t2 (nth_ops o)) (t1 rho)). destruct (Nat.eqb_spec (t1 rho) (t2 (nth_ops o))) as [E1|]; [|reflexivity].
    destruct (Nat.eqb_spec (t2 rho) (t2 (nth_ops o))) as [E2|]; [|reflexivity]. cbn [andb]. f_equal. f_equal.
    unfold channel. rewrite SP. unfold matmul32. cbn [slice0 mr ctrans t2]. rewrite E1, Nat.eqb_refl. cbn [bind].
    unfold matmul33. cbn [t0 t1 t2 slice0 mc ctrans]. rewrite E2, !Nat.eqb_refl. cbn [andb bind sum0 me t0 te t2]. reflexivity.
Qed.

(** ** exchange *)
Lemma nth_slices t i : i < t0 t -> nth i (slices t) one_by_one = slice0 t i.
Proof.
  intros H. rewrite (nth_indep _ one_by_one (slice0 t 0)) by (rewrite slices_len; exact H). unfold slices. rewrite map_nth, seq_nth by exact H. reflexivity.
Qed.
Open Scope K_scope.
Lemma exch_entry t (rho : array K) i j : (i < t0 t)%nat -> (j < t0 t)%nat ->
  bsum (t2 t) (fun k => bsum (t2 t) (fun l => ue (exch3 t) j i k l * rho l k)) = exchange_entry (slices t) rho i j.
Proof.
  intros Hi Hj. unfold exchange_entry. rewrite !nth_slices by assumption. cbn [slice0 mr mc me].
  transitivity (tr (t2 t) (mm (t2 t) (mm (t1 t) (adj (te t j)) (te t i)) rho)).
  { unfold tr, mm, exch3, swap12, ctrans, adj. cbn [ue te t1]. apply bsum_ext. intros k _. apply bsum_ext. intros l _. reflexivity. }
  transitivity (tr (t2 t) (mm (t1 t) (adj (te t j)) (mm (t2 t) (te t i) rho))).
  { apply tr_eqm. intros a b _ _. apply mm_assoc. }
  apply tr_mm.
Qed.
Close Scope K_scope.
Lemma exchange_value t rho : is_square (t2 t) rho ->
  exists W, exchange_matrix (exch3 t) rho = Ok W /\ is_square (t0 t) W /\ forall i j, i < t0 t -> j < t0 t -> me W i j = exchange_entry (slices t) (me rho) i j.
Proof.
  intros [R1 R2]. unfold exchange_matrix. cbn [exch3 swap12 u0 u1 u2 u3]. rewrite R1, R2, !Nat.eqb_refl. cbn [andb].
  eexists. split; [reflexivity|]. split; [split; reflexivity|]. intros i j Hi Hj. cbn [me]. apply exch_entry; assumption.
Qed.
End H.
