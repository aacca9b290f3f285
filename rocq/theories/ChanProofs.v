(** Accessors of channel objects, Kraus operators of a positive Choi matrix, the Choi
    constructor. *)
From Verif Require Import Py Scalar PauliModel PauliSpec KrausModel KrausSpec KrausProofs KrausProofs2 KrausProofs3 KrausProofs4 KrausProofs5 KrausProofs9 KrausProofs10 KrausProofs12 ChoiModel ChannelModel ChannelSpec
  ChoiSpec ChoiProofs ChoiProofs2 ChoiProofs3 ChoiProofs4 Spectral SpectralProofs Sqrt EntropySpec CohProofs CohProofs2 CohProofs4 ChanSpec.
From Coq Require Import Reals Lra.
Open Scope nat_scope.
Add Ring CCring36 : (s_rt CC).

(** ** accessors *)
Theorem accessors {K : StarRing} sp (a : kraus_arg K) nq din dout orthogonal o0 past :
  kraus_init sp a nq din dout orthogonal = Ok o0 -> arg_matrices a <> [] -> Forall (fun m => 1 <= m) past ->
  let c := after (KrausType o0) past in let n := last past 1 in
  input_dimension c = (din ^ fst nq) ^ n /\ output_dimension c = (dout ^ snd nq) ^ n /\
  (exists t, nth_kraus_operators c = Ok t /\ same_ops (slices t) (power_ops (arg_matrices a) n)) /\
  (exists k, c = KrausType k /\ slices (kraus_ops k) = arg_matrices a) /\ chan_dim_in c = din /\ chan_dim_out c = dout /\ chan_numb_qubits c = nq /\ chan_n c = n.
Proof.
  intros H NE HP c n. destruct (made _ _ _ _ _ _ _ H NE) as (S & SP & SL & F & E0 & E1 & E2 & _).
  destruct (after_ok o0 past HP S) as (o & E & ((St & (C1 & C2) & _) & N1 & NL & _)). unfold c. rewrite E. cbn [input_dimension output_dimension nth_kraus_operators chan_dim_in chan_dim_out chan_numb_qubits chan_n].
  assert (EN : current_n o = n).
  { unfold n. destruct past as [|x p] using rev_ind; [exact (N1 eq_refl)|]. rewrite last_last. exact (NL _ _ eq_refl). }
  destruct St as (_ & T2 & _ & T4 & T5 & T6 & _). unfold input_dim, output_dim. rewrite T4, T5, T6, EN.
  apply kraus_init_ok in H. destruct H as (ops & EA & F' & ->). cbn [built dim_in dim_out numb_qubits] in *.
  split; [reflexivity|]. split; [reflexivity|]. split.
  - exists (nth_ops o). split; [reflexivity|]. rewrite C2, T2, EN, <- SL. apply slices_power. lia.
  - split; [exists o; split; [reflexivity|rewrite T2; exact SL]|]. auto.
Qed.

(** ** Kraus operators of a positive matrix *)
Section Root.
Variables (D O : nat) (M R : array CC).
Hypothesis SR : square_root (D * O) M R.
Definition root_op (t : nat) : marr CC := MA O D (fun a i => R (i * O + a)%nat t).
Definition root_ops : list (marr CC) := map root_op (seq 0 (D * O)).
Lemma root_fits : fits O D root_ops.
Proof. unfold root_ops, fits. rewrite Forall_map, Forall_forall. intros t _. split; reflexivity. Qed.
Lemma ksum_seq (f : nat -> CC) n : ksum (map f (seq 0 n)) = bsum n f.
Proof.
  induction n as [|n IH]; [reflexivity|]. rewrite seq_S, map_app. cbn [map Nat.add bsum]. rewrite <- IH.
  generalize (map f (seq 0 n)). intros l. induction l as [|x l IHl]; cbn [app]; unfold ksum in *; cbn [fold_right]; [ring|]. rewrite IHl. ring.
Qed.
Lemma root_gram i j a b : i < D -> j < D -> a < O -> b < O ->
  bsum (D * O) (fun t => smul (R (i * O + a) t) (sconj (R (j * O + b) t))) = M (i * O + a)%nat (j * O + b)%nat.
Proof.
  intros Hi Hj Ha Hb. destruct SR as (H & _ & E). rewrite <- (E (i * O + a)%nat (j * O + b)%nat) by nia. unfold mm. apply bsum_ext. intros t Ht. f_equal.
  specialize (H t (j * O + b)%nat Ht ltac:(nia)). unfold adj in H. exact H.
Qed.
Lemma root_choi : eqm (D * O) (D * O) M (choi_matrix root_ops O).
Proof.
  intros x y Hx Hy. destruct O as [|o] eqn:EO; [lia|]. rewrite <- EO in *.
  assert (Z : O <> 0) by (rewrite EO; discriminate). rewrite (Nat.div_mod x O Z), (Nat.div_mod y O Z), !(Nat.mul_comm O).
  assert (x / O < D) by (apply Nat.div_lt_upper_bound; [exact Z|lia]). assert (y / O < D) by (apply Nat.div_lt_upper_bound; [exact Z|lia]).
  pose proof (Nat.mod_upper_bound x O Z). pose proof (Nat.mod_upper_bound y O Z).
  rewrite (choi_entry root_ops O D) by (try assumption; apply root_fits). unfold root_ops. rewrite map_map. cbn [root_op me]. rewrite ksum_seq. symmetry. apply root_gram; assumption.
Qed.
Lemma root_tp : choi_tp D O M -> trace_preserving D root_ops.
Proof.
  intros T i j Hi Hj. unfold root_ops. rewrite map_map. cbn [root_op mr me]. rewrite ksum_seq. unfold mm, adj. rewrite bsum_swap.
  rewrite (bsum_ext O _ (fun a => M (j * O + a)%nat (i * O + a)%nat)).
  - rewrite (T j i Hj Hi). unfold eye. rewrite Nat.eqb_sym. reflexivity.
  - intros a Ha. rewrite <- root_gram by assumption. apply bsum_ext. intros t _. ring.
Qed.
End Root.
Lemma choi_of_tp D O ops : fits O D ops -> trace_preserving (K := CC) D ops -> choi_tp D O (choi_matrix ops O).
Proof.
  intros F T i j Hi Hj. rewrite (bsum_ext O _ (fun a => ksum (map (fun A => smul (me A a i) (sconj (me A a j))) ops))) by (intros; apply (choi_entry ops O D); assumption).
  rewrite bsum_ksum_map. specialize (T j i Hj Hi). cbn beta in T. unfold eye in *. rewrite Nat.eqb_sym, <- T. f_equal. apply map_ext_in. intros A HA. destruct (in_fits _ _ _ _ F HA) as [-> _].
  unfold mm, adj. apply bsum_ext. intros. ring.
Qed.
(** a matrix is the Choi matrix of a channel iff it is positive and its partial trace is the identity *)
Theorem choi_theorem D O M : (hermitian (D * O) M /\ psd (D * O) M /\ choi_tp D O M) <->
  exists ops, fits O D ops /\ trace_preserving D ops /\ eqm (D * O) (D * O) M (choi_matrix ops O).
Proof.
  split.
  - intros (H & P & T). destruct (square_root_exists (D * O) M P) as (R & SR). exists (root_ops D O R). split; [apply root_fits|]. split; [exact (root_tp D O M R SR T)|exact (root_choi D O M R SR)].
  - intros (ops & F & T & E). assert (P : psd (D * O) (choi_matrix ops O)) by (apply choi_psd, F). split; [|split].
    + intros x y Hx Hy. unfold adj. rewrite !E by assumption. exact (psd_hermitian _ _ P x y Hx Hy).
    + intros v. destruct (P v) as (x & Hx & Ex). exists x. split; [exact Hx|]. rewrite <- Ex. apply bsum_ext. intros i Hi. apply bsum_ext. intros j Hj. rewrite E by assumption. reflexivity.
    + intros i j Hi Hj. rewrite <- (choi_of_tp D O ops F T i j Hi Hj). apply bsum_ext. intros a Ha. apply E; nia.
Qed.

(** ** the constructor on a Choi matrix *)
Section Init.
Variables (istp iscp : choi CC -> bool).
Hypotheses (TP : istp_ok istp) (CP : iscp_ok iscp).
Variables (m : marr CC) (nq : nat * nat) (din dout : nat) (sp : bool).
Let D := (din ^ fst nq).
Let O := (dout ^ snd nq).
Definition channel_of (ops : list (marr CC)) : Prop := fits O D ops /\ trace_preserving D ops /\ eqm (D * O) (D * O) (me m) (choi_matrix ops O).
Theorem choi_accepts : is_square (D * O) m ->
  (chan_init_choi istp iscp m nq din dout sp = Ok (ChoiType sp (CH m (fst nq) (snd nq) din dout)) /\ exists ops, channel_of ops) \/
  (chan_init_choi istp iscp m nq din dout sp = Err AssertionError /\ ~ exists ops, channel_of ops).
Proof.
  intros SM. unfold chan_init_choi, choi_init. set (c := CH m (fst nq) (snd nq) din dout). pose proof (proj2 SM) as MC.
  assert (SC : is_square (ch_input_dim c * ch_output_dim c) (ch_mat c)) by exact SM.
  assert (G : Nat.eqb (mc m) (ch_output_dim c * ch_input_dim c) = true) by (apply Nat.eqb_eq; rewrite MC; unfold ch_output_dim, ch_input_dim, c, D, O; cbn; ring). rewrite G. cbn [guard bind].
  pose proof (choi_theorem D O (me m)) as CT. pose proof (TP c SC) as T1. pose proof (CP c SC) as C1. change (ch_input_dim c) with D in T1, C1. change (ch_output_dim c) with O in T1, C1. cbn [ch_mat c] in T1, C1.
  destruct (istp c) eqn:E1, (iscp c) eqn:E2; cbn [assert_ bind]; [left|right..]; (split; [reflexivity|]).
  - apply CT. destruct (proj1 C1 eq_refl). split; [assumption|]. split; [assumption|]. apply T1. reflexivity.
  - intros X. apply CT in X. destruct X as (X1 & X2 & X3). assert (false = true) by (apply C1; auto). discriminate.
  - intros X. apply CT in X. destruct X as (X1 & X2 & X3). assert (false = true) by (apply T1; auto). discriminate.
  - intros X. apply CT in X. destruct X as (X1 & X2 & X3). assert (false = true) by (apply T1; auto). discriminate.
Qed.
Theorem choi_wrong_size : mc m <> D * O -> chan_init_choi istp iscp m nq din dout sp = Err ValueError.
Proof.
  intros N. unfold chan_init_choi, choi_init, ch_output_dim, ch_input_dim. cbn [num_in num_out ch_din ch_dout]. fold D O. destruct (Nat.eqb_spec (mc m) (O * D)); [exfalso; apply N; lia|]. reflexivity.
Qed.
End Init.
Lemma np_array_fits {K : StarRing} (l : list (marr K)) r c : l <> [] -> fits r c l -> exists t, np_array l = Ok t.
Proof.
  intros NE F. destruct l as [|x l]; [contradiction|]. unfold np_array. inversion F as [|? ? [E1 E2] F']; subst.
  replace (forallb (fun b => Nat.eqb (mr b) (mr x) && Nat.eqb (mc b) (mc x))%bool l) with true; [eauto|]. symmetry. apply forallb_forall. intros b HB.
  destruct (in_fits _ _ _ _ F' HB) as [-> ->]. rewrite !Nat.eqb_refl. reflexivity.
Qed.
(** an accepted object maps density matrices to density matrices, and obeys the bounds
    of the coherent information *)
Section Accepted.
Variables (istp iscp : choi CC -> bool).
Hypotheses (TP : istp_ok istp) (CP : iscp_ok iscp).
Variables (m : marr CC) (k din dout : nat) (sp : bool) (c : chan CC).
Let D := (din ^ k).
Let O := (dout ^ k).
Hypotheses (SM : is_square (D * O) m) (IN : chan_init_choi istp iscp m (k, k) din dout sp = Ok c).
Lemma accepted_ops : c = ChoiType sp (CH m k k din dout) /\ exists R, square_root (D * O) (me m) R /\ trace_preserving D (root_ops D O R).
Proof.
  destruct (choi_accepts istp iscp TP CP m (k, k) din dout sp SM) as [[E X]|[E _]]; rewrite E in IN; [|discriminate]. injection IN as <-. split; [reflexivity|].
  apply (choi_theorem D O (me m)) in X. destruct X as (H & P & T). destruct (square_root_exists (D * O) (me m) P) as (R & SR). exists R. split; [exact SR|exact (root_tp D O (me m) R SR T)].
Qed.
Theorem accepted_density rho : is_square D rho -> density D (me rho) ->
  exists out, snd (chan_channel c rho 1 false) = Ok out /\ is_square O out /\ density O (me out).
Proof.
  intros SQ DR. destruct accepted_ops as (-> & R & SR & T).
  destruct (choi_channel_kraus (CH m k k din dout) rho k (root_ops D O R) eq_refl eq_refl SQ SM (root_fits D O R) (root_choi D O (me m) R SR)) as (out & E & Q & V).
  exists out. split; [exact E|]. split; [exact Q|]. apply (density_ext O (channel_map (root_ops D O R) (me rho))); [apply eqm_sym, V|]. exact (channel_density O D _ _ (root_fits D O R) T DR).
Qed.
Theorem accepted_coherent eigvalsh sqrtm rho reg : eigvalsh_ok eigvalsh -> sqrtm_ok sqrtm -> is_square D rho -> density D (me rho) ->
  exists r s, snd (coherent_information eigvalsh sqrtm c rho 1 reg) = Ok r /\ von_neumann D (me rho) s /\
    (- s - INR O * slack <= r <= s + INR (D * O) * slack)%R.
Proof.
  intros OK OS SQ DR. destruct accepted_ops as (-> & R & SR & T). set (ops := root_ops D O R) in *. pose proof (root_fits D O R : fits O D ops) as F.
  assert (D0 : 0 < D). { destruct D as [|d] eqn:ED; [|lia]. destruct DR as (_ & _ & X). apply (f_equal fst) in X. cbn in X. lra. }
  assert (NE : ops <> []). { intros E. unfold ops in *. rewrite E in T. specialize (T 0 0 D0 D0). apply (f_equal fst) in T. cbn in T. lra. }
  assert (LN : length ops = D * O) by (unfold ops, root_ops; rewrite map_length, seq_length; reflexivity).
  assert (IK : exists o0, kraus_init true (OpList ops) (k, k) din dout [] = Ok o0).
  { destruct (np_array_fits ops O D NE F) as (t & Et). eexists. apply kraus_init_ok. exists t. split; [exact Et|]. split; [exact F|reflexivity]. }
  destruct IK as (o0 & IK).
  destruct (coherent_bounds eigvalsh sqrtm OK true (OpList ops) (k, k) din dout [] o0 [] 1 IK NE (or_introl eq_refl) (Forall_nil _) (le_n 1) ltac:(intros _ _; constructor) rho reg) as (r & s & E & V & B).
  - exact T. - cbn [fst]. rewrite Nat.pow_1_r. exact SQ. - cbn [fst]. rewrite Nat.pow_1_r. exact DR.
  - destruct (coherent_agree eigvalsh sqrtm true sp (OpList ops) k din dout [] o0 [] m rho reg OK OS IK NE (or_introl eq_refl) (Forall_nil _) ltac:(intros _ _; constructor) SM (root_choi D O (me m) R SR) SQ (proj1 DR) (proj1 (proj2 DR))) as (r' & E1 & E2).
    exists r', s. split; [exact E2|]. rewrite E1 in E. injection E as ->. cbn [fst snd] in *. rewrite !Nat.pow_1_r in *. split; [exact V|]. cbn [arg_matrices] in B. fold D O in B. rewrite LN, Nat.min_id in B.
    destruct reg; [|exact B]. cbn [INR]. replace (r / 1)%R with r by field. exact B.
Qed.
End Accepted.
