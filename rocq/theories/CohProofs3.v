(** What a channel object computes depends on the channel, not on the Kraus operators chosen to
    describe it. *)
From Verif Require Import Py Scalar PauliModel PauliSpec EncoderProofs EighExists Spectral SpectralProofs PowerSums KrausModel KrausSpec KrausProofs KrausProofs2 KrausProofs5 KrausProofs6 KrausProofs8 KrausProofs11 KrausProofs12
  ChoiModel ChannelModel ChannelSpec ChoiSpec ChoiProofs ChoiProofs2 ChoiProofs3 Sqrt EntropyProofs EntropySpec Subadd CohProofs CohProofs2.
From Coq Require Import Reals Lra.
Open Scope nat_scope.
Open Scope K_scope.
Add Ring CCring33 : (s_rt CC).

(** sum_A A_ai conj(A_bj) *)
Definition cross (ops : list (marr CC)) (x i y j : nat) : CC := ksum (map (fun A => me A x i * (me A y j)^* ) ops).
Definition same_cross (O D : nat) (l m : list (marr CC)) : Prop := forall x i y j, x < O -> i < D -> y < O -> j < D -> cross l x i y j = cross m x i y j.

Lemma cross_of_channel O D l m : fits O D l -> fits O D m -> same_channel O l m -> same_cross O D l m.
Proof.
  intros F G H x i y j Hx Hi Hy Hj. pose proof (H (ketbra i j) x y Hx Hy) as E. unfold channel_map in E. unfold cross.
  transitivity (ksum (map (fun A : marr CC => mm (mc A) (mm (mc A) (me A) (ketbra i j)) (adj (me A)) x y) l)); [|rewrite E]; apply ksum_ext; intros A HA.
  - destruct (in_fits _ _ _ _ F HA) as [_ ->]. symmetry. apply ketbra_sandwich; assumption.
  - destruct (in_fits _ _ _ _ G HA) as [_ ->]. apply ketbra_sandwich; assumption.
Qed.
Lemma cross_tens l m r c x i y j : fits r c m ->
  cross (tens_ops l m) x i y j = cross l (x / r) (i / c) (y / r) (j / c) * cross m (x mod r) (i mod c) (y mod r) (j mod c).
Proof.
  intros M. unfold cross, tens_ops. rewrite ksum_flat. rewrite <- ksum_prod. apply ksum_ext. intros A HA. rewrite map_map. apply ksum_ext. intros B HB.
  destruct (in_fits _ _ _ _ M HB) as [E1 E2]. unfold tens. cbn [me]. rewrite E1, E2. rewrite sconj_mul. ring.
Qed.
Lemma cross_power O D l m n : fits O D l -> fits O D m -> same_cross O D l m -> same_cross (O ^ n) (D ^ n) (power_ops l n) (power_ops m n).
Proof.
  intros F G H. induction n as [|n IH]; [intros x i y j _ _ _ _; reflexivity|]. cbn [power_ops Nat.pow]. intros x i y j Hx Hi Hy Hj.
  rewrite !(cross_tens _ _ (O ^ n) (D ^ n)) by (apply fits_power; assumption).
  rewrite H, IH; [reflexivity|eapply mod_lt_mul; eassumption..|eapply div_lt_mul; eassumption|eapply div_lt_mul; eassumption|eapply div_lt_mul; eassumption|eapply div_lt_mul; eassumption].
Qed.
Lemma ksum_bsum {A} (n : nat) (f : A -> nat -> CC) l : ksum (map (fun x => bsum n (f x)) l) = bsum n (fun k => ksum (map (fun x => f x k) l)).
Proof. induction l as [|x l IH]; cbn [map]; [rewrite ksum_nil; symmetry; apply bsum_zero; intros; apply ksum_nil|]. rewrite ksum_cons, IH, <- bsum_add. apply bsum_ext; intros. rewrite ksum_cons. reflexivity. Qed.
Lemma ksum_scale {A} (c : CC) (f : A -> CC) l : ksum (map (fun x => f x * c) l) = ksum (map f l) * c.
Proof. induction l as [|x l IH]; cbn [map]; rewrite ?ksum_nil, ?ksum_cons; [ring|]. rewrite IH. ring. Qed.
Lemma channel_cross O D l rho x y : fits O D l -> channel_map l rho x y = bsum D (fun j => bsum D (fun i => cross l x i y j * rho i j)).
Proof.
  intros F. unfold channel_map.
  transitivity (ksum (map (fun A => bsum D (fun j => bsum D (fun i => me A x i * (me A y j)^* * rho i j))) l)).
  - apply ksum_ext. intros A HA. destruct (in_fits _ _ _ _ F HA) as [_ ->]. unfold mm, adj. apply bsum_ext; intros j Hj. rewrite <- bsum_mul_r. apply bsum_ext; intros; ring.
  - rewrite ksum_bsum. apply bsum_ext; intros j Hj. rewrite ksum_bsum. apply bsum_ext; intros i Hi. unfold cross. apply ksum_scale.
Qed.
Lemma adjoint_cross O D l X i j : fits O D l -> adjoint_map l X i j = bsum O (fun y => bsum O (fun x => cross l y j x i * X x y)).
Proof.
  intros F. unfold adjoint_map.
  transitivity (ksum (map (fun A => bsum O (fun y => bsum O (fun x => me A y j * (me A x i)^* * X x y))) l)).
  - apply ksum_ext. intros A HA. destruct (in_fits _ _ _ _ F HA) as [-> _]. unfold mm, adj. apply bsum_ext; intros y Hy. rewrite <- bsum_mul_r. apply bsum_ext; intros; ring.
  - rewrite ksum_bsum. apply bsum_ext; intros y Hy. rewrite ksum_bsum. apply bsum_ext; intros x Hx. unfold cross. apply ksum_scale.
Qed.
Lemma joint_cross O D l S x y : fits O D l ->
  joint D l S x y = bsum D (fun i => bsum D (fun j => cross l (x / D)%nat i (y / D)%nat j * (S i (x mod D)%nat * (S j (y mod D)%nat)^* ))).
Proof.
  intros F. unfold joint, mm at 1, adj.
  rewrite (bsum_ksum_nth l one_by_one (fun A => mm D (me A) S (x / D)%nat (x mod D)%nat * (mm D (me A) S (y / D)%nat (y mod D)%nat)^* )).
  transitivity (ksum (map (fun A => bsum D (fun i => bsum D (fun j => me A (x / D)%nat i * (me A (y / D)%nat j)^* * (S i (x mod D)%nat * (S j (y mod D)%nat)^* )))) l)).
  - apply ksum_ext. intros A HA. unfold mm. rewrite bsum_conj. rewrite <- bsum_mul_r. apply bsum_ext; intros i Hi. rewrite <- bsum_mul_l. apply bsum_ext; intros j Hj. rewrite sconj_mul. ring.
  - rewrite ksum_bsum. apply bsum_ext; intros i Hi. rewrite ksum_bsum. apply bsum_ext; intros j Hj. unfold cross. apply ksum_scale.
Qed.
Lemma same_maps O D l m rho : fits O D l -> fits O D m -> same_cross O D l m -> eqm O O (channel_map l rho) (channel_map m rho) /\ eqm D D (adjoint_map l rho) (adjoint_map m rho).
Proof.
  intros F G H. split; intros x y Hx Hy.
  - rewrite !(channel_cross O D) by assumption. apply bsum_ext; intros j Hj. apply bsum_ext; intros i Hi. rewrite H by assumption. reflexivity.
  - rewrite !(adjoint_cross O D) by assumption. apply bsum_ext; intros j Hj. apply bsum_ext; intros i Hi. rewrite H by assumption. reflexivity.
Qed.
Lemma same_exchange O D l m rho p : fits O D l -> fits O D m -> same_cross O D l m -> psd D rho ->
  tr (length l) (mpow (length l) (exchange_entry l rho) (Datatypes.S p)) = tr (length m) (mpow (length m) (exchange_entry m rho) (Datatypes.S p)).
Proof.
  intros F G H PR. destruct (square_root_exists D rho PR) as (S & SR). rewrite <- (joint_traces D O l rho S F SR p), <- (joint_traces D O m rho S G SR p). apply tr_mpow_eqm.
  intros x y Hx Hy. rewrite !(joint_cross O D) by assumption. apply bsum_ext; intros j Hj. apply bsum_ext; intros i Hi. rewrite H; [reflexivity|eapply div_lt_mul; eassumption|assumption|eapply div_lt_mul; eassumption|assumption].
Qed.

Section Two.
Variables (spA spB : bool) (a b : kraus_arg CC) (nqA nqB : nat * nat) (dinA doutA dinB doutB : nat) (orA orB : list nat) (oA oB : kraus CC) (pA pB : list nat) (n : nat).
Hypothesis IA : kraus_init spA a nqA dinA doutA orA = Ok oA.
Hypothesis IB : kraus_init spB b nqB dinB doutB orB = Ok oB.
Hypothesis NA : arg_matrices a <> [].
Hypothesis NB : arg_matrices b <> [].
Hypothesis PA : Forall (fun m => 1 <= m) pA.
Hypothesis PB : Forall (fun m => 1 <= m) pB.
Hypothesis Hn : 1 <= n.
Hypothesis CA : clean spA pA n.
Hypothesis CB : clean spB pB n.
Hypothesis ED : dinA ^ fst nqA = dinB ^ fst nqB.
Hypothesis EO : doutA ^ snd nqA = doutB ^ snd nqB.
Hypothesis SC : same_channel (doutA ^ snd nqA) (arg_matrices a) (arg_matrices b).
Let D := (dinA ^ fst nqA) ^ n.
Let D' := (doutA ^ snd nqA) ^ n.
Lemma fA : fits D' D (power_ops (arg_matrices a) n). Proof. exact (fitsn _ _ _ _ _ _ _ n IA NA). Qed.
Lemma fB : fits D' D (power_ops (arg_matrices b) n). Proof. unfold D, D'. rewrite ED, EO. exact (fitsn _ _ _ _ _ _ _ n IB NB). Qed.
Lemma same_power : same_cross D' D (power_ops (arg_matrices a) n) (power_ops (arg_matrices b) n).
Proof.
  assert (F0 : fits (doutA ^ snd nqA) (dinA ^ fst nqA) (arg_matrices a)) by (eapply fits0; eassumption).
  assert (G0 : fits (doutA ^ snd nqA) (dinA ^ fst nqA) (arg_matrices b)) by (rewrite ED, EO; eapply fits0; eassumption).
  apply cross_power; [assumption|assumption|]. apply cross_of_channel; assumption.
Qed.
Theorem same_result rho (adjoint : bool) : is_square (if adjoint then D' else D) rho ->
  exists x y, snd (chan_channel (after (KrausType oA) pA) rho n adjoint) = Ok x /\ snd (chan_channel (after (KrausType oB) pB) rho n adjoint) = Ok y /\ same_mat x y.
Proof.
  intros SQ. destruct (same_maps D' D _ _ (me rho) fA fB same_power) as [M1 M2]. destruct adjoint.
  - assert (SQ' : is_square ((doutB ^ snd nqB) ^ n) rho) by (rewrite <- EO; exact SQ).
    destruct (adjoint_run _ _ _ _ _ _ _ pA n rho IA NA PA Hn CA SQ) as (x & E & (X1 & X2 & X3)). destruct (adjoint_run _ _ _ _ _ _ _ pB n rho IB NB PB Hn CB SQ') as (y & E' & (Y1 & Y2 & Y3)).
    exists x, y. split; [exact E|]. split; [exact E'|]. cbn [mr mc me] in *. fold D in X1, X2. rewrite <- ED in Y1, Y2. fold D in Y1, Y2.
    split; [congruence|]. split; [congruence|]. rewrite X1, X2 in *. rewrite Y1, Y2 in *. eapply eqm_trans; [exact X3|]. eapply eqm_trans; [exact M2|]. apply eqm_sym, Y3.
  - assert (SQ' : is_square ((dinB ^ fst nqB) ^ n) rho) by (rewrite <- ED; exact SQ).
    destruct (channel_run _ _ _ _ _ _ _ pA n rho IA NA PA Hn CA SQ) as (x & E & (X1 & X2 & X3)). destruct (channel_run _ _ _ _ _ _ _ pB n rho IB NB PB Hn CB SQ') as (y & E' & (Y1 & Y2 & Y3)).
    exists x, y. split; [exact E|]. split; [exact E'|]. cbn [mr mc me] in *. fold D' in X1, X2. rewrite <- EO in Y1, Y2. fold D' in Y1, Y2.
    split; [congruence|]. split; [congruence|]. rewrite X1, X2 in *. rewrite Y1, Y2 in *. eapply eqm_trans; [exact X3|]. eapply eqm_trans; [exact M1|]. apply eqm_sym, Y3.
Qed.
Theorem same_information eigA sqA eigB sqB rho reg : eigvalsh_ok eigA -> eigvalsh_ok eigB -> spA = true \/ orA = [] -> spB = true \/ orB = [] ->
  is_square D rho -> hermitian D (me rho) -> psd D (me rho) ->
  exists r, snd (coherent_information eigA sqA (after (KrausType oA) pA) rho n reg) = Ok r /\ snd (coherent_information eigB sqB (after (KrausType oB) pB) rho n reg) = Ok r.
Proof.
  intros OA OB RA RB SQ HE PR. assert (SQ' : is_square ((dinB ^ fst nqB) ^ n) rho) by (rewrite <- ED; exact SQ). assert (HE' : hermitian ((dinB ^ fst nqB) ^ n) (me rho)) by (rewrite <- ED; exact HE).
  destruct (coherent_kraus eigA sqA _ _ _ _ _ _ _ pA n rho reg OA IA NA RA PA Hn CA SQ HE) as (s1 & s2 & E & V1 & V2).
  destruct (coherent_kraus eigB sqB _ _ _ _ _ _ _ pB n rho reg OB IB NB RB PB Hn CB SQ' HE') as (t1 & t2 & E' & W1 & W2).
  fold D' in V1. rewrite <- EO in W1. fold D' in W1. rewrite <- power_len in V2, W2.
  destruct (same_maps D' D _ _ (me rho) fA fB same_power) as [M1 _].
  assert (s1 = t1) by (apply (vn_unique _ _ _ _ _ _ V1 W1); intros; apply tr_mpow_eqm, M1).
  assert (s2 = t2) by (apply (vn_unique _ _ _ _ _ _ V2 W2); intros; apply (same_exchange D' D); [apply fA|apply fB|apply same_power|exact PR]).
  subst. eexists. split; [exact E|exact E'].
Qed.
End Two.
