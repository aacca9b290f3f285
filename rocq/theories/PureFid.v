(** Fidelities of pure states under known channels (C128). *)
From Verif Require Import Py Scalar PauliModel PauliSpec EncoderProofs EighExists Spectral SpectralProofs KrausModel KrausSpec KrausProofs KrausProofs2 KrausProofs5 KrausProofs6 KrausProofs7 KrausProofs8 KrausProofs9 KrausProofs11 KrausProofs12
  ChoiModel ChannelModel ChannelSpec ChoiSpec ChoiProofs ChoiProofs2 ChoiProofs3 Sqrt EntropyProofs EntropySpec Subadd CohProofs CohProofs2 CohProofs3 CohProofs4 Processing ProcessingSpec Processing2 Degradable KnownSpec KnownProofs KnownProofs2 KnownProofs3 FidelitySpec.
From Verif Require PropsChoi PropsFidelity.
From Coq Require Import Reals Lra.
Open Scope nat_scope.
Open Scope K_scope.
Add Ring CCring62 : (s_rt CC).

Lemma expect_one D (A : array CC) v : expectation D (mm D (mm D A (pure v)) (adj A)) v = rc (Cmod (expectation D A v) ^ 2).
Proof.
  set (w := fun i => bsum D (fun k => A i k * v k)).
  assert (M : forall i j, mm D (mm D A (pure v)) (adj A) i j = w i * (w j)^*).
  { intros i j. unfold mm, adj, pure, w. rewrite bsum_conj, <- bsum_mul_l. apply bsum_ext. intros l _. rewrite sconj_mul.
    transitivity (bsum D (fun k => A i k * v k) * (v l)^* * (A j l)^*); [|ring]. f_equal. rewrite <- bsum_mul_r. apply bsum_ext. intros k _. ring. }
  assert (Z : expectation D A v = bsum D (fun i => (v i)^* * w i)).
  { unfold expectation, w. apply bsum_ext. intros i _. rewrite <- bsum_mul_l. apply bsum_ext. intros j _. ring. }
  rewrite <- mul_conj_self, Z, bsum_conj, <- bsum_mul_r. unfold expectation. apply bsum_ext. intros i _. rewrite <- bsum_mul_l. apply bsum_ext. intros j _. rewrite M, sconj_mul, sconj_conj. ring.
Qed.
Lemma expect_sum D (ops : list (marr CC)) v : fits D D ops -> expectation D (channel_map ops (pure v)) v = rc (reals_sum (map (fun A => Cmod (expectation D (me A) v) ^ 2)%R ops)).
Proof.
  intros F. transitivity (ksum (map (fun A => expectation D (mm D (mm D (me A) (pure v)) (adj (me A))) v) ops)).
  - change expectation with quad. rewrite <- (quad_ksum D (fun A : marr CC => mm D (mm D (me A) (pure v)) (adj (me A)))). apply quad_ext. intros i j _ _. unfold channel_map. f_equal.
    apply map_ext_in. intros A H. destruct (in_fits _ _ _ _ F H) as [_ ->]. reflexivity.
  - induction F as [|A l _ F IH]; [reflexivity|]. cbn [map]. rewrite ksum_cons. unfold reals_sum in *. cbn [map fold_right]. rewrite IH, expect_one. apply rc_add.
Qed.
Lemma sum_above {X} (f : X -> R) l x : (forall y, (0 <= f y)%R) -> In x l -> (f x <= reals_sum (map f l))%R.
Proof.
  intros P. assert (G : forall m, (0 <= reals_sum (map f m))%R) by (induction m as [|y m IH]; unfold reals_sum in *; cbn [map fold_right]; [lra|pose proof (P y); lra]).
  induction l as [|y l IH]; intros H; [destruct H|]. unfold reals_sum in *. cbn [map fold_right]. destruct H as [->|H]; [pose proof (G l); lra|pose proof (IH H); pose proof (P y); lra].
Qed.
(** diagonal with real entries, all at least s *)
Definition diagonal_above (d : nat) (P : array CC) (s : R) : Prop :=
  (forall i j, i < d -> j < d -> i <> j -> P i j = 0) /\ (forall i, i < d -> exists x, (s <= x)%R /\ P i i = rc x).
Lemma diagonal_kf d e A B s t : (0 <= s)%R -> (0 <= t)%R -> diagonal_above d A s -> diagonal_above e B t -> diagonal_above (d * e) (kf e e A B) (s * t).
Proof.
  intros Hs Ht [A1 A2] [B1 B2]. split.
  - intros i j Hi Hj N. unfold kf. destruct (Nat.eq_dec (i / e) (j / e)) as [E|E].
    + rewrite (B1 (i mod e) (j mod e)); [ring|eapply mod_lt_mul; eassumption|eapply mod_lt_mul; eassumption|]. intros E'. apply N. assert (e <> 0)%nat by (intros ->; lia). rewrite (Nat.div_mod i e), (Nat.div_mod j e) by assumption. congruence.
    + rewrite (A1 (i / e) (j / e))%nat; [ring|eapply div_lt_mul; eassumption|eapply div_lt_mul; eassumption|exact E].
  - intros i Hi. destruct (A2 (i / e)%nat ltac:(eapply div_lt_mul; eassumption)) as (x & X1 & X2). destruct (B2 (i mod e) ltac:(eapply mod_lt_mul; eassumption)) as (y & Y1 & Y2).
    exists (x * y)%R. split; [apply Rmult_le_compat; assumption|]. unfold kf. rewrite X2, Y2. apply rc_mul.
Qed.
Lemma in_tens (l m : list (marr CC)) A B : In A l -> In B m -> In (tens A B) (tens_ops l m).
Proof. intros HA HB. unfold tens_ops. apply in_flat_map. exists A. split; [exact HA|]. apply in_map, HB. Qed.
Lemma power_member D (ops : list (marr CC)) A s n : fits D D ops -> In A ops -> (0 <= s)%R -> diagonal_above D (me A) s -> exists P, In P (power_ops ops n) /\ diagonal_above (D ^ n) (me P) (s ^ n).
Proof.
  intros F I Hs DA. induction n as [|n (P & IP & DP)].
  - exists one_by_one. split; [left; reflexivity|]. split; [intros; cbn in *; lia|]. intros i Hi. exists 1%R. split; [cbn; lra|reflexivity].
  - exists (tens A P). split; [apply in_tens; assumption|]. destruct (in_fits _ _ _ _ (fits_power _ _ _ n F) IP) as [R1 R2].
    assert (G : forall i j, me (tens A P) i j = kf (D ^ n) (D ^ n) (me A) (me P) i j) by (intros; rewrite me_tens, R1, R2; reflexivity).
    destruct (diagonal_kf D (D ^ n) (me A) (me P) s (s ^ n) Hs (pow_le _ _ Hs) DA DP) as [K1 K2]. split; [intros; rewrite G; apply K1; assumption|intros i Hi; rewrite G; apply K2, Hi].
Qed.
Lemma diagonal_expect d P s v : unit_vector d v -> diagonal_above d P s -> (s <= fst (expectation d P v))%R.
Proof.
  intros U [D1 D2]. unfold expectation, unit_vector in *.
  set (f := fun i => bsum d (fun j => (v i)^* * P i j * v j)) in *. set (g := fun i => (v i)^* * v i) in *.
  assert (G : forall k, k <= d -> (s * fst (bsum k g) <= fst (bsum k f))%R).
  { induction k as [|k IH]; intros Hk; [cbn; lra|]. cbn [bsum]. specialize (IH ltac:(lia)).
    assert (E : f k = (v k)^* * P k k * v k) by (apply (bsum_one d k (fun j => (v k)^* * P k j * v j)); [lia|intros j Hj N; rewrite (D1 k j) by (assumption || lia); ring]).
    rewrite E. destruct (D2 k ltac:(lia)) as (x & X1 & ->). unfold g at 2. set (a := bsum k f) in *. set (b := bsum k g) in *.
    cbn. cbn in IH. nra. }
  pose proof (G d (le_n d)) as H. rewrite U in H. cbn [fst] in H. cbn in H. cbn. lra.
Qed.
Section Known.
Variable sqrtm : marr CC -> marr CC.
Hypothesis OK : sqrtm_ok sqrtm.
Variables (D : nat) (ops : list (marr CC)) (sp : bool) (c : chan CC).
Hypothesis F : fits D D ops.
Hypothesis NE : ops <> [].
Hypothesis T : trace_preserving D ops.
Hypothesis C : channel_of ops sp c.
Theorem pure_value past n rho v : Forall (fun m => 1 <= m) past -> 1 <= n -> clean sp past n -> is_square (D ^ n) rho -> unit_vector (D ^ n) v -> eqm (D ^ n) (D ^ n) (me rho) (pure v) ->
  let x := reals_sum (map (fun A => Cmod (expectation (D ^ n) (me A) v) ^ 2)%R (power_ops ops n)) in
  (0 <= x <= 1)%R /\ snd (fidelity_two_states sqrtm (after c past) rho n) = Ok (sqrt x).
Proof.
  intros HP Hn CL SQ U E. destruct C as (a & nq & din & dout & I & S). destruct (chan_init_made _ _ _ _ _ _ _ I) as (k & -> & K).
  assert (NA : arg_matrices a <> []) by (apply (same_nonempty ops); [apply same_ops_sym, S|exact NE]).
  assert (I0 : kraus_init sp a nq din dout [] = Ok k) by (destruct sp; exact K). pose proof (fits0 sp a nq din dout [] k I0 NA) as F0.
  assert (FA : fits D D (arg_matrices a)) by (apply (same_ops_fits _ _ ops); [apply same_ops_sym, S|exact F]).
  assert (DIM : dout ^ snd nq = D /\ din ^ fst nq = D). { destruct (arg_matrices a) as [|A l]; [congruence|]. destruct (Forall_inv F0) as [A1 A2], (Forall_inv FA) as [B1 B2]. lia. } destruct DIM as [EO ED].
  assert (TA : trace_preserving (din ^ fst nq) (arg_matrices a)) by (rewrite ED; apply (tp_same D D ops); [exact F|apply same_ops_sym, S|exact T]).
  destruct (PropsChoi.C70_pure sqrtm sp a nq din dout [] k past n rho v OK I0 NA HP Hn CL) as (x & X1 & X2 & X3); [congruence|exact TA|rewrite ED; assumption..|].
  rewrite ED in X1. assert (EX : x = reals_sum (map (fun A => Cmod (expectation (D ^ n) (me A) v) ^ 2)%R (power_ops ops n))).
  { apply rc_inj. rewrite <- (expect_sum (D ^ n) (power_ops ops n) v) by apply fits_power, F. change (rc x) with ((x, 0%R) : CC). rewrite <- X1. apply quad_ext.
    apply (channel_map_same (D ^ n) (D ^ n)); [apply fits_power, FA|apply power_same, S|apply eqm_refl]. }
  rewrite <- EX. split; [exact X2|exact X3].
Qed.
(** an operator that is diagonal and at least s bounds the fidelity from below *)
Theorem pure_above A s past n rho v : In A ops -> (0 <= s)%R -> diagonal_above D (me A) s -> Forall (fun m => 1 <= m) past -> 1 <= n -> clean sp past n -> is_square (D ^ n) rho -> unit_vector (D ^ n) v -> eqm (D ^ n) (D ^ n) (me rho) (pure v) ->
  exists x, snd (fidelity_two_states sqrtm (after c past) rho n) = Ok x /\ (s ^ n <= x <= 1)%R.
Proof.
  intros IA Hs DA HP Hn CL SQ U E. destruct (pure_value past n rho v HP Hn CL SQ U E) as [B EX]. eexists. split; [exact EX|].
  destruct (power_member D ops A s n F IA Hs DA) as (P & IP & DP). pose proof (diagonal_expect _ _ _ _ U DP) as L.
  assert (G : ((s ^ n) ^ 2 <= reals_sum (map (fun A => Cmod (expectation (D ^ n) (me A) v) ^ 2)%R (power_ops ops n)))%R).
  { eapply Rle_trans; [|apply (sum_above (fun A => Cmod (expectation (D ^ n) (me A) v) ^ 2)%R (power_ops ops n) P); [intros; apply pow2_ge_0|exact IP]]. cbv beta. rewrite Cmod_sq. pose proof (pow_le s n Hs). nra. }
  split.
  - rewrite <- (sqrt_pow2 (s ^ n)) by apply pow_le, Hs. apply sqrt_le_1_alt, G.
  - apply Rle_trans with (sqrt 1); [apply sqrt_le_1_alt; lra|rewrite sqrt_1; lra].
Qed.
(** n copies of a state *)
Theorem pure_power past n sigma v y : Forall (fun m => 1 <= m) past -> 1 <= n -> clean sp past n -> is_square D sigma -> unit_vector D v -> eqm D D (me sigma) (pure v) ->
  reals_sum (map (fun A => Cmod (expectation D (me A) v) ^ 2)%R ops) = y ->
  snd (fidelity_two_states sqrtm (after c past) (tens_all (repeat sigma n)) n) = Ok (sqrt y ^ n)%R.
Proof.
  intros HP Hn CL SQ U E Y.
  assert (Y' : reals_sum (map (fun A => Cmod (expectation (D ^ 1) (me A) v) ^ 2)%R (power_ops ops 1)) = y).
  { apply rc_inj. rewrite <- (expect_sum (D ^ 1) (power_ops ops 1) v) by apply fits_power, F. rewrite <- Y, Nat.pow_1_r, <- (expect_sum D ops v) by exact F. apply quad_ext.
    apply eqm_sym, (channel_map_same D D); [exact F|apply power_ops_1|apply eqm_refl]. }
  assert (DS : density D (me sigma)).
  { destruct (pure_density D v U) as (A1 & A2 & A3). split; [apply (hermitian_ext _ _ _ (eqm_sym _ _ _ _ E) A1)|]. split; [apply (psd_ext _ (pure v)); [apply eqm_sym, E|exact A2]|]. rewrite <- A3. apply tr_eqm, E. }
  destruct (pure_value [] 1 sigma v ltac:(constructor) (le_n 1) ltac:(intros _ _; constructor)) as [_ V]; [rewrite Nat.pow_1_r; assumption..|]. cbn [after fold_left] in V. rewrite Y' in V.
  destruct C as (a & nq & din & dout & I & S). destruct (chan_init_made _ _ _ _ _ _ _ I) as (k & -> & K).
  assert (NA : arg_matrices a <> []) by (apply (same_nonempty ops); [apply same_ops_sym, S|exact NE]).
  assert (I0 : kraus_init sp a nq din dout [] = Ok k) by (destruct sp; exact K). pose proof (fits0 sp a nq din dout [] k I0 NA) as F0.
  assert (FA : fits D D (arg_matrices a)) by (apply (same_ops_fits _ _ ops); [apply same_ops_sym, S|exact F]).
  assert (DIM : dout ^ snd nq = D /\ din ^ fst nq = D). { destruct (arg_matrices a) as [|A l]; [congruence|]. destruct (Forall_inv F0) as [A1 A2], (Forall_inv FA) as [B1 B2]. lia. } destruct DIM as [EO ED].
  assert (TA : trace_preserving (din ^ fst nq) (arg_matrices a)) by (rewrite ED; apply (tp_same D D ops); [exact F|apply same_ops_sym, S|exact T]).
  destruct (PropsFidelity.C119_product sqrtm sp a nq din dout [] k past (repeat sigma n) OK I0 NA HP) as (xs & X1 & X2).
  { rewrite repeat_length. exact Hn. } { rewrite repeat_length. exact CL. } { congruence. } { exact TA. } { rewrite ED. apply Forall_forall. intros r Hr. apply repeat_spec in Hr. subst r. split; assumption. }
  rewrite repeat_length in X2. rewrite X2. f_equal.
  clear X2 CL Hn. remember (repeat sigma n) as l eqn:El. revert n El. induction X1 as [|r x l xs X X1 IH]; intros n El.
  - destruct n; [reflexivity|discriminate].
  - destruct n as [|n]; [discriminate|]. injection El as -> ->. unfold reals_prod in *. cbn [fold_right]. rewrite (IH n eq_refl). cbn [pow]. f_equal. assert (Q : @Ok R x = Ok (sqrt y)) by (rewrite <- X; exact V). injection Q as ->. reflexivity.
Qed.
End Known.
