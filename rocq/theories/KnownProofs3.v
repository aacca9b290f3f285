(** From the entropies of a channel to what its object returns (C122 to C126). *)
From Verif Require Import Py Scalar PauliModel PauliSpec EncoderProofs EighExists Spectral SpectralProofs PowerSums KrausModel KrausSpec KrausProofs KrausProofs2 KrausProofs5 KrausProofs6 KrausProofs8 KrausProofs9 KrausProofs11 KrausProofs12
  ChoiModel ChannelModel ChannelSpec ChoiSpec ChoiProofs ChoiProofs2 ChoiProofs3 Sqrt EntropyProofs EntropySpec Subadd CohProofs CohProofs2 CohProofs3 CohProofs4 Processing ProcessingSpec Processing2 PropsProcessing Degradable PropsDegradable UnitalProofs2 KnownSpec KnownProofs KnownProofs2.
From Coq Require Import Reals Lra.
Open Scope nat_scope.
Open Scope K_scope.

(** c was constructed by AnalyticQChan from the operators ops, densely or sparsely *)
Definition channel_of (ops : list (marr CC)) (sp : bool) (c : chan CC) : Prop :=
  exists a nq din dout, chan_init a nq din dout [] sp = Ok c /\ same_ops (arg_matrices a) ops.
(** the value of c on n uses after the tensored powers in past were asked for, at least x and at most y *)
Definition value_between (eigvalsh : marr CC -> list R) (sqrtm : marr CC -> marr CC) (c : chan CC) (past : list nat) (n : nat) (rho : marr CC) (reg : bool) (x y : R) : Prop :=
  exists r, snd (coherent_information eigvalsh sqrtm (after c past) rho n reg) = Ok (if reg then r / INR n else r)%R /\ (x <= r <= y)%R.

Lemma power_same (l m : list (marr CC)) n : same_ops l m -> same_ops (power_ops l n) (power_ops m n).
Proof. intros H. induction n as [|n IH]; [apply same_ops_refl|]. apply tens_ops_same; assumption. Qed.
Lemma entropies_same O D l m rho t : fits O D l -> same_ops l m -> entropies O l rho t -> entropies O m rho t.
Proof.
  intros F S [V1 V2]. split.
  - apply (von_ext _ (channel_map l rho)); [|exact V1]. apply (channel_map_same O D); [exact F|exact S|apply eqm_refl].
  - rewrite <- (same_len _ _ S). apply (von_ext _ (exchange_entry l rho)); [|exact V2]. intros i j Hi Hj. apply (exchange_entry_same O D); [exact F|exact S|apply eqm_refl|assumption..].
Qed.
Lemma entropies_unique O D ops rho t u : fits O D ops -> hermitian D rho -> entropies O ops rho t -> entropies O ops rho u -> t = u.
Proof.
  intros F H [V1 V2] [W1 W2]. destruct t as [t1 t2], u as [u1 u2]. cbn [fst snd] in *. f_equal; [apply (von_unique _ _ _ _ _ _ V1 W1)|apply (von_unique _ _ _ _ _ _ V2 W2)]; reflexivity.
Qed.
Section Value.
Variables (eigvalsh : marr CC -> list R) (sqrtm : marr CC -> marr CC).
Hypothesis OK : eigvalsh_ok eigvalsh.
Variables (O D : nat) (ops : list (marr CC)) (sp : bool) (c : chan CC).
Hypothesis F : fits O D ops.
Hypothesis NE : ops <> [].
Hypothesis T : trace_preserving D ops.
Hypothesis C : channel_of ops sp c.
Theorem known_near past n rho reg t : Forall (fun m => 1 <= m) past -> 1 <= n -> clean sp past n -> is_square (D ^ n) rho -> density (D ^ n) (me rho) -> entropies (O ^ n) (power_ops ops n) (me rho) t ->
  value_between eigvalsh sqrtm c past n rho reg (fst t - snd t - INR (O ^ n) * slack)%R (fst t - snd t + INR (length ops ^ n) * slack)%R.
Proof.
  intros HP Hn CL SQ DR V. destruct C as (a & nq & din & dout & I & S). destruct (chan_init_made _ _ _ _ _ _ _ I) as (k & -> & K).
  assert (NA : arg_matrices a <> []) by (apply (same_nonempty ops); [apply same_ops_sym, S|exact NE]).
  assert (I0 : kraus_init sp a nq din dout [] = Ok k) by (destruct sp; exact K). pose proof (fits0 sp a nq din dout [] k I0 NA) as F0.
  assert (FA : fits O D (arg_matrices a)) by (apply (same_ops_fits _ _ ops); [apply same_ops_sym, S|exact F]).
  assert (DIM : dout ^ snd nq = O /\ din ^ fst nq = D). { destruct (arg_matrices a) as [|A l]; [congruence|]. destruct (Forall_inv F0) as [A1 A2], (Forall_inv FA) as [B1 B2]. lia. } destruct DIM as [EO ED].
  assert (TA : trace_preserving (din ^ fst nq) (arg_matrices a)) by (rewrite ED; apply (tp_same O D ops); [exact F|apply same_ops_sym, S|exact T]).
  destruct (value_near eigvalsh sqrtm OK sp a nq din dout [] k I0 NA (or_intror eq_refl) TA past n rho reg HP Hn CL) as (r & u & E & U & B); [rewrite ED; exact (conj SQ DR)|].
  rewrite EO, ED in *. exists r. split; [exact E|].
  assert (EU : u = t). { apply (entropies_unique (O ^ n) (D ^ n) (power_ops ops n) (me rho)); [apply fits_power, F|apply DR| |exact V]. apply (entropies_same (O ^ n) (D ^ n) (power_ops (arg_matrices a) n)); [apply fits_power, FA|apply power_same, S|exact U]. }
  subst u. assert (M : (INR (Nat.min (length (arg_matrices a) ^ n) (D ^ n * O ^ n)) <= INR (length ops ^ n))%R) by (apply le_INR; rewrite (same_len _ _ S); lia).
  assert (SL : (0 < slack)%R) by (unfold slack; lra). cbv beta zeta in B. nra.
Qed.
Theorem known_one past rho reg t : Forall (fun m => 1 <= m) past -> clean sp past 1 -> is_square D rho -> density D (me rho) -> entropies O ops (me rho) t ->
  value_between eigvalsh sqrtm c past 1 rho reg (fst t - snd t - INR O * slack)%R (fst t - snd t + INR (length ops) * slack)%R.
Proof.
  intros HP CL SQ DR V. pose proof (known_near past 1 rho reg t HP (le_n 1) CL) as H. rewrite !Nat.pow_1_r in H. apply H; try assumption. pose proof (proj2 (entropies_one O D ops (me rho) t F) V) as G. rewrite Nat.pow_1_r in G. exact G.
Qed.
Theorem known_most v past n rho reg : Forall (fun m => 1 <= m) past -> 1 <= n -> clean sp past n -> is_square (D ^ n) rho -> density (D ^ n) (me rho) -> output_imitates O ops ->
  (forall sigma t, density D sigma -> entropies O ops sigma t -> (fst t - snd t <= v)%R) ->
  exists r, snd (coherent_information eigvalsh sqrtm (after c past) rho n reg) = Ok (if reg then r / INR n else r)%R /\ (r <= INR n * v + INR (length ops ^ n) * slack)%R.
Proof.
  intros HP Hn CL SQ DR IM BD. destruct (entropies_exist (O ^ n) (D ^ n) (power_ops ops n) (me rho)) as (t & V); [apply fits_power, F|apply (tp_power O); assumption|exact DR|].
  destruct (known_near past n rho reg t HP Hn CL SQ DR V) as (r & E & B). exists r. split; [exact E|].
  assert (MS : Forall (state D) (marginals D n (me rho)) /\ length (marginals D n (me rho)) = n). { pose proof (marginal_states (1, 1)%nat D n (me rho)) as G. cbn [fst] in G. rewrite Nat.pow_1_r in G. apply G, DR. }
  destruct MS as [MS ML].
  assert (G : forall l, Forall (state D) l -> exists ps, Forall2 (fun r p => entropies O ops (me r) p) l ps /\ (total fst ps - total snd ps <= INR (length l) * v)%R).
  { intros l H. induction H as [|x l H1 H (ps & P1 & P2)]; [exists []; split; [constructor|cbn; lra]|]. destruct (entropies_exist O D ops (me x) F T (proj2 H1)) as (p & Hp). exists (p :: ps). split; [constructor; assumption|].
    pose proof (BD (me x) p (proj2 H1) Hp). unfold total in *. cbn [map fold_right]. change (length (x :: l)) with (S (length l)). rewrite S_INR. lra. }
  destruct (G _ MS) as (ps & P1 & P2). rewrite ML in P2. pose proof (apart O D ops n F T IM (me rho) t ps DR V P1). lra.
Qed.
Theorem known_none past n rho reg : Forall (fun m => 1 <= m) past -> 1 <= n -> clean sp past n -> is_square (D ^ n) rho -> density (D ^ n) (me rho) -> environment_imitates O ops ->
  exists r, snd (coherent_information eigvalsh sqrtm (after c past) rho n reg) = Ok (if reg then r / INR n else r)%R /\ (r <= INR (length ops ^ n) * slack)%R.
Proof.
  intros HP Hn CL SQ DR IM. destruct (entropies_exist (O ^ n) (D ^ n) (power_ops ops n) (me rho)) as (t & V); [apply fits_power, F|apply (tp_power O); assumption|exact DR|].
  destruct (known_near past n rho reg t HP Hn CL SQ DR V) as (r & E & B). exists r. split; [exact E|]. pose proof (imitated_neg O D ops n (me rho) t F T IM DR V). lra.
Qed.
Theorem known_power past n sigma reg t : Forall (fun m => 1 <= m) past -> 1 <= n -> clean sp past n -> is_square D sigma -> density D (me sigma) -> entropies O ops (me sigma) t ->
  value_between eigvalsh sqrtm c past n (tens_all (repeat sigma n)) reg (INR n * (fst t - snd t) - INR (O ^ n) * slack)%R (INR n * (fst t - snd t) + INR (length ops ^ n) * slack)%R.
Proof.
  intros HP Hn CL SQ DR V. assert (ST : Forall (state D) (repeat sigma n)) by (apply Forall_forall; intros x Hx; apply repeat_spec in Hx; subst x; split; assumption).
  pose proof (state_all D _ ST) as [S1 S2]. rewrite repeat_length in S1, S2.
  assert (G : forall k, Forall2 (fun rho p => state D rho /\ entropies O ops (me rho) p) (repeat sigma k) (repeat t k) /\ total fst (repeat t k) = (INR k * fst t)%R /\ total snd (repeat t k) = (INR k * snd t)%R).
  { induction k as [|k (I1 & I2 & I3)]; [split; [constructor|unfold total; cbn; split; ring]|]. cbn [repeat]. split; [constructor; [split; [split; assumption|exact V]|exact I1]|]. unfold total in *. cbn [map fold_right]. rewrite I2, I3, S_INR. split; ring. }
  destruct (G n) as (G1 & G2 & G3). pose proof (entropies_all D O ops _ _ F T G1) as W. rewrite repeat_length, G2, G3 in W.
  destruct (known_near past n _ reg _ HP Hn CL S1 S2 W) as (r & E & B). exists r. split; [exact E|]. cbn [fst snd] in B. lra.
Qed.
End Value.
Lemma mixed_state_entropy D : 0 < D -> density D (me (mixed_state D)) /\ von_neumann D (me (mixed_state D)) (log2 (INR D)).
Proof.
  intros H. assert (E : eqm D D (fun i j => rc (/ INR D) * eye i j) (me (mixed_state D))) by (intros i j _ _; unfold eye; cbn [mixed_state me]; destruct (Nat.eqb i j); apply CC_eq; cbn; ring).
  split; [apply (density_ext D _ _ E), mixed_density, H|apply (von_ext D _ _ _ E), mixed_von, H].
Qed.
Lemma channel_exists O D ops sp : fits O D ops -> ops <> [] -> trace_preserving D ops -> exists c, channel_of ops sp c.
Proof.
  intros F NE T. destruct (proj2 (chan_init_iff (OpList ops) (1, 1)%nat D O [] sp NE)) as (c & E).
  - cbn [fst snd arg_matrices]. rewrite !Nat.pow_1_r. split; [exact F|apply tp_nearly, T].
  - exists c, (OpList ops), (1, 1)%nat, D, O. split; [exact E|apply same_ops_refl].
Qed.
