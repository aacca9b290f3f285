(** The coherent information of channel objects: bounds, special cases, independence of the
    choice of Kraus operators. *)
From Verif Require Import Py Scalar PauliModel PauliSpec EncoderProofs EighExists Spectral SpectralProofs PowerSums KrausModel KrausSpec KrausProofs KrausProofs2 KrausProofs6 KrausProofs8 KrausProofs11 KrausProofs12
  ChoiModel ChannelModel ChannelSpec ChoiSpec ChoiProofs ChoiProofs2 ChoiProofs3 Sqrt EntropyProofs EntropySpec Subadd CohProofs.
From Coq Require Import Reals Lra.
Open Scope nat_scope.
Open Scope K_scope.
Add Ring CCring32 : (s_rt CC).

Section Channel.
Variables (D O : nat) (ops : list (marr CC)) (rho S : array CC).
Hypothesis F : fits O D ops.
Hypothesis SR : square_root D rho S.
(** the joint state of the output and the reference *)
Definition joint : array CC := mm (length ops) (fun x t => mm D (me (nth t ops one_by_one)) S (x / D)%nat (x mod D)%nat) (adj (fun x t => mm D (me (nth t ops one_by_one)) S (x / D)%nat (x mod D)%nat)).
Lemma joint_traces p : tr (O * D) (mpow (O * D) joint (Datatypes.S p)) = tr (length ops) (mpow (length ops) (exchange_entry ops rho) (Datatypes.S p)).
Proof.
  unfold joint. rewrite tr_gram, <- tr_mpow_transpose. apply tr_mpow_eqm. intros t s Ht Hs. rewrite <- (env_red D O ops rho S F SR t s Ht Hs).
  rewrite X_env. reflexivity.
Qed.
Lemma joint_density : trace_preserving D ops -> density D rho -> density (O * D) joint.
Proof.
  intros TP DR. apply (X_density O D (length ops) (fun a i t => mm D (me (nth t ops one_by_one)) S a i)).
  rewrite (tr_eqm O _ (channel_map ops rho)) by (intros i j Hi Hj; apply (out_red D O ops rho S F SR)). rewrite (channel_trace O D ops rho F TP). apply DR.
Qed.
End Channel.
(** what leaving out small eigenvalues of the exchange matrix can cost *)
Lemma exchange_slack D O ops rho s t : fits O D ops -> trace_preserving D ops -> density D rho ->
  vn_entropy (length ops) (exchange_entry ops rho) s -> von_neumann (length ops) (exchange_entry ops rho) t -> (s <= t <= s + INR (Nat.min (length ops) (D * O)) * slack)%R.
Proof.
  intros F TP DR V W. destruct (square_root_exists D rho) as (S & SR); [apply DR|].
  pose proof (joint_density D O ops rho S F SR TP DR) as DJ. pose proof (proj1 DJ) as HJ. destruct (vn_exists _ _ HJ) as (s' & Vs). destruct (von_exists _ _ HJ) as (t' & Vt).
  assert (s' = s) by (apply (vn_unique _ _ _ _ _ _ Vs V); intros; apply joint_traces; assumption). assert (t' = t) by (apply (von_unique _ _ _ _ _ _ Vt W); intros; apply joint_traces; assumption). subst s' t'.
  pose proof (vn_von _ _ _ _ DJ Vs Vt) as B1.
  assert (DE : density (length ops) (exchange_entry ops rho)).
  { split; [apply (exchange_hermitian O D); [exact F|apply DR]|]. split; [apply (exchange_psd O D); [exact F|apply DR]|]. rewrite (exchange_trace O D) by exact F. rewrite (channel_trace O D ops rho F TP). apply DR. }
  pose proof (vn_von _ _ _ _ DE V W) as B2. destruct (Nat.min_dec (length ops) (D * O)) as [->| ->]; [exact B2|]. rewrite (Nat.mul_comm D O). exact B1.
Qed.

Section Object.
Variables (eigvalsh : marr CC -> list R) (sqrtm : marr CC -> marr CC).
Hypothesis OK : eigvalsh_ok eigvalsh.
Variables (sp : bool) (a : kraus_arg CC) (nq : nat * nat) (din dout : nat) (orthogonal : list nat) (o0 : kraus CC) (past : list nat) (n : nat).
Hypothesis I0 : kraus_init sp a nq din dout orthogonal = Ok o0.
Hypothesis NE : arg_matrices a <> [].
Hypothesis OR : sp = true \/ orthogonal = [].
Hypothesis HP : Forall (fun m => 1 <= m) past.
Hypothesis Hn : 1 <= n.
Hypothesis CL : clean sp past n.
Let D := (din ^ fst nq) ^ n.
Let D' := (dout ^ snd nq) ^ n.
Let N := length (arg_matrices a) ^ n.
Let ops := power_ops (arg_matrices a) n.
Let value rho reg := snd (coherent_information eigvalsh sqrtm (after (KrausType o0) past) rho n reg).
Lemma fitsP : fits D' D ops. Proof. apply (fitsn sp a nq din dout orthogonal o0 n I0 NE). Qed.
Lemma lenP : length ops = N. Proof. apply power_len. Qed.
Theorem coherent_bounds rho reg : trace_preserving (din ^ fst nq) (arg_matrices a) -> is_square D rho -> density D (me rho) ->
  exists r s, value rho reg = Ok (if reg then r / INR n else r)%R /\ von_neumann D (me rho) s /\
    (- s - INR D' * slack <= r <= s + INR (Nat.min N (D * D')) * slack)%R.
Proof.
  intros TP0 SQ DR. pose proof fitsP as F. assert (TP : trace_preserving D ops) by (apply (tp_power (dout ^ snd nq)); [eapply fits0; eassumption|exact TP0]).
  destruct (coherent_kraus eigvalsh sqrtm sp a nq din dout orthogonal o0 past n rho reg OK I0 NE OR HP Hn CL SQ (proj1 DR)) as (s1 & s2 & E & V1 & V2).
  fold D' ops in V1. fold N ops in V2. destruct (von_exists D (me rho) (proj1 DR)) as (s & Vs).
  pose proof (channel_density D' D ops (me rho) F TP DR) as DO. destruct (von_exists _ _ (proj1 DO)) as (t1 & W1). rewrite <- lenP in V2.
  destruct (von_exists _ _ (exchange_hermitian D' D ops (me rho) F (proj1 DR))) as (t2 & W2).
  destruct (square_root_exists D (me rho)) as (S & SR); [apply DR|].
  destruct (triangles D D' ops (me rho) S F TP DR SR s t1 t2 Vs W1 W2) as (T1 & T2 & _).
  pose proof (vn_von _ _ _ _ DO V1 W1) as B1. pose proof (exchange_slack D D' ops (me rho) s2 t2 F TP DR V2 W2) as B2. rewrite lenP in B2.
  exists (s1 - s2)%R, s. split; [exact E|]. split; [exact Vs|]. lra.
Qed.
(** pure inputs *)
Theorem coherent_pure rho v reg : is_square D rho -> eqm D D (me rho) (pure v) -> value rho reg = Ok 0%R.
Proof.
  intros SQ EV. pose proof fitsP as F. assert (H : hermitian D (me rho)) by exact (hermitian_ext _ _ _ (eqm_sym _ _ _ _ EV) (pure_hermitian D v)).
  destruct (coherent_kraus eigvalsh sqrtm sp a nq din dout orthogonal o0 past n rho reg OK I0 NE OR HP Hn CL SQ H) as (s1 & s2 & E & V1 & V2).
  fold D' ops in V1. fold N ops in V2. unfold value. rewrite E. f_equal. rewrite <- lenP in V2. assert (s1 = s2); [|subst s2; destruct reg; [|lra]; unfold Rdiv; ring].
  apply (vn_unique _ _ _ _ _ _ V1 V2). intros p. set (M := fun x t => bsum D (fun k => me (nth t ops one_by_one) x k * v k) : CC).
  assert (Z : forall A x y, mr A = D' -> mc A = D -> mm D (mm D (me A) (me rho)) (adj y) x x = mm D (mm D (me A) (pure v)) (adj y) x x).
  { intros A x y _ _. apply mm_ext; [|reflexivity]. intros l Hl. apply mm_congr_r. intros k Hk. apply EV; assumption. }
  assert (P : forall (A B : array CC) x y, mm D (mm D A (pure v)) (adj B) x y = bsum D (fun k => A x k * v k) * (bsum D (fun k => B y k * v k))^* ).
  { intros A B x y. unfold mm, pure, adj. rewrite bsum_conj, <- bsum_mul_l. apply bsum_ext; intros l Hl. rewrite sconj_mul. rewrite <- bsum_mul_r, <- bsum_mul_r. apply bsum_ext; intros; ring. }
  rewrite (tr_mpow_eqm D' _ (mm (length ops) M (adj M))).
  - rewrite tr_gram, <- tr_mpow_transpose. apply tr_mpow_eqm. intros t s Ht Hs. unfold transpose, exchange_entry. destruct (nth_fits _ _ _ t F Ht) as [A1 A2]. rewrite A1, A2.
    unfold mm at 1, tr. apply bsum_ext; intros x Hx. rewrite Z by assumption. rewrite P. unfold M, adj. ring.
  - intros x y Hx Hy. rewrite (channel_map_same D' D ops ops (me rho) (pure v) F (same_ops_refl _) EV x y Hx Hy). unfold channel_map. rewrite <- (bsum_ksum_nth ops one_by_one). unfold mm at 3. apply bsum_ext; intros t Ht.
    destruct (nth_fits _ _ _ t F Ht) as [_ ->]. rewrite P. reflexivity.
Qed.
End Object.

(** one operator: nothing is lost to the environment *)
Theorem coherent_single eigvalsh sqrtm sp (a : kraus_arg CC) nq din dout orthogonal o0 past n A rho reg : eigvalsh_ok eigvalsh ->
  kraus_init sp a nq din dout orthogonal = Ok o0 -> arg_matrices a = [A] -> sp = true \/ orthogonal = [] -> Forall (fun m => 1 <= m) past -> 1 <= n -> clean sp past n ->
  let D := (din ^ fst nq) ^ n in trace_preserving (din ^ fst nq) [A] -> is_square D rho -> density D (me rho) ->
  exists s, vn_entropy D (me rho) s /\ snd (coherent_information eigvalsh sqrtm (after (KrausType o0) past) rho n reg) = Ok (if reg then s / INR n else s)%R.
Proof.
  intros OK I0 EA OR HP Hn CL D TP0 SQ DR. assert (NE : arg_matrices a <> []) by (rewrite EA; discriminate).
  destruct (coherent_kraus eigvalsh sqrtm sp a nq din dout orthogonal o0 past n rho reg OK I0 NE OR HP Hn CL SQ (proj1 DR)) as (s1 & s2 & E & V1 & V2).
  set (D' := (dout ^ snd nq) ^ n) in *. set (ops := power_ops (arg_matrices a) n) in *. fold D in E.
  assert (F : fits D' D ops) by exact (fitsn sp a nq din dout orthogonal o0 n I0 NE).
  assert (L : length ops = 1%nat) by (unfold ops; rewrite power_len, EA; cbn [length]; apply Nat.pow_1_l).
  assert (TP : trace_preserving D ops). { unfold ops. apply (tp_power (dout ^ snd nq)); [eapply fits0; eassumption|]. rewrite EA. exact TP0. }
  rewrite EA in V2. cbn [length] in V2. rewrite Nat.pow_1_l in V2.
  assert (Z2 : s2 = 0%R).
  { assert (DE : density 1 (exchange_entry ops (me rho))).
    { rewrite <- L. split; [apply (exchange_hermitian D' D); [exact F|apply DR]|]. split; [apply (exchange_psd D' D); [exact F|apply DR]|]. rewrite (exchange_trace D' D) by exact F. rewrite (channel_trace D' D ops _ F TP). apply DR. }
    pose proof (vn_bounds _ _ _ DE V2) as B. unfold log2 in B. cbn [INR] in B. rewrite ln_1 in B. unfold Rdiv in B. lra. }
  destruct (vn_exists D (me rho) (proj1 DR)) as (s & Vs). exists s. split; [exact Vs|]. rewrite E, Z2, Rminus_0_r. f_equal.
  assert (s1 = s); [|subst s1; reflexivity]. apply (vn_unique _ _ _ _ _ _ V1 Vs). intros p.
  destruct ops as [|B [|? ?]]; try discriminate L. destruct (square_root_exists D (me rho)) as (S & SR); [apply DR|]. pose proof SR as (HS & _ & HR).
  inversion F as [|? ? [B1 B2] _]; subst. 
  rewrite (tr_mpow_eqm D' _ (mm D (mm D (me B) S) (adj (mm D (me B) S)))).
  - rewrite tr_gram. apply tr_mpow_eqm. intros i j Hi Hj. rewrite <- HR by assumption.
    rewrite (mm_ext D' _ (mm D (adj S) (adj (me B))) _ (mm D (me B) S)) by (intros; first [apply adj_mm|reflexivity]). rewrite mm_assoc.
    apply mm_ext; [intros; apply HS; assumption|]. intros l Hl. rewrite <- mm_assoc. transitivity (mm D eye S l j); [|apply mm_eye_l, Hl].
    apply mm_ext; [|reflexivity]. intros k Hk. rewrite <- (TP l k Hl Hk). cbn [map]. rewrite ksum_cons, ksum_nil. rewrite B1. ring.
  - intros x y Hx Hy. unfold channel_map. cbn [map]. rewrite ksum_cons, ksum_nil, B2. rewrite <- (sandwich D (me rho) S SR B x y). ring.
Qed.
