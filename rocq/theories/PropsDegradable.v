(** Properties of the coherent information of channels whose output can imitate the environment
    (C101, C102).  Specification: ProcessingSpec.v, EntropySpec.v, ChoiSpec.v, KrausSpec.v.  Model:
    ChannelModel.v, KrausModel.v.  eigvalsh_ok says what numpy.linalg.eigvalsh is assumed to return
    on Hermitian matrices; SpectralExists.v shows that it can be met. *)
From Verif Require Import Py Scalar PauliModel PauliSpec EncoderProofs EighExists KrausModel KrausSpec KrausProofs KrausProofs2 KrausProofs4 KrausProofs5 KrausProofs6 KrausProofs8 KrausProofs9 KrausProofs12
  ChoiModel ChannelModel ChannelSpec ChoiSpec SpectralExists EntropySpec EntropyProofs Subadd CohProofs CohProofs2 CohProofs3 CohProofs4 KrausExamples ProcessingSpec Processing.
From Coq Require Import Reals Lra.
From Verif Require Import Processing2 PropsProcessing Degradable.
Open Scope nat_scope.
Add Ring CCring48 : (s_rt CC).

Section C101.
Variables (eigvalsh : marr CC -> list R) (sqrtm : marr CC -> marr CC).
Variables (sp : bool) (a : kraus_arg CC) (nq : nat * nat) (din dout : nat) (orthogonal : list nat) (o0 : kraus CC) (past : list nat).
Let D := din ^ fst nq.
Let O := dout ^ snd nq.
Let N := length (arg_matrices a).
Let loss k := (INR (Nat.min (N ^ k) (D ^ k * O ^ k)) * slack)%R.
Lemma ones : eigvalsh_ok eigvalsh -> kraus_init sp a nq din dout orthogonal = Ok o0 -> arg_matrices a <> [] -> sp = true \/ orthogonal = [] -> trace_preserving D (arg_matrices a) ->
  forall rhos, Forall (state D) rhos -> exists rs ps, Forall2 (fun rho x => information eigvalsh sqrtm (KrausType o0) rho 1 false x) rhos rs /\
    Forall2 (fun rho p => entropies O (arg_matrices a) (me rho) p) rhos ps /\ (total fst ps - total snd ps - INR (length rhos) * (INR O * slack) <= fold_right Rplus 0 rs)%R.
Proof.
  intros OK I0 NE OR TP rhos S. pose proof (fits0 sp a nq din dout orthogonal o0 I0 NE) as F0. fold D O in F0.
  induction S as [|rho rhos S1 S (rs & ps & I1 & I2 & I3)].
  - exists [], []. split; [constructor|]. split; [constructor|]. cbn. lra.
  - destruct (value_near eigvalsh sqrtm OK sp a nq din dout orthogonal o0 I0 NE OR TP [] 1 rho false) as (x & t & E & [T1 T2] & B); [constructor|lia|intros _ _; constructor|rewrite Nat.pow_1_r; exact S1|].
    fold O in T1, B. exists (x :: rs), (t :: ps). split; [constructor; [exact E|exact I1]|]. split.
    + constructor; [|exact I2]. rewrite Nat.pow_1_r in T1. split.
      * apply (von_ext _ (channel_map (power_ops (arg_matrices a) 1) (me rho))); [|exact T1]. apply eqm_sym. apply (channel_map_same O D); [exact F0|apply power_ops_1|apply eqm_refl].
      * assert (PL : length (power_ops (arg_matrices a) 1) = length (arg_matrices a)) by (rewrite power_len; apply Nat.pow_1_r). rewrite PL in T2. revert T2. apply von_ext. intros i j Hi Hj. symmetry. apply (exchange_entry_same O D); [exact F0|apply power_ops_1|apply eqm_refl|assumption..].
    + rewrite Nat.pow_1_r in B. unfold total in *. cbn [map fold_right]. change (length (rho :: rhos)) with (Datatypes.S (length rhos)). rewrite S_INR. lra.
Qed.
Lemma marginal_states n rho : density (D ^ n) rho -> Forall (state D) (marginals D n rho) /\ length (marginals D n rho) = n.
Proof.
  revert rho. induction n as [|n IH]; intros rho DR; [split; [constructor|reflexivity]|]. cbn [marginals length]. cbn [Nat.pow] in DR.
  destruct (IH _ (rest_density _ _ _ DR)) as [H1 H2]. split; [|f_equal; exact H2]. constructor; [|exact H1]. split; [split; reflexivity|]. exact (first_density _ _ _ DR).
Qed.
(** ** C101 *)
Theorem C101_apart n rho reg : eigvalsh_ok eigvalsh -> kraus_init sp a nq din dout orthogonal = Ok o0 -> arg_matrices a <> [] -> sp = true \/ orthogonal = [] ->
  Forall (fun m => 1 <= m) past -> 1 <= n -> clean sp past n ->
  trace_preserving D (arg_matrices a) -> output_imitates O (arg_matrices a) -> is_square (D ^ n) rho -> density (D ^ n) (me rho) ->
  exists r rs, information eigvalsh sqrtm (after (KrausType o0) past) rho n reg r /\
    Forall2 (fun sigma x => is_square D sigma /\ density D (me sigma) /\ information eigvalsh sqrtm (KrausType o0) sigma 1 false x) (marginals D n (me rho)) rs /\
    (r <= fold_right Rplus 0 rs + loss n + INR n * (INR O * slack))%R.
Proof.
  intros OK I0 NE OR HP Hn CL TP IM SQ DR. pose proof (fits0 sp a nq din dout orthogonal o0 I0 NE) as F. fold D O in F.
  destruct (value_near eigvalsh sqrtm OK sp a nq din dout orthogonal o0 I0 NE OR TP past n rho reg HP Hn CL (conj SQ DR)) as (r & t & E & T & B).
  destruct (marginal_states n (me rho) DR) as [S L]. destruct (ones OK I0 NE OR TP _ S) as (rs & ps & H1 & H2 & H3).
  exists r, rs. split; [exact E|]. split.
  - clear -H1 S. induction H1 as [|x y xs ys H1 _ IH]; [constructor|]. constructor; [|apply IH, (Forall_inv_tail S)]. destruct (Forall_inv S) as [A1 A2]. repeat split; first [apply A1|apply A2|exact H1].
  - pose proof (apart O D (arg_matrices a) n F TP IM (me rho) t ps DR T H2) as K. rewrite L in H3. fold D O N in B. cbv beta in B. unfold loss. lra.
Qed.
(** what n uses achieve per use, one use achieves *)
Theorem C101_one_use n rho : eigvalsh_ok eigvalsh -> kraus_init sp a nq din dout orthogonal = Ok o0 -> arg_matrices a <> [] -> sp = true \/ orthogonal = [] ->
  Forall (fun m => 1 <= m) past -> 1 <= n -> clean sp past n ->
  trace_preserving D (arg_matrices a) -> output_imitates O (arg_matrices a) -> is_square (D ^ n) rho -> density (D ^ n) (me rho) ->
  exists v sigma w, snd (coherent_information eigvalsh sqrtm (after (KrausType o0) past) rho n true) = Ok v /\ is_square D sigma /\ density D (me sigma) /\
    snd (coherent_information eigvalsh sqrtm (KrausType o0) sigma 1 false) = Ok w /\ (v <= w + loss n / INR n + INR O * slack)%R.
Proof.
  intros OK I0 NE OR HP Hn CL TP IM SQ DR. destruct (C101_apart n rho true OK I0 NE OR HP Hn CL TP IM SQ DR) as (r & rs & E & H & B).
  assert (G : forall (l : list (marr CC)) rs, Forall2 (fun sigma x => is_square D sigma /\ density D (me sigma) /\ information eigvalsh sqrtm (KrausType o0) sigma 1 false x) l rs -> l <> [] ->
    exists sigma w, is_square D sigma /\ density D (me sigma) /\ information eigvalsh sqrtm (KrausType o0) sigma 1 false w /\ (fold_right Rplus 0 rs <= INR (length l) * w)%R).
  { clear. intros l rs H. induction H as [|x y xs ys (A1 & A2 & A3) H IH]; [congruence|]. intros _. destruct xs as [|x' xs].
    - inversion H. exists x, y. repeat (split; [assumption|]). cbn. lra.
    - destruct IH as (z & w & B1 & B2 & B3 & B4); [discriminate|]. cbn [fold_right]. change (length (x :: x' :: xs)) with (S (length (x' :: xs))). rewrite S_INR.
      pose proof (pos_INR (length (x' :: xs))). destruct (Rle_dec y w).
      + exists z, w. repeat (split; [assumption|]). lra.
      + exists x, y. repeat (split; [assumption|]). nra. }
  destruct (marginal_states n (me rho) DR) as [_ L]. destruct (G _ _ H) as (sigma & w & A1 & A2 & A3 & A4); [intros Z; rewrite Z in L; cbn in L; lia|]. rewrite L in A4.
  exists (r / INR n)%R, sigma, w. split; [exact E|]. split; [exact A1|]. split; [exact A2|]. split; [exact A3|].
  assert (P : (0 < INR n)%R) by (apply lt_0_INR; lia). apply (Rmult_le_reg_r (INR n)); [exact P|]. unfold Rdiv. rewrite !Rmult_plus_distr_r, !(Rmult_assoc _ (/ INR n)), Rinv_l by lra. lra.
Qed.
(** ** C102 *)
Theorem C102_mixture n k c (Z : nat -> marr CC) rho reg : eigvalsh_ok eigvalsh -> kraus_init sp a nq din dout orthogonal = Ok o0 -> arg_matrices a <> [] -> sp = true \/ orthogonal = [] ->
  Forall (fun m => 1 <= m) past -> 1 <= n -> clean sp past n ->
  trace_preserving D (arg_matrices a) -> output_imitates O (arg_matrices a) ->
  (forall x, x < k -> (0 <= c x)%R /\ is_square (D ^ n) (Z x) /\ density (D ^ n) (me (Z x))) -> rsum k c = 1%R ->
  is_square (D ^ n) rho -> eqm (D ^ n) (D ^ n) (me rho) (mixture k c (fun x => me (Z x))) ->
  exists r v, information eigvalsh sqrtm (after (KrausType o0) past) rho n reg r /\
    (forall x, x < k -> information eigvalsh sqrtm (after (KrausType o0) past) (Z x) n reg (v x)) /\
    (rsum k (fun x => c x * v x) <= r + (INR (O ^ n) * slack + loss n))%R.
Proof.
  intros OK I0 NE OR HP Hn CL TP IM HZ HS SQ EQ. pose proof (fits0 sp a nq din dout orthogonal o0 I0 NE) as F. fold D O in F.
  assert (DR : density (D ^ n) (me rho)). { apply (density_ext _ (mixture k c (fun x => me (Z x)))); [apply eqm_sym, EQ|]. apply mix_density; [|exact HS]. intros x Hx. destruct (HZ x Hx) as (A1 & _ & A2). split; assumption. }
  destruct (value_near eigvalsh sqrtm OK sp a nq din dout orthogonal o0 I0 NE OR TP past n rho reg HP Hn CL (conj SQ DR)) as (r & tb & E & T & B). fold D O N in T, B. cbv beta in B.
  assert (G : exists v t, forall x, x < k -> information eigvalsh sqrtm (after (KrausType o0) past) (Z x) n reg (v x) /\ entropies (O ^ n) (power_ops (arg_matrices a) n) (me (Z x)) (t x) /\ (v x <= fst (t x) - snd (t x) + loss n)%R).
  { clear -OK I0 NE OR HP Hn CL TP HZ. induction k as [|k IH]; [exists (fun _ => 0%R), (fun _ => (0%R, 0%R)); intros; lia|]. destruct IH as (v & t & H); [intros; apply HZ; lia|].
    destruct (HZ k ltac:(lia)) as (_ & A1 & A2). destruct (value_near eigvalsh sqrtm OK sp a nq din dout orthogonal o0 I0 NE OR TP past n (Z k) reg HP Hn CL (conj A1 A2)) as (r & u & E & T & B).
    exists (fun x => if x =? k then r else v x), (fun x => if x =? k then u else t x). intros x Hx. destruct (Nat.eqb_spec x k) as [->|Ne]; [|apply H; lia]. split; [exact E|]. split; [exact T|]. unfold loss, N, O, D. lra. }
  destruct G as (v & t & G). exists r, v. split; [exact E|]. split; [intros x Hx; apply G, Hx|].
  assert (K := mixed O D (arg_matrices a) n k c (fun x => me (Z x)) t tb (me rho) F TP IM). cbv beta in K.
  specialize (K (fun x Hx => conj (proj1 (HZ x Hx)) (proj2 (proj2 (HZ x Hx)))) HS EQ (fun x Hx => proj1 (proj2 (G x Hx))) T).
  assert (M : (rsum k (fun x => c x * v x) <= rsum k (fun x => c x * (fst (t x) - snd (t x)) + c x * loss n))%R).
  { apply rsum_le. intros x Hx. destruct (HZ x Hx) as [C _]. destruct (G x Hx) as (_ & _ & V). nra. }
  rewrite rsum_add, rsum_scale_r, HS in M. unfold loss in *. lra.
Qed.
End C101.
Print Assumptions C101_apart.
Print Assumptions C101_one_use.
Print Assumptions C102_mixture.
(** phase damping: its environment learns part of the basis state, which the output still holds *)
Definition cst (x : R) : CC := (x, 0%R).
Definition damp_ops : kraus_arg CC := OpList [MA 2 2 (fun i j => if i =? j then cst (4 / 5) else s0); MA 2 2 (fun i j => if i =? j then cst (if i =? 0 then 3 / 5 else - (3 / 5)) else s0)]%R.
Lemma damp_tp : trace_preserving (K := CC) 2 (arg_matrices damp_ops).
Proof. intros i j Hi Hj. destruct i as [|[|i]]; [| |lia]; destruct j as [|[|j]]; try lia; apply CC_eq; cbn; lra. Qed.
Lemma damp_fits : fits 2 2 (arg_matrices damp_ops). Proof. repeat constructor. Qed.
Lemma damp_imitates : output_imitates 2 (arg_matrices damp_ops).
Proof.
  exists [MA 2 2 (fun i j => if j =? 0 then cst (if i =? 0 then 4 / 5 else 3 / 5) else s0); MA 2 2 (fun i j => if j =? 1 then cst (if i =? 0 then 4 / 5 else - (3 / 5)) else s0)]%R.
  split; [repeat constructor|]. split.
  - intros i j Hi Hj. destruct i as [|[|i]]; [| |lia]; destruct j as [|[|j]]; try lia; apply CC_eq; cbn; lra.
  - intros rho i j Hi Hj. cbn in Hi, Hj. destruct (rho 0 0) as [a0 a1] eqn:E0; destruct (rho 1 1) as [b0 b1] eqn:E1; destruct (rho 0 1) as [c0 c1] eqn:E2; destruct (rho 1 0) as [d0 d1] eqn:E3.
    destruct i as [|[|i]]; [| |lia]; destruct j as [|[|j]]; try lia; apply CC_eq; cbn; rewrite ?E0, ?E1, ?E2, ?E3; cbn; lra.
Qed.
Lemma damp_init sp : exists o0, kraus_init sp damp_ops (1, 1) 2 2 [] = Ok o0.
Proof.
  destruct (proj2 (chan_init_iff damp_ops (1, 1) 2 2 [] sp ltac:(discriminate))) as (c & E); [split; [exact damp_fits|apply tp_nearly, damp_tp]|].
  destruct (chan_init_made _ _ _ _ _ _ _ E) as (k & _ & EK). exists k. destruct sp; exact EK.
Qed.
(** an entangled input of two uses *)
Definition pair_state : marr CC := MA 4 4 (mm 1 (fun i _ => cst (if i =? 0 then 3 / 5 else if i =? 3 then 4 / 5 else 0)) (adj (fun i _ => cst (if i =? 0 then 3 / 5 else if i =? 3 then 4 / 5 else 0))))%R.
Lemma pair_density : density (2 ^ 2) (me pair_state).
Proof.
  assert (P : psd (2 ^ 2) (me pair_state)) by (apply psd_outer). split; [apply SpectralProofs.psd_hermitian, P|]. split; [exact P|]. apply CC_eq; cbn; lra.
Qed.
Example C101_case : exists eigvalsh o0 r x y, eigvalsh_ok eigvalsh /\ kraus_init false damp_ops (1, 1) 2 2 [] = Ok o0 /\
  information eigvalsh (fun A => A) (after (KrausType o0) [3; 1]) pair_state 2 true r /\
  Forall2 (fun sigma z => information eigvalsh (fun A => A) (KrausType o0) sigma 1 false z) (marginals 2 2 (me pair_state)) [x; y] /\ (r <= x + y + 8 * slack)%R.
Proof.
  destruct eigvalsh_exists as (ev & OK). destruct (damp_init false) as (o0 & H0).
  destruct (C101_apart ev (fun A => A) false damp_ops (1, 1) 2 2 [] o0 [3; 1] 2 pair_state true OK H0) as (r & rs & H1 & H2 & H3);
    try first [discriminate|right; reflexivity|repeat constructor; fail|lia|exact damp_tp|exact damp_imitates|exact pair_density|split; reflexivity]; try (intros _ H; discriminate H).
  inversion H2 as [|? x ? rs1 A1 A2]. inversion A2 as [|? y ? rs2 B1 B2]. inversion B2. subst. exists ev, o0, r, x, y. split; [exact OK|]. split; [exact H0|]. split; [exact H1|].
  split; [constructor; [apply A1|constructor; [apply B1|constructor]]|]. cbn in H3. lra.
Qed.
Definition basis_state (b : nat) : marr CC := MA 2 2 (fun i j => if (i =? b) && (j =? b) then s1 else s0).
Lemma basis_density b : b < 2 -> density (2 ^ 1) (me (basis_state b)).
Proof.
  intros Hb. assert (P : psd (2 ^ 1) (me (basis_state b))).
  { apply (psd_ext _ (mm 1 (fun i _ => if i =? b then s1 else s0) (adj (fun i _ => if i =? b then s1 else s0)))); [|apply psd_outer]. intros i j _ _. unfold mm, adj. cbn [bsum basis_state me]. destruct (i =? b), (j =? b); cbn [andb]; apply CC_eq; cbn; lra. }
  split; [apply SpectralProofs.psd_hermitian, P|]. split; [exact P|]. destruct b as [|[|b]]; [| |lia]; apply CC_eq; cbn; lra.
Qed.
Example C102_case : exists eigvalsh o0 r v, eigvalsh_ok eigvalsh /\ kraus_init true damp_ops (1, 1) 2 2 [] = Ok o0 /\
  information eigvalsh (fun A => A) (after (KrausType o0) [1]) (MA 2 2 (mixture 2 (fun x => if x =? 0 then 1 / 3 else 2 / 3) (fun x => me (basis_state x))))%R 1 false r /\
  (forall x, x < 2 -> information eigvalsh (fun A => A) (after (KrausType o0) [1]) (basis_state x) 1 false (v x)) /\ (1 / 3 * v 0%nat + 2 / 3 * v 1%nat <= r + 4 * slack)%R.
Proof.
  destruct eigvalsh_exists as (ev & OK). destruct (damp_init true) as (o0 & H0).
  destruct (C102_mixture ev (fun A => A) true damp_ops (1, 1) 2 2 [] o0 [1] 1 2 (fun x => if x =? 0 then 1 / 3 else 2 / 3)%R basis_state (MA 2 2 (mixture 2 (fun x => if x =? 0 then 1 / 3 else 2 / 3) (fun x => me (basis_state x))))%R false OK H0) as (r & v & H1 & H2 & H3);
    try first [discriminate|left; reflexivity|repeat constructor; fail|lia|exact damp_tp|exact damp_imitates|split; reflexivity|apply eqm_refl]; try (intros _ _; repeat constructor).
  - intros x Hx. split; [destruct (x =? 0); lra|]. split; [split; reflexivity|apply basis_density, Hx].
  - cbn. lra.
  - exists ev, o0, r, v. repeat (split; [assumption|]). cbn in H3. lra.
Qed.
