(** When the maximally mixed state is best for one use of the dephrasure channel, when the channel is useless, and the
    value of random orthogonal unitary matrices on the maximally mixed state (C130 to C132).
    Specification: DephSpec.v (optima_mixed_state_bound, useless_bound, random_unitary, shannon), KnownSpec.v (dephrasure, depolarising, binary_entropy).
    Model: ChannelModel.v, KrausModel.v, OptimModel.v.  [channel_of], [value_between] and [past] are as in PropsKnown.v, [reports_at_most] as in PropsPureFid.v. *)
From Verif Require Import Py Scalar PauliModel PauliSpec EncoderProofs EighExists Spectral SpectralProofs KrausModel KrausSpec KrausProofs KrausProofs2 KrausProofs3 KrausProofs4 KrausProofs5 KrausProofs6 KrausProofs8 KrausProofs9 KrausProofs12
  ChoiModel ChannelModel ChannelSpec ChoiSpec ChoiProofs ChoiProofs2 ChoiProofs3 SpectralExists EntropyProofs EntropySpec CohProofs CohProofs3 CohProofs4 ParamModel ParamSpec ParamProofs3 ParamProofs7 OptimModel OptimSpec OptimProofs OptimProofs2 OptimProofs3 KnownSpec KnownProofs KnownProofs2 KnownProofs3 KnownProofs4 Degradable PureFid DephSpec DephMax DephUseless HashProofs PropsKnown PropsPureFid.
From Verif Require PropsOptim PropsDegradable.
From Coq Require Import Reals Lra.
From Coq Require String.
Import String.StringSyntax.
Delimit Scope string_scope with string.
Open Scope nat_scope.
Open Scope K_scope.
Add Ring CCring67 : (s_rt CC).

Lemma mixed_corners : eqm 2 2 (me (corners (1 / 2) 2)) (me (mixed_state 2)).
Proof. intros [|[|i]] [|[|j]] Hi Hj; try lia; apply CC_eq; cbn; lra. Qed.
Lemma entropies_arg O D ops A B t : fits O D ops -> eqm D D A B -> entropies O ops A t -> entropies O ops B t.
Proof.
  intros F E [V1 V2]. split; [apply (von_ext _ _ _ _ (channel_map_same O D _ _ _ _ F (same_ops_refl _) E)), V1|].
  apply (von_ext (length ops) (exchange_entry ops A)); [|exact V2]. intros i j Hi Hj. apply (exchange_entry_same O D); auto. apply same_ops_refl.
Qed.
Lemma useless_pos p : (0 <= p <= 1 / 2)%R -> (0 <= useless_bound p)%R.
Proof. intros H. unfold useless_bound. apply Rmult_le_pos; [lra|]. apply Rlt_le, Rinv_0_lt_compat. lra. Qed.
Lemma dephrasure_mixed p q : (0 <= p <= 1)%R -> (0 <= q <= 1)%R ->
  entropies 3 (dephrasure p q) (me (mixed_state 2)) (binary_entropy q + (1 - q), binary_entropy q + q + (1 - q) * binary_entropy p)%R.
Proof.
  intros Hp Hq. pose proof (dephrasure_entropies p q (1 / 2) 1 Hp Hq ltac:(lra) (le_n 1)) as E. rewrite (Nat.pow_1_r 2), (Nat.pow_1_r 3) in E.
  pose proof (proj1 (entropies_one 3 2 (dephrasure p q) (me (corners (1 / 2) 2)) _ (dephrasure_fits p q)) ltac:(rewrite Nat.pow_1_r; exact E)) as G.
  assert (H2 : binary_entropy (1 / 2) = 1%R). { unfold binary_entropy. replace (1 - 1 / 2)%R with (/ 2)%R by lra. replace (1 / 2)%R with (/ 2)%R by lra. rewrite ln_Rinv by lra. field. pose proof ln_lt_2. lra. }
  assert (HS : binary_entropy ((1 + KnownProofs4.spread (1 / 2) (1 - 2 * p) 1) / 2) = binary_entropy p).
  { unfold KnownProofs4.spread. change (2 * 1)%nat with 2%nat. replace (1 - 4 * (1 / 2) * (1 - 1 / 2) * (1 - (1 - 2 * p) ^ 2))%R with ((1 - 2 * p)²)%R by (unfold Rsqr; field). rewrite sqrt_Rsqr_abs. unfold Rabs. destruct (Rcase_abs (1 - 2 * p)).
    - f_equal. lra.
    - replace ((1 + (1 - 2 * p)) / 2)%R with (1 - p)%R by lra. unfold binary_entropy. replace (1 - (1 - p))%R with p by lra. f_equal. ring. }
  rewrite H2, HS in G. cbn [INR pow] in G.
  replace (binary_entropy q + (1 - q))%R with (1 * binary_entropy q + (1 - q * 1) * 1)%R by ring.
  replace (binary_entropy q + q + (1 - q) * binary_entropy p)%R with (1 * binary_entropy q + (1 - (1 - q) * 1) * 1 + (1 - q) * 1 * binary_entropy p)%R by ring.
  apply (entropies_arg 3 2 _ _ _ _ (dephrasure_fits p q) mixed_corners). exact G.
Qed.

Section C130.
Variables (eigvalsh : marr CC -> list R) (sqrtm : marr CC -> marr CC) (s : scipy) (g : rng).
Hypothesis OKe : eigvalsh_ok eigvalsh.
Hypothesis SC : scipy_ok s.
(** ** C130 *)
Theorem C130_most p q sp c past rho reg : (0 < p < 1 / 2)%R -> (0 <= q <= optima_mixed_state_bound p)%R -> channel_of (dephrasure p q) sp c -> Forall (fun m => 1 <= m)%nat past -> clean sp past 1 -> is_square 2 rho -> density 2 (me rho) ->
  exists r, snd (coherent_information eigvalsh sqrtm (after c past) rho 1 reg) = Ok (if reg then r / INR 1 else r)%R /\ (r <= (1 - 2 * q) - (1 - q) * binary_entropy p + 4 * slack)%R.
Proof.
  intros Hp Hq C HP CL SQ DR. assert (Hq' : (0 <= q <= 1)%R) by (pose proof (bound_half p Hp); lra).
  destruct (entropies_exist 3 2 _ (me rho) (dephrasure_fits p q) (dephrasure_tp p q ltac:(lra) Hq') DR) as (t & V).
  destruct (known_one eigvalsh sqrtm OKe 3 2 _ sp c (dephrasure_fits p q) ltac:(discriminate) (dephrasure_tp p q ltac:(lra) Hq') C past rho reg t HP CL SQ DR V) as (r & E & B).
  exists r. split; [exact E|]. pose proof (dephrasure_one p q (me rho) t Hp Hq DR V). change (length (dephrasure p q)) with 4%nat in B. replace (INR 4) with 4%R in B by (cbn; lra). lra.
Qed.
Theorem C130_attained p q sp c past n reg : (0 <= p <= 1)%R -> (0 <= q <= 1)%R -> channel_of (dephrasure p q) sp c -> Forall (fun m => 1 <= m)%nat past -> (1 <= n)%nat -> clean sp past n ->
  let v := ((1 - 2 * q) - (1 - q) * binary_entropy p)%R in
  value_between eigvalsh sqrtm c past n (tens_all (repeat (mixed_state 2) n)) reg (INR n * v - INR (3 ^ n) * slack)%R (INR n * v + INR (4 ^ n) * slack)%R.
Proof.
  intros Hp Hq C HP Hn CL v. destruct (mixed_state_entropy 2 ltac:(lia)) as [DM _].
  pose proof (known_power eigvalsh sqrtm OKe 3 2 _ sp c (dephrasure_fits p q) ltac:(discriminate) (dephrasure_tp p q Hp Hq) C past n (mixed_state 2) reg _ HP Hn CL (conj eq_refl eq_refl) DM (dephrasure_mixed p q Hp Hq)) as H.
  cbn [fst snd] in H. change (length (dephrasure p q)) with 4%nat in H. replace (binary_entropy q + (1 - q) - (binary_entropy q + q + (1 - q) * binary_entropy p))%R with v in H by (unfold v; ring). exact H.
Qed.
Theorem C130_reported p q sp c past rank a name regularized c' o : (0 < p < 1 / 2)%R -> (0 <= q <= optima_mixed_state_bound p)%R -> channel_of (dephrasure p q) sp c -> Forall (fun m => 1 <= m)%nat past -> clean sp past 1 -> a_param a = PName name ->
  optimize_coherent eigvalsh sqrtm s g (after c past) 1 rank a regularized = (c', Ok o) ->
  reports_at_most o regularized 1 ((1 - 2 * q) - (1 - q) * binary_entropy p + 4 * slack)%R.
Proof.
  intros Hp Hq C HP CL HA. apply (reported eigvalsh sqrtm s g SC 3 2 _ sp c past 1 rank a name regularized c' o _ (dephrasure_fits p q) ltac:(discriminate) C HP (le_n 1) HA).
  intros rho S1 S2. rewrite Nat.pow_1_r in S1, S2. apply (C130_most p q sp); assumption.
Qed.

(** ** C131 *)
Theorem C131_useless p q sp c past n rho reg : (0 <= p <= 1 / 2)%R -> (useless_bound p <= q <= 1)%R -> channel_of (dephrasure p q) sp c -> Forall (fun m => 1 <= m)%nat past -> (1 <= n)%nat -> clean sp past n -> is_square (2 ^ n) rho -> density (2 ^ n) (me rho) ->
  exists r, snd (coherent_information eigvalsh sqrtm (after c past) rho n reg) = Ok (if reg then r / INR n else r)%R /\ (r <= INR (4 ^ n) * slack)%R.
Proof.
  intros Hp Hq C HP Hn CL SQ DR. assert (Hq' : (0 <= q <= 1)%R) by (pose proof (useless_pos p Hp); lra).
  apply (known_none eigvalsh sqrtm OKe 3 2 _ sp c (dephrasure_fits p q) ltac:(discriminate) (dephrasure_tp p q ltac:(lra) Hq') C past n rho reg HP Hn CL SQ DR (dephrasure_imitated p q Hp Hq)).
Qed.
Theorem C131_reported p q sp c past n rank a name regularized c' o : (0 <= p <= 1 / 2)%R -> (useless_bound p <= q <= 1)%R -> channel_of (dephrasure p q) sp c -> Forall (fun m => 1 <= m)%nat past -> (1 <= n)%nat -> clean sp past n -> a_param a = PName name ->
  optimize_coherent eigvalsh sqrtm s g (after c past) n rank a regularized = (c', Ok o) -> reports_at_most o regularized n (INR (4 ^ n) * slack)%R.
Proof.
  intros Hp Hq C HP Hn CL HA. apply (reported eigvalsh sqrtm s g SC 3 2 _ sp c past n rank a name regularized c' o _ (dephrasure_fits p q) ltac:(discriminate) C HP Hn HA).
  intros rho S1 S2. apply (C131_useless p q sp); assumption.
Qed.

(** ** C132 *)
Theorem C132_hashing D l sp c past n reg : (0 < D)%nat -> orthogonal_unitaries D l -> probabilities l -> channel_of (random_unitary D l) sp c -> Forall (fun m => 1 <= m)%nat past -> (1 <= n)%nat -> clean sp past n ->
  let v := (log2 (INR D) - shannon (map fst l))%R in
  value_between eigvalsh sqrtm c past n (tens_all (repeat (mixed_state D) n)) reg (INR n * v - INR (D ^ n) * slack)%R (INR n * v + INR (length l ^ n) * slack)%R.
Proof.
  intros HD OU PR C HP Hn CL v. destruct (mixed_state_entropy D HD) as [DM _].
  pose proof (known_power eigvalsh sqrtm OKe D D _ sp c (hash_fits D l) (hash_some D l PR) (hash_tp D l OU PR) C past n (mixed_state D) reg _ HP Hn CL (conj eq_refl eq_refl) DM (hash_entropies D l HD OU PR)) as H.
  cbn [fst snd] in H. replace (length (random_unitary D l)) with (length l) in H by (symmetry; apply map_length). exact H.
Qed.
Definition pauli_weights (p : R) : list (R * array CC) :=
  [((1 - p)%R, me (mat2 1 0 0 1)); ((p / 3)%R, me (mat2 0 1 1 0)); ((p / 3)%R, me (mat2 0 ((0, -1)%R : CC) ((0, 1)%R : CC) 0)); ((p / 3)%R, me (mat2 1 0 0 (- s1)))].
Lemma pauli_weights_ok p : (0 <= p <= 1)%R -> orthogonal_unitaries 2 (pauli_weights p) /\ probabilities (pauli_weights p).
Proof.
  intros Hp. split; [split|split].
  - repeat apply Forall_cons; try apply Forall_nil; (split; intros [|[|i]] [|[|j]] Hi Hj; try lia; apply CC_eq; cbn; ring).
  - intros i j L H. cbn [length pauli_weights] in H. destruct i as [|[|[|i]]], j as [|[|[|[|j]]]]; try lia; apply CC_eq; cbn; ring.
  - repeat apply Forall_cons; try apply Forall_nil; cbn [fst]; lra.
  - cbn. field.
Qed.
Lemma depolarising_random p : same_ops (random_unitary 2 (pauli_weights p)) (depolarising p).
Proof.
  repeat constructor; cbn [mr mc me]; intros [|[|i]] [|[|j]] Hi Hj; cbn [mr mc] in Hi, Hj; try lia; apply CC_eq; cbn; ring.
Qed.
Theorem C132_depolarising p sp c past n reg : (0 <= p <= 1)%R -> channel_of (depolarising p) sp c -> Forall (fun m => 1 <= m)%nat past -> (1 <= n)%nat -> clean sp past n ->
  let v := (1 - binary_entropy p - p * log2 3)%R in
  value_between eigvalsh sqrtm c past n (tens_all (repeat (mixed_state 2) n)) reg (INR n * v - INR (2 ^ n) * slack)%R (INR n * v + INR (4 ^ n) * slack)%R.
Proof.
  intros Hp C HP Hn CL v. destruct (pauli_weights_ok p Hp) as [OU PR].
  assert (C' : channel_of (random_unitary 2 (pauli_weights p)) sp c). { destruct C as (a & nq & din & dout & I & S). exists a, nq, din, dout. split; [exact I|]. apply (same_ops_trans _ _ _ S), same_ops_sym, depolarising_random. }
  pose proof (C132_hashing 2 (pauli_weights p) sp c past n reg ltac:(lia) OU PR C' HP Hn CL) as H. cbn zeta in H. change (length (pauli_weights p)) with 4%nat in H.
  replace (log2 (INR 2) - shannon (map fst (pauli_weights p)))%R with v in H; [exact H|].
  assert (L2 : (ln 2 <> 0)%R) by (pose proof ln_lt_2; lra). unfold v, log2, binary_entropy, shannon. cbn [map fst pauli_weights reals_sum fold_right]. replace (INR 2) with 2%R by (cbn; lra).
  destruct (Req_dec p 0) as [->|NZ]; [rewrite !Rminus_0_r; field; exact L2|].
  assert (L3 : ln (p / 3) = (ln p - ln 3)%R) by (unfold Rdiv; rewrite ln_mult, ln_Rinv by lra; reflexivity). rewrite L3. field. exact L2.
Qed.
End C130.
Print Assumptions C130_most.
Print Assumptions C130_attained.
Print Assumptions C130_reported.
Print Assumptions C131_useless.
Print Assumptions C131_reported.
Print Assumptions C132_hashing.
Print Assumptions C132_depolarising.

(** ** cases *)
(** optimize_coherent does return, for any channel on one qubit: differential evolution that looks at one point *)
Lemma returns ev sq O ops sp c regularized : eigvalsh_ok ev -> fits O 2 ops -> ops <> [] -> trace_preserving 2 ops -> channel_of ops sp c ->
  exists o, optimize_coherent ev sq PropsOptim.lazy_scipy PropsOptim.one_rng c 1 1 evol2 regularized = (c, Ok o).
Proof.
  intros OE F NE T C.
  assert (N2 : chan_n c = 1%nat). { destruct C as (a & nq & din & dout & I & S). destruct (chan_init_made _ _ _ _ _ _ _ I) as (k & -> & K). exact (kraus_init_n _ _ _ _ _ _ _ K). }
  assert (U2 : update_channel_tensored c 1 = (c, Ok tt)) by (unfold update_channel_tensored; destruct c; cbn in N2 |- *; [rewrite N2|]; reflexivity).
  assert (D2 : input_dimension c = 2%nat) by (apply (used_dim O 2 ops sp c [] 1 c tt F NE C ltac:(constructor) (le_n 1)); exact U2).
  destruct (over_density two_vec 2 1) as (rho & E & _); [lia|reflexivity|exists 1%R; split; [left; reflexivity|lra]|]. destruct (over_result _ _ _ _ E) as (Q & DS & RK).
  destruct (entropies_exist O 2 ops (me rho) F T DS) as (t & V).
  destruct (known_one ev sq OE O 2 ops sp c F NE T C [] rho false t ltac:(constructor) ltac:(intros _ _; constructor) Q DS V) as (x & X1 & _). cbn [after fold_left] in X1.
  assert (F2 : obj_coherent ev sq 2 1 (OverParam PropsOptim.one_rng) 1 c two_vec = (c, Ok (- x)%R)).
  { unfold obj_coherent. cbn [OverParam p_rho]. rewrite E. pose proof (coherent_steady ev sq c rho 1 false (update_set_to _ _ _ _ U2)) as ST. destruct (coherent_information ev sq c rho 1 false) as [d q]. cbn [fst snd] in *. subst d q. reflexivity. }
  unfold optimize_coherent. rewrite U2. unfold optimize_procedure. change (procedure_checks ev sq PropsOptim.one_rng "coherent"%string evol2) with (Ok (OverParam PropsOptim.one_rng, obj_coherent ev sq)). cbn iota. rewrite D2. cbn [p_bounds OverParam].
  unfold procedure_samples. change (as_int (a_lipschitz evol2) =? 0)%Z with true. cbn iota. unfold procedure_run. change (a_samples evol2) with [two_vec]. cbn [String.eqb a_optimizer evol2 Ascii.eqb Bool.eqb].
  unfold optimize_differential_evol. cbn [diffev PropsOptim.lazy_scipy]. rewrite F2. cbn [bind r_fun r_x r_success]. unfold procedure_output. cbn [String.eqb Ascii.eqb Bool.eqb bind OverParam p_rho]. rewrite E. cbn [bind]. destruct regularized; eexists; reflexivity.
Qed.
Lemma ln9 : (ln 9 <= 4)%R.
Proof.
  replace 9%R with (3 * 3)%R by ring. rewrite ln_mult by lra. assert (H : (ln 3 < 2)%R). { rewrite <- (ln_exp 2). apply ln_increasing; [lra|]. pose proof (exp_ineq1 2 ltac:(lra)). lra. } lra.
Qed.
(** dephasing 1/10 and erasure 1/20: below the bound; the optimiser returns at most the value of the maximally mixed state *)
Example C130_case : (0 <= 1 / 20 <= optima_mixed_state_bound (1 / 10))%R /\ exists eigvalsh sqrtm c o, eigvalsh_ok eigvalsh /\ channel_of (dephrasure (1 / 10) (1 / 20)) true c /\
  value_between eigvalsh sqrtm c [] 1 (tens_all (repeat (mixed_state 2) 1)) true (INR 1 * (9 / 10 - 19 / 20 * binary_entropy (1 / 10)) - INR (3 ^ 1) * slack)%R (INR 1 * (9 / 10 - 19 / 20 * binary_entropy (1 / 10)) + INR (4 ^ 1) * slack)%R /\
  optimize_coherent eigvalsh sqrtm PropsOptim.lazy_scipy PropsOptim.one_rng c 1 1 evol2 true = (c, Ok o) /\ reports_at_most o true 1 (9 / 10 - 19 / 20 * binary_entropy (1 / 10) + 4 * slack)%R.
Proof.
  assert (B : (0 <= 1 / 20 <= optima_mixed_state_bound (1 / 10))%R).
  { split; [lra|]. unfold optima_mixed_state_bound. replace ((1 - 1 / 10) / (1 / 10))%R with 9%R by field. pose proof ln9 as L. pose proof (ln_increasing 1 9 ltac:(lra) ltac:(lra)) as P. rewrite ln_1 in P.
    apply (Rmult_le_reg_r (2 - 4 * (1 / 10) - 2 * (1 / 10) * (1 - 1 / 10) * ln 9)); [lra|]. set (u := (2 - 4 * (1 / 10) - 2 * (1 / 10) * (1 - 1 / 10) * ln 9)%R). set (w := (1 - 2 * (1 / 10) - 2 * (1 / 10) * (1 - 1 / 10) * ln 9)%R). replace (w / u * u)%R with w by (field; unfold u; lra). unfold u, w. lra. }
  split; [exact B|]. destruct eigvalsh_exists as (ev & OE). pose proof (dephrasure_tp (1 / 10) (1 / 20) ltac:(lra) ltac:(lra)) as T.
  destruct (channel_exists 3 2 _ true (dephrasure_fits (1 / 10) (1 / 20)) ltac:(discriminate) T) as (c & C).
  destruct (returns ev (fun A => A) 3 _ true c true OE (dephrasure_fits (1 / 10) (1 / 20)) ltac:(discriminate) T C) as (o & R).
  exists ev, (fun A => A), c, o. split; [exact OE|]. split; [exact C|]. split; [|split; [exact R|]].
  - replace (9 / 10 - 19 / 20 * binary_entropy (1 / 10))%R with (1 - 2 * (1 / 20) - (1 - 1 / 20) * binary_entropy (1 / 10))%R by field.
    apply (C130_attained ev (fun A => A) OE (1 / 10) (1 / 20) true c [] 1 true ltac:(lra) ltac:(lra) C); [constructor|lia|intros _ _; constructor].
  - replace (9 / 10 - 19 / 20 * binary_entropy (1 / 10) + 4 * slack)%R with (1 - 2 * (1 / 20) - (1 - 1 / 20) * binary_entropy (1 / 10) + 4 * slack)%R by field.
    apply (C130_reported ev (fun A => A) PropsOptim.lazy_scipy PropsOptim.one_rng OE PropsOptim.lazy_ok (1 / 10) (1 / 20) true c [] 1 evol2 "overparam"%string true c o ltac:(lra) B C); [constructor|intros _ _; constructor|reflexivity|exact R].
Qed.
(** dephasing 1/4: useless from 1/3 on, although fewer than half of the systems are lost *)
Example C131_case : useless_bound (1 / 4) = (1 / 3)%R /\ exists eigvalsh sqrtm c o, eigvalsh_ok eigvalsh /\ channel_of (dephrasure (1 / 4) (1 / 3)) false c /\
  optimize_coherent eigvalsh sqrtm PropsOptim.lazy_scipy PropsOptim.one_rng c 1 1 evol2 false = (c, Ok o) /\ reports_at_most o false 1 (INR (4 ^ 1) * slack)%R.
Proof.
  assert (B : useless_bound (1 / 4) = (1 / 3)%R) by (unfold useless_bound; field).
  split; [exact B|]. destruct eigvalsh_exists as (ev & OE). pose proof (dephrasure_tp (1 / 4) (1 / 3) ltac:(lra) ltac:(lra)) as T.
  destruct (channel_exists 3 2 _ false (dephrasure_fits (1 / 4) (1 / 3)) ltac:(discriminate) T) as (c & C).
  destruct (returns ev (fun A => A) 3 _ false c false OE (dephrasure_fits (1 / 4) (1 / 3)) ltac:(discriminate) T C) as (o & R).
  exists ev, (fun A => A), c, o. split; [exact OE|]. split; [exact C|]. split; [exact R|].
  apply (C131_reported ev (fun A => A) PropsOptim.lazy_scipy PropsOptim.one_rng OE PropsOptim.lazy_ok (1 / 4) (1 / 3) false c [] 1 1 evol2 "overparam"%string false c o ltac:(lra) ltac:(rewrite B; lra) C); [constructor|lia|intros H; discriminate H|reflexivity|exact R].
Qed.
(** the four Pauli matrices with equal probability: 1 - 2 = -1 for every use *)
Example C132_case : orthogonal_unitaries 2 (pauli_weights (3 / 4)) /\ probabilities (pauli_weights (3 / 4)) /\ exists eigvalsh sqrtm c, eigvalsh_ok eigvalsh /\ channel_of (depolarising (3 / 4)) true c /\
  value_between eigvalsh sqrtm c [5; 1]%nat 3 (tens_all (repeat (mixed_state 2) 3)) false (- 3 - INR (2 ^ 3) * slack)%R (- 3 + INR (4 ^ 3) * slack)%R.
Proof.
  destruct (pauli_weights_ok (3 / 4) ltac:(lra)) as [OU PR]. split; [exact OU|]. split; [exact PR|]. destruct eigvalsh_exists as (ev & OE).
  destruct (channel_exists 2 2 _ true (depolarising_fits (3 / 4)) ltac:(discriminate) (depolarising_tp (3 / 4) ltac:(lra))) as (c & C).
  exists ev, (fun A => A), c. split; [exact OE|]. split; [exact C|].
  replace (-3)%R with (INR 3 * (1 - binary_entropy (3 / 4) - 3 / 4 * log2 3))%R.
  - apply (C132_depolarising ev (fun A => A) OE (3 / 4) true c [5; 1]%nat 3 false ltac:(lra) C); [repeat constructor|lia|intros _ H; discriminate H].
  - assert (L2 : (ln 2 <> 0)%R) by (pose proof ln_lt_2; lra). unfold binary_entropy, log2. replace (1 - 3 / 4)%R with (/ (2 * 2))%R by field. replace (3 / 4)%R with (3 * / (2 * 2))%R by field.
    rewrite ln_mult, !ln_Rinv, ln_mult by lra. replace (INR 3) with 3%R by (cbn; lra). field. exact L2.
Qed.
