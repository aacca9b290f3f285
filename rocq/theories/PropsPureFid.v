(** The least fidelity of known channels over pure states, and what the optimisers can report (C128, C129).
    Specification: KnownSpec.v (channels), ChoiSpec.v (pure, unit_vector), OptimSpec.v (scipy_ok).  Model: ChannelModel.v, KrausModel.v, OptimModel.v.
    [channel_of], [value_between] and [past] are as in PropsKnown.v. *)
From Verif Require Import Py Scalar PauliModel PauliSpec EncoderProofs EighExists Spectral SpectralProofs KrausModel KrausSpec KrausProofs KrausProofs2 KrausProofs3 KrausProofs4 KrausProofs5 KrausProofs6 KrausProofs8 KrausProofs9 KrausProofs12
  ChoiModel ChannelModel ChannelSpec ChoiSpec ChoiProofs ChoiProofs2 ChoiProofs3 SpectralExists EntropyProofs EntropySpec CohProofs CohProofs3 CohProofs4 ParamModel ParamSpec ParamProofs3 ParamProofs7 OptimModel OptimSpec OptimProofs OptimProofs2 OptimProofs3 KnownSpec KnownProofs KnownProofs2 KnownProofs3 PureFid PropsKnown.
From Verif Require PropsOptim PropsDegradable.
From Coq Require Import Reals Lra.
From Coq Require String.
Import String.StringSyntax.
Delimit Scope string_scope with string.
Open Scope nat_scope.
Open Scope K_scope.
Add Ring CCring63 : (s_rt CC).

Notation ket b := (PropsDegradable.basis_state b).
Definition basis (b : nat) : nat -> CC := fun i => if Nat.eqb i b then 1 else 0.
Lemma basis_unit b : (b < 2)%nat -> unit_vector 2 (basis b).
Proof. intros H. destruct b as [|[|b]]; [| |lia]; apply CC_eq; cbn; ring. Qed.
Lemma basis_pure b : eqm 2 2 (me (ket b)) (pure (basis b)).
Proof. intros i j _ _. unfold pure, basis. cbn [PropsDegradable.basis_state me]. destruct (Nat.eqb i b), (Nat.eqb j b); apply CC_eq; cbn; ring. Qed.
Lemma sq1 p : (0 <= p <= 1)%R -> (sqrt (1 - p) * sqrt (1 - p) = 1 - p)%R. Proof. intros H. apply sqrt_sqrt. lra. Qed.
Lemma sq1_le p : (0 <= p <= 1)%R -> (0 <= sqrt (1 - p) <= 1)%R.
Proof. intros H. split; [apply sqrt_pos|]. apply Rle_trans with (sqrt 1); [apply sqrt_le_1_alt; lra|rewrite sqrt_1; lra]. Qed.

Section C128.
Variable sqrtm : marr CC -> marr CC.
Hypothesis OK : sqrtm_ok sqrtm.
(** ** C128: every pure state of n qubits keeps at least this fidelity, and one state has it *)
Theorem C128_bit_flip p sp c past n rho v : (0 <= p <= 1)%R -> channel_of (bit_flip p) sp c -> Forall (fun m => 1 <= m)%nat past -> (1 <= n)%nat -> clean sp past n ->
  is_square (2 ^ n) rho -> unit_vector (2 ^ n) v -> eqm (2 ^ n) (2 ^ n) (me rho) (pure v) ->
  exists x, snd (fidelity_two_states sqrtm (after c past) rho n) = Ok x /\ (sqrt (1 - p) ^ n <= x <= 1)%R.
Proof.
  intros Hp C HP Hn CL SQ U E. apply (pure_above sqrtm OK 2 (bit_flip p) sp c (bit_flip_fits p) ltac:(discriminate) (bit_flip_tp p Hp) C (mat2 (rt (1 - p)) 0 0 (rt (1 - p))) (sqrt (1 - p)) past n rho v); try assumption.
  - left. reflexivity.
  - apply sqrt_pos.
  - split; [intros i j Hi Hj N; destruct i as [|[|i]]; [| |lia]; destruct j as [|[|j]]; try lia; reflexivity|]. intros i Hi. exists (sqrt (1 - p)). split; [lra|]. destruct i as [|[|i]]; [| |lia]; reflexivity.
Qed.
Theorem C128_bit_flip_attained p sp c past n : (0 <= p <= 1)%R -> channel_of (bit_flip p) sp c -> Forall (fun m => 1 <= m)%nat past -> (1 <= n)%nat -> clean sp past n ->
  snd (fidelity_two_states sqrtm (after c past) (tens_all (repeat (ket 0) n)) n) = Ok (sqrt (1 - p) ^ n)%R.
Proof.
  intros Hp C HP Hn CL. apply (pure_power sqrtm OK 2 (bit_flip p) sp c (bit_flip_fits p) ltac:(discriminate) (bit_flip_tp p Hp) C past n (ket 0) (basis 0) (1 - p)%R HP Hn CL (conj eq_refl eq_refl) (basis_unit 0 ltac:(lia)) (basis_pure 0)).
  pose proof (sq1 p Hp) as Q. unfold reals_sum. cbn [map bit_flip fold_right]. rewrite !Cmod_sq. unfold expectation. cbn. cbn in Q. set (s := sqrt (1 - p)) in *. transitivity (s * s)%R; [ring|exact Q].
Qed.
Theorem C128_damping p sp c past n rho v : (0 <= p <= 1)%R -> channel_of (amplitude_damping p) sp c -> Forall (fun m => 1 <= m)%nat past -> (1 <= n)%nat -> clean sp past n ->
  is_square (2 ^ n) rho -> unit_vector (2 ^ n) v -> eqm (2 ^ n) (2 ^ n) (me rho) (pure v) ->
  exists x, snd (fidelity_two_states sqrtm (after c past) rho n) = Ok x /\ (sqrt (1 - p) ^ n <= x <= 1)%R.
Proof.
  intros Hp C HP Hn CL SQ U E. apply (pure_above sqrtm OK 2 (amplitude_damping p) sp c (damping_fits p) ltac:(discriminate) (damping_tp p Hp) C (mat2 1 0 0 (rt (1 - p))) (sqrt (1 - p)) past n rho v); try assumption.
  - left. reflexivity.
  - apply sqrt_pos.
  - split; [intros i j Hi Hj N; destruct i as [|[|i]]; [| |lia]; destruct j as [|[|j]]; try lia; reflexivity|]. pose proof (sq1_le p Hp). intros i Hi. destruct i as [|[|i]]; [exists 1%R; split; [lra|reflexivity]|exists (sqrt (1 - p)); split; [lra|reflexivity]|lia].
Qed.
Theorem C128_damping_attained p sp c past n : (0 <= p <= 1)%R -> channel_of (amplitude_damping p) sp c -> Forall (fun m => 1 <= m)%nat past -> (1 <= n)%nat -> clean sp past n ->
  snd (fidelity_two_states sqrtm (after c past) (tens_all (repeat (ket 1) n)) n) = Ok (sqrt (1 - p) ^ n)%R.
Proof.
  intros Hp C HP Hn CL. apply (pure_power sqrtm OK 2 (amplitude_damping p) sp c (damping_fits p) ltac:(discriminate) (damping_tp p Hp) C past n (ket 1) (basis 1) (1 - p)%R HP Hn CL (conj eq_refl eq_refl) (basis_unit 1 ltac:(lia)) (basis_pure 1)).
  pose proof (sq1 p Hp) as Q. unfold reals_sum. cbn [map amplitude_damping fold_right]. rewrite !Cmod_sq. unfold expectation. cbn. cbn in Q. set (s := sqrt (1 - p)) in *. transitivity (s * s)%R; [ring|exact Q].
Qed.
(** the depolarising channel treats all pure qubits alike *)
Lemma depolarising_fits p : fits 2 2 (depolarising p). Proof. repeat constructor. Qed.
Lemma sq3 p : (0 <= p <= 1)%R -> (sqrt (p / 3) * sqrt (p / 3) = p / 3)%R. Proof. intros H. apply sqrt_sqrt. lra. Qed.
Lemma depolarising_tp p : (0 <= p <= 1)%R -> trace_preserving 2 (depolarising p).
Proof.
  intros Hp i j Hi Hj. pose proof (sq1 p Hp) as Q1. pose proof (sq3 p Hp) as Q2. unfold mm, adj, eye. destruct i as [|[|i]]; [| |lia]; destruct j as [|[|j]]; try lia; apply CC_eq; cbn; cbn in Q1, Q2; lra.
Qed.
Lemma depolarising_sum p v : (0 <= p <= 1)%R -> unit_vector 2 v -> reals_sum (map (fun A => Cmod (expectation 2 (me A) v) ^ 2)%R (depolarising p)) = (1 - 2 * p / 3)%R.
Proof.
  intros Hp U. unfold unit_vector in U. destruct (v 0%nat) as [a b] eqn:E0, (v 1%nat) as [d e] eqn:E1. cbn [bsum] in U. rewrite E0, E1 in U. apply (f_equal fst) in U. cbn in U.
  assert (N : (a * a + b * b + d * d + e * e = 1)%R) by lra. pose proof (sq1 p Hp) as Q1. pose proof (sq3 p Hp) as Q2.
  unfold reals_sum. cbn [map depolarising fold_right]. rewrite !Cmod_sq. unfold expectation. cbn [bsum]. rewrite E0, E1. cbn. cbn in Q1, Q2. set (s := sqrt (1 - p)) in *. set (t := sqrt (p / 3)) in *.
  transitivity (s * s * ((a * a + b * b + d * d + e * e) * (a * a + b * b + d * d + e * e)) + t * t * ((a * a + b * b + d * d + e * e) * (a * a + b * b + d * d + e * e)))%R; [ring|].
  rewrite N, Q1, Q2. field.
Qed.
Theorem C128_depolarising p sp c past rho v : (0 <= p <= 1)%R -> channel_of (depolarising p) sp c -> Forall (fun m => 1 <= m)%nat past -> clean sp past 1 ->
  is_square 2 rho -> unit_vector 2 v -> eqm 2 2 (me rho) (pure v) ->
  snd (fidelity_two_states sqrtm (after c past) rho 1) = Ok (sqrt (1 - 2 * p / 3)).
Proof.
  intros Hp C HP CL SQ U E. pose proof (pure_power sqrtm OK 2 (depolarising p) sp c (depolarising_fits p) ltac:(discriminate) (depolarising_tp p Hp) C) as G.
  destruct (pure_value sqrtm OK 2 (depolarising p) sp c (depolarising_fits p) ltac:(discriminate) (depolarising_tp p Hp) C past 1 rho v HP (le_n 1) CL SQ U E) as [_ V]. rewrite V. f_equal. f_equal. clear V G.
  apply rc_inj. rewrite <- (expect_sum (2 ^ 1) (power_ops (depolarising p) 1) v) by apply fits_power, depolarising_fits. rewrite <- (depolarising_sum p v Hp U), <- (expect_sum 2 (depolarising p) v) by apply depolarising_fits.
  apply quad_ext, eqm_sym, (channel_map_same 2 2); [apply depolarising_fits|apply power_ops_1|apply eqm_refl].
Qed.
Theorem C128_depolarising_copies p sp c past n sigma v : (0 <= p <= 1)%R -> channel_of (depolarising p) sp c -> Forall (fun m => 1 <= m)%nat past -> (1 <= n)%nat -> clean sp past n ->
  is_square 2 sigma -> unit_vector 2 v -> eqm 2 2 (me sigma) (pure v) ->
  snd (fidelity_two_states sqrtm (after c past) (tens_all (repeat sigma n)) n) = Ok (sqrt (1 - 2 * p / 3) ^ n)%R.
Proof.
  intros Hp C HP Hn CL SQ U E. apply (pure_power sqrtm OK 2 (depolarising p) sp c (depolarising_fits p) ltac:(discriminate) (depolarising_tp p Hp) C past n sigma v _ HP Hn CL SQ U E). apply depolarising_sum; assumption.
Qed.
End C128.
Print Assumptions C128_bit_flip.
Print Assumptions C128_bit_flip_attained.
Print Assumptions C128_damping.
Print Assumptions C128_damping_attained.
Print Assumptions C128_depolarising.
Print Assumptions C128_depolarising_copies.

(** ** C129 *)
Lemma used_dim O D ops sp c past n c1 u : fits O D ops -> ops <> [] -> channel_of ops sp c -> Forall (fun m => 1 <= m)%nat past -> (1 <= n)%nat ->
  update_channel_tensored (after c past) n = (c1, Ok u) -> input_dimension c1 = (D ^ n)%nat.
Proof.
  intros F NE (a & nq & din & dout & I & S) HP Hn EU. destruct (chan_init_made _ _ _ _ _ _ _ I) as (k & -> & K).
  assert (NA : arg_matrices a <> []) by (apply (same_nonempty ops); [apply same_ops_sym, S|exact NE]).
  assert (I0 : kraus_init sp a nq din dout [] = Ok k) by (destruct sp; exact K). pose proof (fits0 sp a nq din dout [] k I0 NA) as F0.
  assert (FA : fits O D (arg_matrices a)) by (apply (same_ops_fits _ _ ops); [apply same_ops_sym, S|exact F]).
  assert (ED : (din ^ fst nq)%nat = D). { destruct (arg_matrices a) as [|A l]; [congruence|]. destruct (Forall_inv F0) as [A1 A2], (Forall_inv FA) as [B1 B2]. lia. }
  destruct (made _ _ _ _ _ _ _ I0 NA) as (SO & _).
  destruct (after_static k (past ++ [n])) as (o & E & ST); [apply Forall_app; split; [exact HP|repeat constructor; exact Hn]|exact SO|].
  assert (E1 : c1 = KrausType o). { rewrite <- E. unfold after. rewrite fold_left_app. cbn [fold_left]. fold (after (KrausType k) past). rewrite EU. reflexivity. }
  pose proof (update_set_to _ _ _ _ EU) as N. subst c1. cbn in N. cbn [input_dimension]. unfold input_dim. destruct ST as (_ & _ & _ & Q1 & Q2 & _). rewrite N, Q1, Q2.
  apply kraus_init_ok in I0. destruct I0 as (x & _ & _ & ->). cbn [built numb_qubits dim_in]. rewrite ED. reflexivity.
Qed.
Lemma pure_of_rank d A : (1 <= d)%nat -> density d A -> rank_at_most d 1 A -> exists v, unit_vector d v /\ eqm d d A (pure v).
Proof.
  intros Hd (_ & P & T) R. destruct (rank_factor d 1 A P R Hd) as (B & E). exists (fun i => B i 0%nat).
  assert (E' : eqm d d A (pure (fun i => B i 0%nat))) by (intros i j Hi Hj; rewrite (E i j Hi Hj); unfold mm, adj, pure; cbn [bsum]; ring).
  split; [|exact E']. unfold unit_vector. rewrite <- T, (tr_eqm _ _ _ E'). unfold tr, pure. apply bsum_ext. intros i _. ring.
Qed.
Section C129.
Variables (eigvalsh : marr CC -> list R) (sqrtm : marr CC -> marr CC) (s : scipy) (g : rng).
Hypothesis OKe : eigvalsh_ok eigvalsh.
Hypothesis OKs : sqrtm_ok sqrtm.
Hypothesis SC : scipy_ok s.
(** optimize_coherent returned a number that is, after dividing by n if asked to, at most y *)
Definition reports_at_most (o : output) (regularized : bool) (n : nat) (y : R) : Prop :=
  exists r, o_val o = Float (if regularized then r / INR n else r)%R /\ (r <= y)%R.
Lemma reported O D ops sp c past n rank a name regularized c' o y : fits O D ops -> ops <> [] -> channel_of ops sp c -> Forall (fun m => 1 <= m)%nat past -> (1 <= n)%nat -> a_param a = PName name ->
  (forall rho, is_square (D ^ n) rho -> density (D ^ n) (me rho) -> exists r, snd (coherent_information eigvalsh sqrtm (after c past) rho n regularized) = Ok (if regularized then r / INR n else r)%R /\ (r <= y)%R) ->
  optimize_coherent eigvalsh sqrtm s g (after c past) n rank a regularized = (c', Ok o) -> reports_at_most o regularized n y.
Proof.
  intros F NE C HP Hn HA B H. destruct (PropsOptim.C57_coherent _ _ _ _ _ _ _ _ _ _ _ SC H) as (E & v & V1 & V2 & _). destruct (PropsOptim.C72_coherent _ _ _ _ _ _ _ _ _ _ _ _ SC HA H) as (Q1 & Q2 & _).
  assert (U : exists u, update_channel_tensored (after c past) n = (c', Ok u)). { unfold optimize_coherent in H. destruct (update_channel_tensored (after c past) n) as [c1 [u|e]]; [|discriminate]. cbn [fst] in E. subst c'. exists u. reflexivity. }
  destruct U as (u & U). rewrite (used_dim O D ops sp c past n c' u F NE C HP Hn U) in Q1, Q2. destruct (B _ Q1 Q2) as (r & R1 & R2). exists r. split; [|exact R2]. rewrite V1. f_equal. rewrite V2 in R1. injection R1 as ->. reflexivity.
Qed.
Theorem C129_erasure q D sp c past n rank a name regularized c' o : (0 <= q <= 1)%R -> channel_of (erasure q D) sp c -> Forall (fun m => 1 <= m)%nat past -> (1 <= n)%nat -> clean sp past n -> a_param a = PName name ->
  optimize_coherent eigvalsh sqrtm s g (after c past) n rank a regularized = (c', Ok o) ->
  reports_at_most o regularized n (INR n * (Rmax 0 (1 - 2 * q) * log2 (INR D)) + INR ((D + 1) ^ n) * slack)%R.
Proof.
  intros Hq C HP Hn CL HA. apply (reported (D + 1) D _ sp c past n rank a name regularized c' o _ (erasure_fits q D) (erasure_some q D) C HP Hn HA). intros rho S1 S2. apply (C123_most eigvalsh sqrtm OKe q D sp); assumption.
Qed.
Theorem C129_bit_flip p sp c past n rank a name regularized c' o : (0 <= p <= 1)%R -> channel_of (bit_flip p) sp c -> Forall (fun m => 1 <= m)%nat past -> (1 <= n)%nat -> clean sp past n -> a_param a = PName name ->
  optimize_coherent eigvalsh sqrtm s g (after c past) n rank a regularized = (c', Ok o) ->
  reports_at_most o regularized n (INR n * (1 - binary_entropy p) + INR (2 ^ n) * slack)%R.
Proof.
  intros Hp C HP Hn CL HA. apply (reported 2 2 _ sp c past n rank a name regularized c' o _ (bit_flip_fits p) (bit_flip_some p) C HP Hn HA). intros rho S1 S2. apply (C124_most eigvalsh sqrtm OKe p sp); assumption.
Qed.
Theorem C129_damping p v sp c past n rank a name regularized c' o : (0 <= p <= 1)%R -> (0 <= v)%R -> (forall x, (0 <= x <= 1)%R -> (damping_value p x <= v)%R) ->
  channel_of (amplitude_damping p) sp c -> Forall (fun m => 1 <= m)%nat past -> (1 <= n)%nat -> clean sp past n -> a_param a = PName name ->
  optimize_coherent eigvalsh sqrtm s g (after c past) n rank a regularized = (c', Ok o) ->
  reports_at_most o regularized n (INR n * v + INR (2 ^ n) * slack)%R.
Proof.
  intros Hp Hv B C HP Hn CL HA. apply (reported 2 2 _ sp c past n rank a name regularized c' o _ (damping_fits p) (damping_some p) C HP Hn HA). intros rho S1 S2.
  destruct (Rle_dec p (1 / 2)) as [L|L]; [apply (C125_most eigvalsh sqrtm OKe p v sp); try assumption; lra|].
  destruct (C125_useless eigvalsh sqrtm OKe p sp c past n rho regularized) as (r & R1 & R2); try assumption; [lra|]. exists r. split; [exact R1|]. pose proof (pos_INR n). pose proof (Rmult_le_pos _ _ H Hv). lra.
Qed.
(** optimize_fidelity *)
Lemma reported_fidelity O D ops sp c past n a name c' o : fits O D ops -> ops <> [] -> (1 <= D)%nat -> channel_of ops sp c -> Forall (fun m => 1 <= m)%nat past -> (1 <= n)%nat -> a_param a = PName name ->
  a_optimizer a = "diffev"%string \/ as_int (a_use_pool a) <> 0%Z ->
  optimize_fidelity eigvalsh sqrtm s g (after c past) n a = (c', Ok o) ->
  exists x v, o_val o = Float x /\ is_square (D ^ n) (o_rho o) /\ unit_vector (D ^ n) v /\ eqm (D ^ n) (D ^ n) (me (o_rho o)) (pure v) /\ snd (fidelity_two_states sqrtm (after c past) (o_rho o) n) = Ok x.
Proof.
  intros F NE HD C HP Hn HA HO H. destruct (PropsOptim.C57_fidelity _ _ _ _ _ _ _ _ _ SC HO H) as (E & v & V1 & V2 & _). destruct (PropsOptim.C72_fidelity _ _ _ _ _ _ _ _ _ _ SC HA H) as (Q1 & Q2 & Q3).
  assert (U : exists u, update_channel_tensored (after c past) n = (c', Ok u)). { unfold optimize_fidelity in H. destruct (update_channel_tensored (after c past) n) as [c1 [u|e]]; [|discriminate]. cbn [fst] in E. subst c'. exists u. reflexivity. }
  destruct U as (u & U). rewrite (used_dim O D ops sp c past n c' u F NE C HP Hn U) in Q1, Q2, Q3.
  destruct (pure_of_rank (D ^ n) (me (o_rho o))) as (w & W1 & W2); [|exact Q2|exact Q3|]. { pose proof (Nat.pow_nonzero D n). lia. }
  exists v, w. repeat split; try assumption; apply Q1.
Qed.
(** the optimiser's number, whatever scipy and the random generator do *)
Theorem C129_fidelity_bit_flip p sp c past n a name c' o : (0 <= p <= 1)%R -> channel_of (bit_flip p) sp c -> Forall (fun m => 1 <= m)%nat past -> (1 <= n)%nat -> clean sp past n -> a_param a = PName name ->
  a_optimizer a = "diffev"%string \/ as_int (a_use_pool a) <> 0%Z ->
  optimize_fidelity eigvalsh sqrtm s g (after c past) n a = (c', Ok o) -> exists x, o_val o = Float x /\ (sqrt (1 - p) ^ n <= x <= 1)%R.
Proof.
  intros Hp C HP Hn CL HA HO H. destruct (reported_fidelity 2 2 _ sp c past n a name c' o (bit_flip_fits p) (bit_flip_some p) ltac:(lia) C HP Hn HA HO H) as (x & v & X1 & X2 & X3 & X4 & X5).
  destruct (C128_bit_flip sqrtm OKs p sp c past n (o_rho o) v Hp C HP Hn CL X2 X3 X4) as (y & Y1 & Y2). rewrite X5 in Y1. injection Y1 as <-. exists x. split; assumption.
Qed.
Theorem C129_fidelity_damping p sp c past n a name c' o : (0 <= p <= 1)%R -> channel_of (amplitude_damping p) sp c -> Forall (fun m => 1 <= m)%nat past -> (1 <= n)%nat -> clean sp past n -> a_param a = PName name ->
  a_optimizer a = "diffev"%string \/ as_int (a_use_pool a) <> 0%Z ->
  optimize_fidelity eigvalsh sqrtm s g (after c past) n a = (c', Ok o) -> exists x, o_val o = Float x /\ (sqrt (1 - p) ^ n <= x <= 1)%R.
Proof.
  intros Hp C HP Hn CL HA HO H. destruct (reported_fidelity 2 2 _ sp c past n a name c' o (damping_fits p) (damping_some p) ltac:(lia) C HP Hn HA HO H) as (x & v & X1 & X2 & X3 & X4 & X5).
  destruct (C128_damping sqrtm OKs p sp c past n (o_rho o) v Hp C HP Hn CL X2 X3 X4) as (y & Y1 & Y2). rewrite X5 in Y1. injection Y1 as <-. exists x. split; assumption.
Qed.
Theorem C129_fidelity_depolarising p sp c past a name c' o : (0 <= p <= 1)%R -> channel_of (depolarising p) sp c -> Forall (fun m => 1 <= m)%nat past -> clean sp past 1 -> a_param a = PName name ->
  a_optimizer a = "diffev"%string \/ as_int (a_use_pool a) <> 0%Z ->
  optimize_fidelity eigvalsh sqrtm s g (after c past) 1 a = (c', Ok o) -> o_val o = Float (sqrt (1 - 2 * p / 3)).
Proof.
  intros Hp C HP CL HA HO H. destruct (reported_fidelity 2 2 _ sp c past 1 a name c' o (depolarising_fits p) ltac:(discriminate) ltac:(lia) C HP (le_n 1) HA HO H) as (x & v & X1 & X2 & X3 & X4 & X5).
  rewrite (C128_depolarising sqrtm OKs p sp c past (o_rho o) v Hp C HP CL X2 X3 X4) in X5. injection X5 as <-. exact X1.
Qed.
End C129.
Print Assumptions C129_erasure.
Print Assumptions C129_bit_flip.
Print Assumptions C129_damping.
Print Assumptions C129_fidelity_bit_flip.
Print Assumptions C129_fidelity_damping.
Print Assumptions C129_fidelity_depolarising.

(** ** cases *)
(** a maximally entangled pair is not a product, and the bounds hold for it; two copies of |0> reach 3/4 for p = 1/4 *)
Example C128_case : let v : nat -> CC := fun i => if (Nat.eqb i 0 || Nat.eqb i 3)%bool then ((sqrt (1 / 2), 0)%R : CC) else 0 in
  unit_vector 4 v /\ exists sqrtm c x, sqrtm_ok sqrtm /\ channel_of (bit_flip (1 / 4)) false c /\
    snd (fidelity_two_states sqrtm (after c [3; 1]%nat) (tens_all [ket 0; ket 0]) 2) = Ok (3 / 4)%R /\
    snd (fidelity_two_states sqrtm (after c [3; 1]%nat) (MA 4 4 (pure v)) 2) = Ok x /\ (3 / 4 <= x <= 1)%R.
Proof.
  intros v. assert (U : unit_vector 4 v). { pose proof (sqrt_sqrt (1 / 2) ltac:(lra)) as Q. unfold unit_vector, v. apply CC_eq; cbn; cbn in Q; lra. }
  split; [exact U|]. destruct sqrtm_exists as (sq & OK). assert (Hp : (0 <= 1 / 4 <= 1)%R) by lra.
  destruct (channel_exists 2 2 _ false (bit_flip_fits (1 / 4)) ltac:(discriminate) (bit_flip_tp (1 / 4) Hp)) as (c & C).
  assert (S : (sqrt (1 - 1 / 4) ^ 2 = 3 / 4)%R) by (rewrite pow2_sqrt by lra; lra).
  destruct (C128_bit_flip sq OK (1 / 4) false c [3; 1]%nat 2 (MA 4 4 (pure v)) v Hp C) as (x & E & B); [repeat constructor|lia|intros X; discriminate X|split; reflexivity|exact U|apply eqm_refl|]. rewrite S in B.
  exists sq, c, x. split; [exact OK|]. split; [exact C|]. split; [|split; [exact E|exact B]].
  rewrite <- S. apply (C128_bit_flip_attained sq OK (1 / 4) false c [3; 1]%nat 2 Hp C); [repeat constructor|lia|intros X; discriminate X].
Qed.
Definition two_vec : list R := [1; 0; 0; 0]%R.
Definition evol2 : options := Options "diffev"%string (PName "overparam"%string) (PyInt 0) (PyInt 0) 10%Z [two_vec] true.
(** the optimisers do return: differential evolution that looks at one point *)
Example C129_case : exists eigvalsh sqrtm c o o', eigvalsh_ok eigvalsh /\ sqrtm_ok sqrtm /\ channel_of (depolarising (3 / 10)) true c /\ scipy_ok PropsOptim.lazy_scipy /\
  optimize_fidelity eigvalsh sqrtm PropsOptim.lazy_scipy PropsOptim.one_rng c 1 evol2 = (c, Ok o) /\ o_val o = Float (sqrt (1 - 2 * (3 / 10) / 3)) /\
  exists c2, channel_of (bit_flip (1 / 5)) false c2 /\ optimize_coherent eigvalsh sqrtm PropsOptim.lazy_scipy PropsOptim.one_rng c2 1 1 evol2 true = (c2, Ok o') /\
  reports_at_most o' true 1 (INR 1 * (1 - binary_entropy (1 / 5)) + INR (2 ^ 1) * slack)%R.
Proof.
  destruct sqrtm_exists as (sq & OS). destruct eigvalsh_exists as (ev & OE). assert (Hp : (0 <= 3 / 10 <= 1)%R) by lra. assert (Hq : (0 <= 1 / 5 <= 1)%R) by lra.
  destruct (channel_exists 2 2 _ true (depolarising_fits (3 / 10)) ltac:(discriminate) (depolarising_tp (3 / 10) Hp)) as (c & C). destruct (channel_exists 2 2 _ false (bit_flip_fits (1 / 5)) ltac:(discriminate) (bit_flip_tp (1 / 5) Hq)) as (c2 & C2).
  assert (G : forall ops sp c, fits 2 2 ops -> ops <> [] -> channel_of ops sp c -> chan_n c = 1%nat /\ input_dimension c = 2%nat).
  { intros ops sp d F NE CD. assert (N : chan_n d = 1%nat). { destruct CD as (a & nq & din & dout & I & S). destruct (chan_init_made _ _ _ _ _ _ _ I) as (k & -> & K). exact (kraus_init_n _ _ _ _ _ _ _ K). }
    split; [exact N|]. apply (used_dim 2 2 ops sp d [] 1 d tt F NE CD ltac:(constructor) (le_n 1)). cbn [after fold_left]. unfold update_channel_tensored. destruct d; cbn in N |- *; [rewrite N; reflexivity|reflexivity]. }
  destruct (over_density two_vec 2 1) as (rho & E & _); [lia|reflexivity|exists 1%R; split; [left; reflexivity|lra]|]. destruct (over_result _ _ _ _ E) as (Q & DS & RK).
  destruct (pure_of_rank 2 (me rho) ltac:(lia) DS RK) as (v & U & P).
  destruct (G _ _ _ (depolarising_fits (3 / 10)) ltac:(discriminate) C) as [N1 D1]. destruct (G _ _ _ (bit_flip_fits (1 / 5)) ltac:(discriminate) C2) as [N2 D2].
  pose proof (C128_depolarising sq OS (3 / 10) true c [] rho v Hp C ltac:(constructor) ltac:(intros _ _; constructor) Q U P) as V. cbn [after fold_left] in V.
  destruct (C124_most ev sq OE (1 / 5) false c2 [] 1 rho false Hq C2 ltac:(constructor) (le_n 1) ltac:(intros X; discriminate X) Q DS) as (x & X1 & _). cbn [after fold_left] in X1.
  assert (U1 : update_channel_tensored c 1 = (c, Ok tt)) by (unfold update_channel_tensored; destruct c; cbn in N1 |- *; [rewrite N1|]; reflexivity).
  assert (U2 : update_channel_tensored c2 1 = (c2, Ok tt)) by (unfold update_channel_tensored; destruct c2; cbn in N2 |- *; [rewrite N2|]; reflexivity).
  assert (F1 : obj_fidelity sq 2 (OverParam PropsOptim.one_rng) 1 c two_vec = (c, Ok (sqrt (1 - 2 * (3 / 10) / 3)))).
  { unfold obj_fidelity. cbn [OverParam p_rho]. rewrite E. pose proof (fidelity_steady sq c rho 1 (update_set_to _ _ _ _ U1)) as ST. destruct (fidelity_two_states sq c rho 1) as [d q]. cbn [fst snd] in *. subst d q. reflexivity. }
  assert (F2 : obj_coherent ev sq 2 1 (OverParam PropsOptim.one_rng) 1 c2 two_vec = (c2, Ok (- x)%R)).
  { unfold obj_coherent. cbn [OverParam p_rho]. rewrite E. pose proof (coherent_steady ev sq c2 rho 1 false (update_set_to _ _ _ _ U2)) as ST. destruct (coherent_information ev sq c2 rho 1 false) as [d q]. cbn [fst snd] in *. subst d q. reflexivity. }
  assert (R1 : exists o, optimize_fidelity ev sq PropsOptim.lazy_scipy PropsOptim.one_rng c 1 evol2 = (c, Ok o)).
  { unfold optimize_fidelity. rewrite U1. unfold optimize_procedure. change (procedure_checks ev sq PropsOptim.one_rng "fidelity"%string evol2) with (Ok (OverParam PropsOptim.one_rng, fun (nsize _ : nat) (p : paramet) (n : nat) => obj_fidelity sq nsize p n)). cbn iota. rewrite D1. cbn [p_bounds OverParam].
    unfold procedure_samples. change (as_int (a_lipschitz evol2) =? 0)%Z with true. cbn iota. unfold procedure_run. change (a_samples evol2) with [two_vec]. cbn [String.eqb a_optimizer evol2 Ascii.eqb Bool.eqb].
    unfold optimize_differential_evol. cbn [diffev PropsOptim.lazy_scipy]. rewrite F1. cbn [bind r_fun r_x r_success]. unfold procedure_output. cbn [String.eqb Ascii.eqb Bool.eqb bind OverParam p_rho]. rewrite E. cbn [bind]. eexists. reflexivity. }
  assert (R2 : exists o, optimize_coherent ev sq PropsOptim.lazy_scipy PropsOptim.one_rng c2 1 1 evol2 true = (c2, Ok o)).
  { unfold optimize_coherent. rewrite U2. unfold optimize_procedure. change (procedure_checks ev sq PropsOptim.one_rng "coherent"%string evol2) with (Ok (OverParam PropsOptim.one_rng, obj_coherent ev sq)). cbn iota. rewrite D2. cbn [p_bounds OverParam].
    unfold procedure_samples. change (as_int (a_lipschitz evol2) =? 0)%Z with true. cbn iota. unfold procedure_run. change (a_samples evol2) with [two_vec]. cbn [String.eqb a_optimizer evol2 Ascii.eqb Bool.eqb].
    unfold optimize_differential_evol. cbn [diffev PropsOptim.lazy_scipy]. rewrite F2. cbn [bind r_fun r_x r_success]. unfold procedure_output. cbn [String.eqb Ascii.eqb Bool.eqb bind OverParam p_rho]. rewrite E. cbn [bind]. eexists. reflexivity. }
  destruct R1 as (o & R1). destruct R2 as (o' & R2). exists ev, sq, c, o, o'. split; [exact OE|]. split; [exact OS|]. split; [exact C|]. split; [exact PropsOptim.lazy_ok|]. split; [exact R1|]. split.
  - apply (C129_fidelity_depolarising ev sq PropsOptim.lazy_scipy PropsOptim.one_rng OS PropsOptim.lazy_ok (3 / 10) true c [] evol2 "overparam"%string c o Hp C); [constructor|intros _ _; constructor|reflexivity|left; reflexivity|exact R1].
  - exists c2. split; [exact C2|]. split; [exact R2|]. apply (C129_bit_flip ev sq PropsOptim.lazy_scipy PropsOptim.one_rng OE PropsOptim.lazy_ok (1 / 5) false c2 [] 1 1 evol2 "overparam"%string true c2 o' Hq C2); [constructor|lia|intros X; discriminate X|reflexivity|exact R2].
Qed.
