(** Properties of channels whose coherent information is known (C122 to C125).
    Specification: KnownSpec.v (the channels and their states), EntropySpec.v, ChoiSpec.v (von_neumann),
    KrausSpec.v.  Model: ChannelModel.v, KrausModel.v.  eigvalsh_ok says what numpy.linalg.eigvalsh is
    assumed to return on Hermitian matrices; SpectralExists.v shows that it can be met.
    [channel_of ops sp c]: c is what AnalyticQChan returns for the operators ops.  [past]: the numbers
    of uses asked for before.  [value_between x y]: coherent_information returns r, or r/n when
    regularised, with x <= r <= y. *)
From Verif Require Import Py Scalar PauliModel PauliSpec EncoderProofs EighExists Spectral SpectralProofs KrausModel KrausSpec KrausProofs KrausProofs2 KrausProofs5 KrausProofs6 KrausProofs8 KrausProofs12
  ChoiModel ChannelModel ChannelSpec ChoiSpec SpectralExists EntropyProofs EntropySpec CohProofs CohProofs3 CohProofs4 Processing ProcessingSpec Processing2 Degradable KnownSpec KnownProofs KnownProofs2 KnownProofs3.
From Coq Require Import Reals Lra.
Open Scope nat_scope.

Section Known.
Variables (eigvalsh : marr CC -> list R) (sqrtm : marr CC -> marr CC).
Hypothesis OK : eigvalsh_ok eigvalsh.
Let value := value_between eigvalsh sqrtm.
Let most c past n rho reg y := exists r, snd (coherent_information eigvalsh sqrtm (after c past) rho n reg) = Ok (if reg then r / INR n else r)%R /\ (r <= y)%R.
(** ** C122 *)
Theorem C122_flagged q O1 O2 D a b spA spB sp cA cB c past pA pB rho : (0 <= q <= 1)%R -> fits O1 D a -> fits O2 D b -> trace_preserving D a -> trace_preserving D b -> a <> [] -> b <> [] ->
  channel_of a spA cA -> channel_of b spB cB -> channel_of (flagged q O1 O2 a b) sp c ->
  Forall (fun m => 1 <= m) past -> clean sp past 1 -> Forall (fun m => 1 <= m) pA -> clean spA pA 1 -> Forall (fun m => 1 <= m) pB -> clean spB pB 1 ->
  is_square D rho -> density D (me rho) ->
  exists rA rB r, snd (coherent_information eigvalsh sqrtm (after cA pA) rho 1 false) = Ok rA /\ snd (coherent_information eigvalsh sqrtm (after cB pB) rho 1 false) = Ok rB /\
    snd (coherent_information eigvalsh sqrtm (after c past) rho 1 false) = Ok r /\
    (Rabs (r - ((1 - q) * rA + q * rB)) <= (INR O1 + INR O2 + INR (length a) + INR (length b)) * slack)%R.
Proof.
  intros Hq FA FB TA TB NA NB CA CB C HP CL HPA CLA HPB CLB SQ DR. destruct (entropies_exist O1 D a _ FA TA DR) as (t & V). destruct (entropies_exist O2 D b _ FB TB DR) as (u & W).
  pose proof (flagged_entropies q O1 O2 D a b _ t u Hq FA FB TA TB DR V W) as VW.
  destruct (known_one eigvalsh sqrtm OK O1 D a spA cA FA NA TA CA pA rho false t HPA CLA SQ DR V) as (rA & EA & BA).
  destruct (known_one eigvalsh sqrtm OK O2 D b spB cB FB NB TB CB pB rho false u HPB CLB SQ DR W) as (rB & EB & BB).
  assert (N : flagged q O1 O2 a b <> []) by (destruct a; [congruence|discriminate]).
  destruct (known_one eigvalsh sqrtm OK (O1 + O2) D _ sp c (flagged_fits q O1 O2 D a b FA FB) N (flagged_tp q O1 O2 D a b Hq TA TB) C past rho false _ HP CL SQ DR VW) as (r & E & B).
  exists rA, rB, r. split; [exact EA|]. split; [exact EB|]. split; [exact E|]. cbn [fst snd] in B. rewrite flagged_len, !plus_INR in B.
  assert (SL : (0 < slack)%R) by (unfold slack; lra). pose proof (pos_INR O1). pose proof (pos_INR O2). pose proof (pos_INR (length a)). pose proof (pos_INR (length b)).
  set (x1 := (INR O1 * slack)%R) in *. set (x2 := (INR O2 * slack)%R) in *. set (x3 := (INR (length a) * slack)%R) in *. set (x4 := (INR (length b) * slack)%R) in *.
  assert (0 <= x1)%R by (unfold x1; nra). assert (0 <= x2)%R by (unfold x2; nra). assert (0 <= x3)%R by (unfold x3; nra). assert (0 <= x4)%R by (unfold x4; nra).
  rewrite !Rmult_plus_distr_r in *. fold x1 x2 x3 x4 in B |- *. apply Rabs_le. nra.
Qed.
(** ** C123 *)
Lemma erasure_some q D : erasure q D <> []. Proof. discriminate. Qed.
Theorem C123_value q D sp c past rho reg s : (0 <= q <= 1)%R -> channel_of (erasure q D) sp c -> Forall (fun m => 1 <= m) past -> clean sp past 1 -> is_square D rho -> density D (me rho) -> von_neumann D (me rho) s ->
  value c past 1 rho reg ((1 - 2 * q) * s - INR (D + 1) * slack)%R ((1 - 2 * q) * s + INR (D + 1) * slack)%R.
Proof.
  intros Hq C HP CL SQ DR V. destruct (known_one eigvalsh sqrtm OK (D + 1) D _ sp c (erasure_fits q D) (erasure_some q D) (erasure_tp q D Hq) C past rho reg _ HP CL SQ DR (erasure_entropies q D _ s Hq DR V)) as (r & E & B).
  exists r. split; [exact E|]. cbn [fst snd] in B. rewrite erasure_len, (Nat.add_comm 1 D) in B. lra.
Qed.
Theorem C123_most q D sp c past n rho reg : (0 <= q <= 1)%R -> channel_of (erasure q D) sp c -> Forall (fun m => 1 <= m) past -> 1 <= n -> clean sp past n -> is_square (D ^ n) rho -> density (D ^ n) (me rho) ->
  most c past n rho reg (INR n * (Rmax 0 (1 - 2 * q) * log2 (INR D)) + INR ((D + 1) ^ n) * slack)%R.
Proof.
  intros Hq C HP Hn CL SQ DR. pose proof (erasure_len q D) as L. rewrite Nat.add_comm in L. destruct (Rle_dec q (1 / 2)) as [H|H].
  - rewrite Rmax_right by lra. rewrite <- L. apply (known_most eigvalsh sqrtm OK (D + 1) D _ sp c (erasure_fits q D) (erasure_some q D) (erasure_tp q D Hq) C); try assumption; [apply erasure_output_imitates; lra|].
    intros sigma t DS T. destruct (von_exists D sigma (proj1 DS)) as (s & V). pose proof (entropies_unique (D + 1) D _ sigma _ _ (erasure_fits q D) (proj1 DS) T (erasure_entropies q D sigma s Hq DS V)) as ->. cbn [fst snd].
    destruct (von_bounds D sigma s DS V). nra.
  - rewrite Rmax_left by lra. rewrite Rmult_0_l, Rmult_0_r, Rplus_0_l, <- L. apply (known_none eigvalsh sqrtm OK (D + 1) D _ sp c (erasure_fits q D) (erasure_some q D) (erasure_tp q D Hq) C); try assumption. apply erasure_environment_imitates; lra.
Qed.
Theorem C123_attained q D sp c past n reg : (0 <= q <= 1)%R -> 0 < D -> channel_of (erasure q D) sp c -> Forall (fun m => 1 <= m) past -> 1 <= n -> clean sp past n ->
  value c past n (tens_all (repeat (mixed_state D) n)) reg (INR n * ((1 - 2 * q) * log2 (INR D)) - INR ((D + 1) ^ n) * slack)%R (INR n * ((1 - 2 * q) * log2 (INR D)) + INR ((D + 1) ^ n) * slack)%R.
Proof.
  intros Hq HD C HP Hn CL. destruct (mixed_state_entropy D HD) as [DM VM].
  destruct (known_power eigvalsh sqrtm OK (D + 1) D _ sp c (erasure_fits q D) (erasure_some q D) (erasure_tp q D Hq) C past n (mixed_state D) reg _ HP Hn CL (conj eq_refl eq_refl) DM (erasure_entropies q D _ _ Hq DM VM)) as (r & E & B).
  exists r. split; [exact E|]. cbn [fst snd] in B. rewrite erasure_len, (Nat.add_comm 1 D) in B.
  replace ((1 - q) * log2 (INR D) + binary_entropy q - (q * log2 (INR D) + binary_entropy q))%R with ((1 - 2 * q) * log2 (INR D))%R in B by ring. exact B.
Qed.
(** ** C124 *)
Lemma bit_flip_some p : bit_flip p <> []. Proof. discriminate. Qed.
Theorem C124_most p sp c past n rho reg : (0 <= p <= 1)%R -> channel_of (bit_flip p) sp c -> Forall (fun m => 1 <= m) past -> 1 <= n -> clean sp past n -> is_square (2 ^ n) rho -> density (2 ^ n) (me rho) ->
  most c past n rho reg (INR n * (1 - binary_entropy p) + INR (2 ^ n) * slack)%R.
Proof.
  intros Hp C HP Hn CL SQ DR. apply (known_most eigvalsh sqrtm OK 2 2 _ sp c (bit_flip_fits p) (bit_flip_some p) (bit_flip_tp p Hp) C); try assumption; [apply bit_flip_imitates, Hp|]. intros sigma t DS T. apply (bit_flip_most p sigma); assumption.
Qed.
Theorem C124_attained p sp c past n reg : (0 <= p <= 1)%R -> channel_of (bit_flip p) sp c -> Forall (fun m => 1 <= m) past -> 1 <= n -> clean sp past n ->
  value c past n (tens_all (repeat (mixed_state 2) n)) reg (INR n * (1 - binary_entropy p) - INR (2 ^ n) * slack)%R (INR n * (1 - binary_entropy p) + INR (2 ^ n) * slack)%R.
Proof.
  intros Hp C HP Hn CL. destruct (mixed_state_entropy 2 ltac:(lia)) as [DM _].
  assert (E : eqm 2 2 middle (me (mixed_state 2))) by (intros i j Hi Hj; destruct i as [|[|i]]; [| |lia]; destruct j as [|[|j]]; try lia; apply CC_eq; cbn; lra).
  apply (known_power eigvalsh sqrtm OK 2 2 _ sp c (bit_flip_fits p) (bit_flip_some p) (bit_flip_tp p Hp) C past n (mixed_state 2) reg (1%R, binary_entropy p) HP Hn CL (conj eq_refl eq_refl) DM).
  destruct (bit_flip_middle p Hp) as [V1 V2]. split; (eapply von_ext; [|eassumption]).
  - apply (channel_map_same 2 2); [apply bit_flip_fits|apply same_ops_refl|exact E].
  - intros i j Hi Hj. apply (exchange_entry_same 2 2); [apply bit_flip_fits|apply same_ops_refl|exact E|assumption..].
Qed.
(** ** C125 *)
Definition damping_value (p g : R) : R := (binary_entropy ((1 - p) * g) - binary_entropy (p * g))%R.
Lemma damping_some p : amplitude_damping p <> []. Proof. discriminate. Qed.
Lemma diagonal_density g : (0 <= g <= 1)%R -> density 2 (diagonal g).
Proof.
  intros Hg. assert (P : psd 2 (diagonal g)).
  { intros v. destruct (v 0) as [a0 a1] eqn:E0. destruct (v 1) as [b0 b1] eqn:E1. exists ((1 - g) * (a0 * a0 + a1 * a1) + g * (b0 * b0 + b1 * b1))%R. split; [nra|]. cbn [bsum]. rewrite !E0, !E1. apply CC_eq; cbn; ring. }
  split; [apply psd_hermitian, P|]. split; [exact P|]. apply CC_eq; cbn; ring.
Qed.
(** diag(1-g, g) *)
Definition diagonal_state (g : R) : marr CC := MA 2 2 (diagonal g).
Theorem C125_attained p g sp c past n reg : (0 <= p <= 1)%R -> (0 <= g <= 1)%R -> channel_of (amplitude_damping p) sp c -> Forall (fun m => 1 <= m) past -> 1 <= n -> clean sp past n ->
  value c past n (tens_all (repeat (diagonal_state g) n)) reg (INR n * damping_value p g - INR (2 ^ n) * slack)%R (INR n * damping_value p g + INR (2 ^ n) * slack)%R.
Proof.
  intros Hp Hg C HP Hn CL. exact (known_power eigvalsh sqrtm OK 2 2 _ sp c (damping_fits p) (damping_some p) (damping_tp p Hp) C past n (diagonal_state g) reg _ HP Hn CL (conj eq_refl eq_refl) (diagonal_density g Hg) (damping_diagonal p g Hp Hg)).
Qed.
Theorem C125_most p v sp c past n rho reg : (0 <= p <= 1 / 2)%R -> (forall g, (0 <= g <= 1)%R -> (damping_value p g <= v)%R) ->
  channel_of (amplitude_damping p) sp c -> Forall (fun m => 1 <= m) past -> 1 <= n -> clean sp past n -> is_square (2 ^ n) rho -> density (2 ^ n) (me rho) ->
  most c past n rho reg (INR n * v + INR (2 ^ n) * slack)%R.
Proof.
  intros Hp B C HP Hn CL SQ DR. assert (Hp1 : (0 <= p <= 1)%R) by lra. apply (known_most eigvalsh sqrtm OK 2 2 _ sp c (damping_fits p) (damping_some p) (damping_tp p Hp1) C); try assumption; [apply damping_output_imitates, Hp|].
  intros sigma t DS T. destruct (damping_most p sigma t Hp DS T) as (g & _ & Hg & Le). specialize (B g Hg). unfold damping_value in B. lra.
Qed.
Theorem C125_useless p sp c past n rho reg : (1 / 2 <= p <= 1)%R -> channel_of (amplitude_damping p) sp c -> Forall (fun m => 1 <= m) past -> 1 <= n -> clean sp past n -> is_square (2 ^ n) rho -> density (2 ^ n) (me rho) ->
  most c past n rho reg (INR (2 ^ n) * slack)%R.
Proof.
  intros Hp C HP Hn CL SQ DR. assert (Hp1 : (0 <= p <= 1)%R) by lra. apply (known_none eigvalsh sqrtm OK 2 2 _ sp c (damping_fits p) (damping_some p) (damping_tp p Hp1) C); try assumption. apply damping_environment_imitates, Hp.
Qed.
(** one use of any state does no better than its diagonal *)
Theorem C125_diagonal p sp c past rho reg : (0 <= p <= 1 / 2)%R -> channel_of (amplitude_damping p) sp c -> Forall (fun m => 1 <= m) past -> clean sp past 1 -> is_square 2 rho -> density 2 (me rho) ->
  exists g, me rho 1 1 = rc g /\ (0 <= g <= 1)%R /\ most c past 1 rho reg (damping_value p g + 2 * slack)%R.
Proof.
  intros Hp C HP CL SQ DR. assert (Hp1 : (0 <= p <= 1)%R) by lra. destruct (entropies_exist 2 2 _ _ (damping_fits p) (damping_tp p Hp1) DR) as (t & T). destruct (damping_most p (me rho) t Hp DR T) as (g & Eg & Hg & Le).
  exists g. split; [exact Eg|]. split; [exact Hg|]. destruct (known_one eigvalsh sqrtm OK 2 2 _ sp c (damping_fits p) (damping_some p) (damping_tp p Hp1) C past rho reg t HP CL SQ DR T) as (r & E & B).
  exists r. split; [exact E|]. unfold damping_value. cbn in B. lra.
Qed.
End Known.
Print Assumptions C122_flagged.
Print Assumptions C123_value.
Print Assumptions C123_most.
Print Assumptions C123_attained.
Print Assumptions C124_most.
Print Assumptions C124_attained.
Print Assumptions C125_attained.
Print Assumptions C125_most.
Print Assumptions C125_useless.
Print Assumptions C125_diagonal.
(** a quarter of the qubits of a bit-flip channel are lost; the other channel erases more often *)
Example C122_case : exists eigvalsh cA cB c rA rB r, eigvalsh_ok eigvalsh /\ channel_of (bit_flip (1 / 10)) false cA /\ channel_of (erasure (1 / 3) 2) true cB /\
  channel_of (flagged (1 / 4) 2 3 (bit_flip (1 / 10)) (erasure (1 / 3) 2)) true c /\
  snd (coherent_information eigvalsh (fun A => A) (after cA [2; 1]) (diagonal_state (1 / 5)) 1 false) = Ok rA /\ snd (coherent_information eigvalsh (fun A => A) cB (diagonal_state (1 / 5)) 1 false) = Ok rB /\
  snd (coherent_information eigvalsh (fun A => A) c (diagonal_state (1 / 5)) 1 false) = Ok r /\ (Rabs (r - (3 / 4 * rA + 1 / 4 * rB)) <= 10 * slack)%R.
Proof.
  destruct eigvalsh_exists as (ev & OK). pose proof (bit_flip_tp (1 / 10) ltac:(lra)) as TA. pose proof (erasure_tp (1 / 3) 2 ltac:(lra)) as TB.
  destruct (channel_exists 2 2 _ false (bit_flip_fits (1 / 10)) (bit_flip_some _) TA) as (cA & CA). destruct (channel_exists 3 2 _ true (erasure_fits (1 / 3) 2) (erasure_some _ _) TB) as (cB & CB).
  destruct (channel_exists (2 + 3) 2 (flagged (1 / 4) 2 3 (bit_flip (1 / 10)) (erasure (1 / 3) 2)) true) as (c & C); [apply (flagged_fits _ _ _ _ _ _ (bit_flip_fits _) (erasure_fits (1 / 3) 2))|discriminate|apply flagged_tp; [lra|exact TA|exact TB]|].
  destruct (C122_flagged ev (fun A => A) OK (1 / 4) 2 3 2 _ _ false true true cA cB c [] [2; 1] [] (diagonal_state (1 / 5)) ltac:(lra) (bit_flip_fits _) (erasure_fits (1 / 3) 2) TA TB (bit_flip_some _) (erasure_some _ _) CA CB C) as (rA & rB & r & E1 & E2 & E3 & B);
    try first [intros _ _; constructor; fail|repeat constructor; fail|intros H; discriminate H|apply diagonal_density; lra].
  exists ev, cA, cB, c, rA, rB, r. repeat (split; [assumption|]). replace (3 / 4)%R with (1 - 1 / 4)%R by lra. eapply Rle_trans; [exact B|]. right. rewrite erasure_len. cbn. ring.
Qed.
(** two uses of a qubit erasure channel on a correlated state, after other uses *)
Example C123_case : exists eigvalsh c r, eigvalsh_ok eigvalsh /\ channel_of (erasure (1 / 4) 2) false c /\ density (2 ^ 2) (me (corners (1 / 3) 4)) /\
  snd (coherent_information eigvalsh (fun A => A) (after c [3; 1]) (corners (1 / 3) 4) 2 true) = Ok (r / 2)%R /\ (r <= 1 + 9 * slack)%R.
Proof.
  destruct eigvalsh_exists as (ev & OK). destruct (channel_exists 3 2 _ false (erasure_fits (1 / 4) 2) (erasure_some _ _) (erasure_tp (1 / 4) 2 ltac:(lra))) as (c & C).
  assert (DR : density (2 ^ 2) (me (corners (1 / 3) 4))).
  { assert (P : psd (2 ^ 2) (me (corners (1 / 3) 4))). { intros v. destruct (v 0) as [a0 a1] eqn:E0. destruct (v 3) as [b0 b1] eqn:E3. exists (1 / 3 * (a0 * a0 + a1 * a1) + 2 / 3 * (b0 * b0 + b1 * b1))%R. split; [nra|]. cbn. rewrite E0, E3. apply CC_eq; cbn; field. }
    split; [apply psd_hermitian, P|]. split; [exact P|]. apply CC_eq; cbn; lra. }
  destruct (C123_most ev (fun A => A) OK (1 / 4) 2 false c [3; 1] 2 (corners (1 / 3) 4) true ltac:(lra) C) as (r & E & B); [repeat constructor|lia|intros H; discriminate H|split; reflexivity|exact DR|].
  exists ev, c, r. split; [exact OK|]. split; [exact C|]. split; [exact DR|]. split; [exact E|]. rewrite Rmax_right in B by lra. replace (log2 (INR 2)) with 1%R in B by (unfold log2; replace (INR 2) with 2%R by (cbn; ring); field; pose proof ln2_pos; lra). cbn in B. lra.
Qed.
Example C124_case : exists eigvalsh c r, eigvalsh_ok eigvalsh /\ channel_of (bit_flip (1 / 2)) true c /\
  snd (coherent_information eigvalsh (fun A => A) (after c [4]) (tens_all (repeat (mixed_state 2) 3)) 3 false) = Ok r /\ (Rabs r <= 8 * slack)%R.
Proof.
  destruct eigvalsh_exists as (ev & OK). destruct (channel_exists 2 2 _ true (bit_flip_fits (1 / 2)) (bit_flip_some _) (bit_flip_tp (1 / 2) ltac:(lra))) as (c & C).
  destruct (C124_attained ev (fun A => A) OK (1 / 2) true c [4] 3 false ltac:(lra) C) as (r & E & B); [repeat constructor|lia|intros _ H; discriminate H|].
  exists ev, c, r. split; [exact OK|]. split; [exact C|]. split; [exact E|]. rewrite half_entropy in B. apply Rabs_le. cbn in B. lra.
Qed.
Example C125_case : exists eigvalsh c r s, eigvalsh_ok eigvalsh /\ channel_of (amplitude_damping (1 / 4)) false c /\
  snd (coherent_information eigvalsh (fun A => A) c (diagonal_state (1 / 2)) 1 false) = Ok r /\ (damping_value (1 / 4) (1 / 2) - 2 * slack <= r)%R /\
  snd (coherent_information eigvalsh (fun A => A) c (corners (1 / 3) 2) 1 false) = Ok s /\ (s <= damping_value (1 / 4) (2 / 3) + 2 * slack)%R.
Proof.
  destruct eigvalsh_exists as (ev & OK). destruct (channel_exists 2 2 _ false (damping_fits (1 / 4)) (damping_some _) (damping_tp (1 / 4) ltac:(lra))) as (c & C).
  pose proof (damping_diagonal (1 / 4) (1 / 2) ltac:(lra) ltac:(lra)) as V.
  destruct (known_one ev (fun A => A) OK 2 2 _ false c (damping_fits (1 / 4)) (damping_some _) (damping_tp (1 / 4) ltac:(lra)) C [] (diagonal_state (1 / 2)) false _ ltac:(constructor) ltac:(intros H; discriminate H) (conj eq_refl eq_refl) (diagonal_density (1 / 2) ltac:(lra)) V) as (r & E & B).
  assert (DR : density 2 (me (corners (1 / 3) 2))). { apply (density_ext 2 (diagonal (2 / 3))); [|apply diagonal_density; lra]. intros i j Hi Hj. destruct i as [|[|i]]; [| |lia]; destruct j as [|[|j]]; try lia; apply CC_eq; cbn; lra. }
  destruct (C125_diagonal ev (fun A => A) OK (1 / 4) false c [] (corners (1 / 3) 2) false ltac:(lra) C) as (g & Eg & Hg & s & E2 & B2); [constructor|intros H; discriminate H|split; reflexivity|exact DR|].
  assert (G : g = (2 / 3)%R) by (apply (f_equal fst) in Eg; cbn in Eg; lra). subst g.
  exists ev, c, r, s. split; [exact OK|]. split; [exact C|]. split; [exact E|]. split; [unfold damping_value; cbn in B; lra|]. split; [exact E2|exact B2].
Qed.
