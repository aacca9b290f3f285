(** The coherent information of the dephrasure channel on repetition states (C126).
    Specification: KnownSpec.v (dephrasure, corners, paper_value).  Model: ChannelModel.v, KrausModel.v.
    [channel_of], [value_between] and [past] are as in PropsKnown.v. *)
From Verif Require Import Py Scalar PauliModel PauliSpec EncoderProofs EighExists Spectral SpectralProofs KrausModel KrausSpec KrausProofs KrausProofs2 KrausProofs5 KrausProofs6 KrausProofs8 KrausProofs12
  ChoiModel ChannelModel ChannelSpec ChoiSpec SpectralExists EntropyProofs EntropySpec CohProofs CohProofs3 CohProofs4 Processing ProcessingSpec Processing2 Degradable KnownSpec KnownProofs KnownProofs2 KnownProofs3 KnownProofs4.
From Coq Require Import Reals Lra.
Open Scope nat_scope.

Section C126.
Variables (eigvalsh : marr CC -> list R) (sqrtm : marr CC -> marr CC).
Hypothesis OK : eigvalsh_ok eigvalsh.
(** ** C126 *)
Theorem C126_dephrasure p q x sp c past n reg : (0 <= p <= 1)%R -> (0 <= q <= 1)%R -> (0 <= x <= 1)%R -> channel_of (dephrasure p q) sp c -> Forall (fun m => 1 <= m) past -> 1 <= n -> clean sp past n ->
  let u := sqrt (1 - 4 * x * (1 - x) * (1 - (1 - 2 * p) ^ (2 * n))) in
  let r := (((1 - q) ^ n - q ^ n) * binary_entropy x - (1 - q) ^ n * binary_entropy ((1 + u) / 2))%R in
  value_between eigvalsh sqrtm c past n (corners x (2 ^ n)) reg (r - INR (3 ^ n) * slack)%R (r + INR (4 ^ n) * slack)%R.
Proof.
  intros Hp Hq Hx C HP Hn CL u r.
  destruct (known_near eigvalsh sqrtm OK 3 2 _ sp c (dephrasure_fits p q) ltac:(discriminate) (dephrasure_tp p q Hp Hq) C past n (corners x (2 ^ n)) reg _ HP Hn CL (conj eq_refl eq_refl) (corners_density x n Hx Hn) (dephrasure_entropies p q x n Hp Hq Hx Hn)) as (v & E & B).
  exists v. split; [exact E|]. cbn [fst snd] in B. change (spread x (1 - 2 * p) n) with u in B. change (length (dephrasure p q)) with 4 in B. unfold r. lra.
Qed.
Lemma ln_quot a b : (0 < a)%R -> (0 < b)%R -> ln (a / b) = (ln a - ln b)%R.
Proof. intros Ha Hb. unfold Rdiv. rewrite ln_mult, ln_Rinv by (assumption || apply Rinv_0_lt_compat, Hb). ring. Qed.
Lemma paper_form p q x n : (0 < p < 1)%R -> (0 < x < 1)%R -> 1 <= n ->
  paper_value x n p q = (((1 - q) ^ n - q ^ n) * binary_entropy x - (1 - q) ^ n * binary_entropy ((1 + sqrt (1 - 4 * x * (1 - x) * (1 - (1 - 2 * p) ^ (2 * n)))) / 2))%R.
Proof.
  intros Hp Hx Hn. unfold paper_value. set (u := sqrt _). pose proof ln2_pos as L.
  assert (U : (0 <= u < 1)%R).
  { unfold u. split; [apply sqrt_pos|]. apply Rlt_le_trans with (sqrt 1); [apply sqrt_lt_1_alt|rewrite sqrt_1; lra]. rewrite pow_mult. set (o := ((1 - 2 * p) ^ 2)%R). assert (O : (0 <= o < 1)%R) by (unfold o; replace ((1 - 2 * p) ^ 2)%R with ((1 - 2 * p) * (1 - 2 * p))%R by ring; pose proof (Rle_0_sqr (1 - 2 * p)) as Q; unfold Rsqr in Q; assert (0 < p * (1 - p))%R by nra; lra).
    clearbody o. assert (P : (0 <= o ^ n < 1)%R). { clear -O Hn. destruct n as [|n]; [lia|]. clear Hn. induction n as [|n IH]; [rewrite pow_1; lra|]. change (o ^ S (S n))%R with (o * o ^ S n)%R. nra. }
    assert (X0 : (0 < x * (1 - x))%R) by (apply Rmult_lt_0_compat; lra). pose proof (Rle_0_sqr (1 - 2 * x)) as XQ. unfold Rsqr in XQ. assert (X : (0 < 4 * x * (1 - x) <= 1)%R) by lra. set (z := (4 * x * (1 - x))%R) in *. nra. }
  unfold binary_entropy. replace (1 - (1 + u) / 2)%R with ((1 - u) / 2)%R by lra.
  assert (E1 : ln ((1 + u) / (1 - u)) = (ln (1 + u) - ln (1 - u))%R) by (apply ln_quot; lra).
  assert (E2 : ln (1 - u ^ 2) = (ln (1 + u) + ln (1 - u))%R) by (rewrite <- ln_mult by lra; f_equal; ring).
  assert (E3 : ln ((1 + u) / 2) = (ln (1 + u) - ln 2)%R) by (apply ln_quot; lra). assert (E4 : ln ((1 - u) / 2) = (ln (1 - u) - ln 2)%R) by (apply ln_quot; lra).
  clearbody u. rewrite E1, E2, E3, E4. field. lra.
Qed.
(** the number the test-suite compares with, wherever it is defined *)
Theorem C126_paper p q x sp c past n reg : (0 < p < 1)%R -> (0 <= q <= 1)%R -> (0 < x < 1)%R -> channel_of (dephrasure p q) sp c -> Forall (fun m => 1 <= m) past -> 1 <= n -> clean sp past n ->
  value_between eigvalsh sqrtm c past n (corners x (2 ^ n)) reg (paper_value x n p q - INR (3 ^ n) * slack)%R (paper_value x n p q + INR (4 ^ n) * slack)%R.
Proof.
  intros Hp Hq Hx C HP Hn CL. rewrite (paper_form p q x n Hp Hx Hn). apply (C126_dephrasure p q x sp); try assumption; lra.
Qed.
End C126.
Print Assumptions C126_dephrasure.
Print Assumptions C126_paper.
(** the parameters of the test, three uses, after five *)
Example C126_case : exists eigvalsh c r, eigvalsh_ok eigvalsh /\ channel_of (dephrasure (1 / 5) (2 / 5)) true c /\ density 8 (me (corners (1 / 10) 8)) /\
  snd (coherent_information eigvalsh (fun A => A) (after c [5]) (corners (1 / 10) 8) 3 true) = Ok (r / 3)%R /\ (Rabs (r - paper_value (1 / 10) 3 (1 / 5) (2 / 5)) <= 64 * slack)%R.
Proof.
  destruct eigvalsh_exists as (ev & OK). destruct (channel_exists 3 2 _ true (dephrasure_fits (1 / 5) (2 / 5)) ltac:(discriminate) (dephrasure_tp (1 / 5) (2 / 5) ltac:(lra) ltac:(lra))) as (c & C).
  destruct (C126_paper ev (fun A => A) OK (1 / 5) (2 / 5) (1 / 10) true c [5] 3 true ltac:(lra) ltac:(lra) ltac:(lra) C) as (r & E & B); [repeat constructor|lia|intros _ H; discriminate H|].
  exists ev, c, r. split; [exact OK|]. split; [exact C|]. split; [apply (corners_density (1 / 10) 3); [lra|lia]|]. change (2 ^ 3) with 8 in E. replace (INR 3) with 3%R in E by (cbn; ring). split; [exact E|].
  replace (INR (3 ^ 3)) with 27%R in B by (cbn; ring). replace (INR (4 ^ 3)) with 64%R in B by (cbn; ring). assert (0 < slack)%R by (unfold slack; lra). apply Rabs_le. lra.
Qed.
