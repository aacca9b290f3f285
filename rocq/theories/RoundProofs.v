(** What rounding errors in the eigenvalues do to the coherent information (C140). *)
From Verif Require Import Py Scalar PauliModel PauliSpec EncoderProofs EighExists Spectral SpectralProofs PowerSums KrausModel KrausSpec KrausProofs KrausProofs2 KrausProofs5 KrausProofs6 KrausProofs8 KrausProofs11 KrausProofs12
  ChoiModel ChannelModel ChannelSpec ChoiSpec ChoiProofs ChoiProofs2 ChoiProofs3 Sqrt EntropyProofs EntropySpec CohProofs CohProofs2 CohProofs3 CohProofs4 RoundSpec.
From Coq Require Import Reals Lra.
Open Scope R_scope.

Lemma c_pos : 0 < cut_off10. Proof. unfold cut_off10. lra. Qed.
Lemma c_small : cut_off10 <= / 10. Proof. unfold cut_off10. lra. Qed.
Lemma ln_quot x y : 0 < x -> 0 < y -> ln (x / y) = ln x - ln y.
Proof. intros X Y. unfold Rdiv. rewrite ln_mult, ln_Rinv; [ring|exact Y|exact X|apply Rinv_0_lt_compat, Y]. Qed.
Definition eta (x : R) : R := - (x * ln x).
Lemma eta_small x : 0 < x <= 2 * cut_off10 -> 0 <= eta x <= 2 * slack * ln 2.
Proof.
  intros [X1 X2]. pose proof c_pos. pose proof c_small. pose proof ln2_pos as L2. destruct cut_slack as [CS CL]. 
  assert (E2 : ln (2 * cut_off10) = ln 2 + ln cut_off10) by (apply ln_mult; lra).
  assert (L1 : ln 2 <= 1) by (pose proof (ln_le_minus 2 ltac:(lra)); lra).
  assert (LC : ln cut_off10 <= - 2). { assert (ln cut_off10 <= ln (/ 16)) by (destruct (Req_dec cut_off10 (/ 16)) as [->|]; [lra|left; apply ln_increasing; unfold cut_off10 in *; lra]). assert (ln (/ 16) = - (4 * ln 2)) by (rewrite ln_Rinv by lra; replace 16 with (2 ^ 4) by ring; rewrite ln_pow by lra; cbn; ring). pose proof ln_lt_2. nra. }
  split.
  - unfold eta. assert (ln x <= 0). { rewrite <- ln_1. destruct (Req_dec x 1) as [->|]; [lra|]. left. apply ln_increasing; lra. } nra.
  - pose proof (small_term (2 * cut_off10) x ltac:(lra) ltac:(lra) (conj X1 X2)) as S. unfold eta.
    assert (- (cut_off10 * ln cut_off10) <= slack * ln 2). { apply (Rmult_le_compat_r (ln 2)) in CS; [|lra]. unfold Rdiv in CS. rewrite Rmult_assoc, Rinv_l in CS by lra. lra. }
    rewrite E2 in S. nra.
Qed.
Lemma eta_near x y : cut_off10 <= x <= 1 -> 0 < y -> Rabs (x - y) <= cut_off10 -> Rabs (eta y - eta x) <= 2 * slack * ln 2.
Proof.
  intros [X1 X2] Y A. pose proof c_pos as CP. pose proof ln2_pos as L2. destruct cut_slack as [CS CL]. 
  assert (D : - cut_off10 <= y - x <= cut_off10) by (unfold Rabs in A; destruct (Rcase_abs (x - y)); lra).
  assert (U : ln y - ln x <= y / x - 1). { rewrite <- ln_quot by lra. apply ln_le_minus, Rdiv_lt_0_compat; lra. }
  assert (V : ln x - ln y <= x / y - 1). { rewrite <- ln_quot by lra. apply ln_le_minus, Rdiv_lt_0_compat; lra. }
  assert (U' : y * (ln y - ln x) <= 2 * cut_off10).
  { apply Rle_trans with (y * (y / x - 1)); [apply Rmult_le_compat_l; lra|]. replace (y * (y / x - 1)) with ((y - x) + (y - x) * (y - x) / x) by (field; lra).
    assert ((y - x) * (y - x) / x <= cut_off10); [|lra]. apply Rmult_le_reg_r with x; [lra|]. unfold Rdiv. rewrite Rmult_assoc, Rinv_l by lra. nra. }
  assert (V' : - cut_off10 <= y * (ln y - ln x)).
  { assert (y * (ln x - ln y) <= y * (x / y - 1)) by (apply Rmult_le_compat_l; lra). replace (y * (x / y - 1)) with (x - y) in H by (field; lra). lra. }
  assert (LX : ln cut_off10 <= ln x <= 0). { split; [destruct (Req_dec cut_off10 x) as [->|]; [lra|left; apply ln_increasing; lra]|]. rewrite <- ln_1. destruct (Req_dec x 1) as [->|]; [lra|]. left. apply ln_increasing; lra. }
  assert (K : - (cut_off10 * ln cut_off10) <= slack * ln 2). { apply (Rmult_le_compat_r (ln 2)) in CS; [|lra]. unfold Rdiv in CS. rewrite Rmult_assoc, Rinv_l in CS by lra. lra. }
  assert (B : 2 * cut_off10 <= slack * ln 2) by (unfold slack, cut_off10; pose proof ln_lt_2; lra).
  assert (M : - (slack * ln 2) <= (y - x) * ln x <= slack * ln 2) by (split; nra).
  replace (eta y - eta x) with (- (y * (ln y - ln x)) - (y - x) * ln x) by (unfold eta; ring). apply Rabs_le. lra.
Qed.
Definition kept_term (y : R) : R := if Rlt_dec cut_off10 (Rabs y) then eta y / ln 2 else 0.
Lemma term_near eps x y : eps <= cut_off10 -> 0 <= x <= 1 -> Rabs (x - y) <= eps -> Rabs (kept_term y - eta x / ln 2) <= 2 * slack.
Proof.
  intros E X A. pose proof c_pos as CP. pose proof ln2_pos as L2. assert (SP : 0 < slack) by (unfold slack; lra).
  assert (D : - eps <= y - x <= eps) by (unfold Rabs in A; destruct (Rcase_abs (x - y)); lra).
  assert (Q : forall z, Rabs z <= 2 * slack * ln 2 -> Rabs (z / ln 2) <= 2 * slack).
  { intros z Hz. unfold Rdiv. rewrite Rabs_mult, (Rabs_pos_eq (/ ln 2)) by (left; apply Rinv_0_lt_compat, L2). apply Rmult_le_reg_r with (ln 2); [exact L2|]. rewrite Rmult_assoc, Rinv_l by lra. lra. }
  assert (Z : Rabs (- eta x / ln 2) <= 2 * slack \/ cut_off10 <= x).
  { destruct (Rle_dec cut_off10 x) as [|N]; [right; assumption|left]. apply Q. destruct (Req_dec x 0) as [->|]; [unfold eta; rewrite Rmult_0_l, !Ropp_0, Rabs_R0; nra|].
    destruct (eta_small x ltac:(lra)) as [G1 G2]. rewrite Rabs_Ropp, Rabs_pos_eq; lra. }
  unfold kept_term. destruct (Rlt_dec cut_off10 (Rabs y)) as [K|K].
  - assert (Y : cut_off10 < y) by (unfold Rabs in K; destruct (Rcase_abs y); lra).
    replace (eta y / ln 2 - eta x / ln 2) with ((eta y - eta x) / ln 2) by (unfold Rdiv; ring). apply Q.
    destruct (Rle_dec cut_off10 x) as [Cx|Cx]; [apply eta_near; lra|]. destruct (eta_small y ltac:(lra)) as [G1 G2].
    destruct (Req_dec x 0) as [->|]; [unfold eta in *; rewrite Rmult_0_l, Ropp_0, Rminus_0_r, Rabs_pos_eq; lra|]. destruct (eta_small x ltac:(lra)) as [G3 G4]. apply Rabs_le. lra.
  - assert (Y : y <= cut_off10) by (unfold Rabs in K; destruct (Rcase_abs y); lra). replace (0 - eta x / ln 2) with (- eta x / ln 2) by (unfold Rdiv; ring).
    destruct Z as [Z|Z]; [exact Z|]. apply Q. destruct (eta_small x ltac:(lra)) as [G1 G2]. rewrite Rabs_Ropp, Rabs_pos_eq; lra.
Qed.
Lemma sum_near eps l l' : eps <= cut_off10 -> Forall (fun x => 0 <= x <= 1) l -> Forall2 (fun x y => Rabs (x - y) <= eps) l l' ->
  Rabs (entropy_of cut_off10 l' - entropy_of 0 l) <= INR (length l) * (2 * slack).
Proof.
  intros E F N. induction N as [|x y l l' H N IH].
  - unfold entropy_of. cbn. rewrite Rabs_pos_eq; lra.
  - inversion F as [|? ? F1 F2]; subst. specialize (IH F2). cbn [length]. rewrite S_INR. pose proof (term_near eps x y E F1 H) as T.
    assert (EQ : entropy_of cut_off10 (y :: l') - entropy_of 0 (x :: l) = (kept_term y - eta x / ln 2) + (entropy_of cut_off10 l' - entropy_of 0 l)).
    { unfold entropy_of. cbn [map fold_right]. unfold kept_term, eta. destruct (Rlt_dec 0 (Rabs x)) as [P|P]; [|assert (x = 0) by (rewrite Rabs_pos_eq in P; lra); subst x]; destruct (Rlt_dec cut_off10 (Rabs y)); unfold Rdiv; ring. }
    rewrite EQ. pose proof (Rabs_triang (kept_term y - eta x / ln 2) (entropy_of cut_off10 l' - entropy_of 0 l)). lra.
Qed.
Open Scope nat_scope.
Lemma entropy_within eps eigvalsh A d s : (eps <= cut_off10)%R -> eigvalsh_within eps eigvalsh -> is_square d A -> density d (me A) -> von_neumann d (me A) s ->
  exists r, entropy eigvalsh [A] = Ok r /\ (Rabs (r - s) <= INR d * (2 * slack))%R.
Proof.
  intros E OK Q H V. cbn [entropy forallb flat_map]. rewrite app_nil_r. eexists. split; [reflexivity|]. rewrite entropy_eigs_of.
  destruct (OK d A Q (proj1 H)) as (l & SP & N). assert (V' : von_neumann d (me A) (entropy_of 0%R l)) by (exists l; auto). rewrite (von_unique d _ d _ s _ V V') by reflexivity.
  destruct (density_eigs d (me A) l H SP) as [F _]. destruct SP as [<- _]. exact (sum_near eps l _ E F N).
Qed.
(** what is computed, for any eigvalsh *)
Theorem coherent_raw eigvalsh sqrtm sp (a : kraus_arg CC) nq din dout orthogonal o0 past n rho reg :
  kraus_init sp a nq din dout orthogonal = Ok o0 -> arg_matrices a <> [] -> sp = true \/ orthogonal = [] -> Forall (fun m => 1 <= m) past -> 1 <= n -> clean sp past n ->
  let D := (din ^ fst nq) ^ n in let D' := (dout ^ snd nq) ^ n in let N := length (arg_matrices a) ^ n in is_square D rho ->
  exists out W, is_square D' out /\ eqm D' D' (me out) (channel_map (power_ops (arg_matrices a) n) (me rho)) /\
    is_square N W /\ eqm N N (me W) (exchange_entry (power_ops (arg_matrices a) n) (me rho)) /\
    forall s1 s2, entropy eigvalsh [out] = Ok s1 -> entropy eigvalsh [W] = Ok s2 ->
    snd (coherent_information eigvalsh sqrtm (after (KrausType o0) past) rho n reg) = Ok (if reg then (s1 - s2) / INR n else s1 - s2)%R.
Proof.
  intros H NE OR HP Hn CL D D' N SQ.
  destruct (c31 _ _ _ _ _ _ _ _ _ rho H NE HP Hn CL SQ) as (out & E1 & Q1 & V1 & _ & H1 & _).
  destruct (c35 _ _ _ _ _ _ _ (past ++ [n]) n rho H NE OR) as (W & E2 & Q2 & V2 & _ & H2 & _).
  { apply Forall_app. split; [exact HP|]. constructor; [exact Hn|constructor]. } { exact Hn. }
  { intros S1 S2. apply Forall_app. split; [apply CL; assumption|]. constructor; [exact S2|constructor]. } { exact SQ. }
  fold D D' in Q1, V1, H1. fold D N in Q2, V2, H2. exists out, W. split; [exact Q1|]. split; [exact V1|]. split; [exact Q2|]. split; [exact V2|]. intros s1 s2 S1 S2.
  unfold coherent_information.
  assert (L : fst (chan_channel (after (KrausType o0) past) rho n false) = after (KrausType o0) (past ++ [n])).
  { unfold after. rewrite fold_left_app. cbn [fold_left]. fold (after (KrausType o0) past).
    assert (exists k, after (KrausType o0) past = KrausType k) as [k ->].
    { unfold after. clear. revert o0. induction past as [|m l IH]; intros o0; [exists o0; reflexivity|]. cbn [fold_left update_channel_tensored].
      destruct (Nat.eqb m (current_n o0)); [apply IH|]. destruct (update_kraus_operators o0 m) as [k r]. apply IH. }
    cbn [chan_channel update_channel_tensored]. unfold at_n. destruct (Nat.eqb n (current_n k)); [reflexivity|]. destruct (update_kraus_operators k n) as [k' [u|e]]; reflexivity. }
  destruct (chan_channel (after (KrausType o0) past) rho n false) as [c1 q]. cbn [fst snd] in *. subst q c1.
  assert (exists k, after (KrausType o0) (past ++ [n]) = KrausType k) as [k EK].
  { unfold after. clear. revert o0. induction (past ++ [n]) as [|m l IH]; intros o0; [exists o0; reflexivity|]. cbn [fold_left update_channel_tensored].
    destruct (Nat.eqb m (current_n o0)); [apply IH|]. destruct (update_kraus_operators o0 m) as [k r]. apply IH. }
  rewrite EK in *. destruct (chan_exchange (KrausType k) rho n) as [c2 w]. cbn [snd] in *. subst w. cbn [bind]. rewrite S1. cbn [bind]. rewrite S2. cbn [bind]. reflexivity.
Qed.
