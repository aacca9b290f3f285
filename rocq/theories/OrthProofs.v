(** orthogonal_kraus with one index in the middle: the entropy of the two blocks is that of the whole matrix (C127). *)
From Verif Require Import Py Scalar PauliModel PauliSpec EncoderProofs EighExists Spectral SpectralProofs PowerSums KrausModel KrausSpec KrausProofs KrausProofs2 KrausProofs5 KrausProofs6 KrausProofs7 KrausProofs8 KrausProofs11 KrausProofs12
  ChoiModel ChannelModel ChannelSpec ChoiSpec ChoiProofs ChoiProofs2 ChoiProofs3 Sqrt EntropyProofs EntropySpec Subadd CohProofs CohProofs2 CohProofs3 CohProofs4 Processing ProcessingSpec Processing2 Degradable KnownSpec KnownProofs KnownProofs2 OptimProofs3 OrthSpec.
From Coq Require Import Reals Lra.
Open Scope nat_scope.
Open Scope K_scope.
Add Ring CCring61 : (s_rt CC).

Lemma spectrum_dsum d e A B l m : spectrum d A l -> spectrum e B m -> spectrum (d + e) (dsum d A B) (l ++ m).
Proof.
  intros [L [U HU]] [M [V HV]]. split; [rewrite app_length; lia|]. exists (dsum d U V). pose proof (dsum_eigen _ _ _ _ _ _ _ _ HU HV) as H.
  destruct H as [H1 H2]. split; [exact H1|]. intros i j Hi Hj. rewrite (H2 i j Hi Hj).
  replace (nth j (l ++ m) 0%R) with (if Nat.ltb j d then nth j l 0%R else nth (j - d) m 0%R); [reflexivity|].
  destruct (Nat.ltb_spec j d); [rewrite app_nth1 by lia|rewrite app_nth2, L by lia]; reflexivity.
Qed.
Lemma power_split r c (l : list (marr CC)) n rho : fits r c l -> 1 <= n -> forall b, apart_at c l b ->
  forall i j, i < length l ^ n -> j < length l ^ n -> (i < b * length l ^ (n - 1) <= j \/ j < b * length l ^ (n - 1) <= i)%nat ->
  exchange_entry (power_ops l n) rho i j = 0.
Proof.
  intros F Hn b AP i j Hi Hj SP. destruct n as [|n]; [lia|]. clear Hn. replace (S n - 1)%nat with n in * by lia. cbn [power_ops].
  pose proof (power_len l n) as PL. rewrite <- PL in SP. set (m := power_ops l n) in *. cbn [Nat.pow] in Hi, Hj. rewrite <- PL in Hi, Hj.
  assert (FM : fits (r ^ n) (c ^ n) m) by (apply fits_power, F).
  unfold exchange_entry. rewrite !tens_nth by assumption.
  pose proof (div_lt_mul _ _ _ Hi) as I1. pose proof (div_lt_mul _ _ _ Hj) as J1. pose proof (mod_lt_mul _ _ _ Hi) as I2. pose proof (mod_lt_mul _ _ _ Hj) as J2.
  assert (M0 : length m <> 0%nat) by (intros Z; rewrite Z in Hi; lia).
  assert (S' : (i / length m < b <= j / length m \/ j / length m < b <= i / length m)%nat).
  { destruct SP as [[A B]|[A B]]; [left|right]; (split; [apply Nat.div_lt_upper_bound; lia|apply Nat.div_le_lower_bound; lia]). }
  destruct (nth_fits _ _ _ _ F I1) as [A1 A2]. destruct (nth_fits _ _ _ _ F J1) as [B1 B2]. destruct (nth_fits _ _ _ _ FM I2) as [C1 C2]. destruct (nth_fits _ _ _ _ FM J2) as [G1 G2].
  assert (Z : forall x y, x < c -> y < c -> mm r (adj (me (nth (j / length m) l one_by_one))) (me (nth (i / length m) l one_by_one)) x y = 0).
  { intros x y Hx Hy. destruct S' as [[A B]|[A B]].
    - pose proof (AP _ _ x y A (conj B J1) Hx Hy) as Q. rewrite A1 in Q. exact Q.
    - pose proof (AP _ _ y x A (conj B I1) Hy Hx) as Q. rewrite B1 in Q. apply (f_equal sconj) in Q. rewrite sconj_0 in Q. rewrite <- Q. unfold mm, adj. rewrite bsum_conj. apply bsum_ext. intros k _. rewrite sconj_mul, sconj_conj. ring. }
  cbn [tens mr mc]. rewrite A1, A2, C1, C2.
  set (Ai := nth (i / length m) l one_by_one) in *. set (Aj := nth (j / length m) l one_by_one) in *. set (Bi := nth (i mod length m) m one_by_one) in *. set (Bj := nth (j mod length m) m one_by_one) in *.
  rewrite tr_mm. transitivity (tr (c * c ^ n) (mm (c * c ^ n) (mm (r * r ^ n) (adj (me (tens Aj Bj))) (me (tens Ai Bi))) rho)).
  { apply tr_eqm. intros x y _ _. symmetry. apply mm_assoc. }
  unfold tr. apply bsum_zero. intros x Hx. unfold mm at 1. apply bsum_zero. intros y Hy.
  replace (mm (r * r ^ n) (adj (me (tens Aj Bj))) (me (tens Ai Bi)) x y) with (0 : CC); [ring|]. symmetry.
  transitivity (mm (r * r ^ n) (kf (c ^ n) (r ^ n) (adj (me Aj)) (adj (me Bj))) (kf (r ^ n) (c ^ n) (me Ai) (me Bi)) x y).
  { apply mm_ext; intros k _; [rewrite <- adj_kf; unfold adj; rewrite me_tens, G1, G2|rewrite me_tens, C1, C2]; reflexivity. }
  rewrite mm_kf. unfold kf. rewrite Z by (eapply div_lt_mul; eassumption). ring.
Qed.
Lemma coherent_steps eigvalsh sqrtm (o0 : kraus CC) past n rho reg out Ws s1 s2 :
  snd (chan_channel (after (KrausType o0) past) rho n false) = Ok out -> snd (chan_exchange (after (KrausType o0) (past ++ [n])) rho n) = Ok Ws ->
  entropy eigvalsh [out] = Ok s1 -> entropy eigvalsh Ws = Ok s2 ->
  snd (coherent_information eigvalsh sqrtm (after (KrausType o0) past) rho n reg) = Ok (if reg then (s1 - s2) / INR n else s1 - s2)%R.
Proof.
  intros E1 E2 T1 S2.
  unfold coherent_information.
  assert (L : fst (chan_channel (after (KrausType o0) past) rho n false) = after (KrausType o0) (past ++ [n])).
  { unfold after. rewrite fold_left_app. cbn [fold_left]. fold (after (KrausType o0) past).
    assert (exists k, after (KrausType o0) past = KrausType k) as [k ->].
    { unfold after. clear. revert o0. induction past as [|m l IH]; intros o0; [exists o0; reflexivity|]. cbn [fold_left update_channel_tensored].
      destruct (Nat.eqb m (current_n o0)); [apply IH|]. destruct (update_kraus_operators o0 m) as [k r]. apply IH. }
    cbn [chan_channel update_channel_tensored]. unfold at_n. destruct (Nat.eqb n (current_n k)); [reflexivity|]. destruct (update_kraus_operators k n) as [k' [u|e]]; reflexivity. }
  destruct (chan_channel (after (KrausType o0) past) rho n false) as [c1 q]. cbn [fst snd] in *. subst q c1.
  assert (exists k, after (KrausType o0) (past ++ [n]) = KrausType k) as [k EK].
  { unfold after. clear. revert o0. induction (past ++ [n]) as [|m l IH]; intros o0; [exists o0; reflexivity|]. cbn [fold_left update_channel_tensored].
    destruct (Nat.eqb m (current_n o0)); [apply IH|]. destruct (update_kraus_operators o0 m) as [k r]. apply IH. }
  rewrite EK in *. destruct (chan_exchange (KrausType k) rho n) as [c2 w]. cbn [snd] in *. subst w. cbn [bind]. rewrite T1. cbn [bind]. rewrite S2. cbn [bind]. reflexivity.
Qed.
Theorem coherent_halves eigvalsh sqrtm (a : kraus_arg CC) nq din dout b o0 past n rho reg :
  eigvalsh_ok eigvalsh ->
  kraus_init false a nq din dout [b] = Ok o0 -> arg_matrices a <> [] -> (2 * b)%nat = length (arg_matrices a) -> apart_at (din ^ fst nq) (arg_matrices a) b -> Forall (fun m => 1 <= m)%nat past -> (1 <= n)%nat ->
  let D := ((din ^ fst nq) ^ n)%nat in let D' := ((dout ^ snd nq) ^ n)%nat in let N := (length (arg_matrices a) ^ n)%nat in is_square D rho -> hermitian D (me rho) ->
  exists s1 s2, snd (coherent_information eigvalsh sqrtm (after (KrausType o0) past) rho n reg) = Ok (if reg then (s1 - s2) / INR n else s1 - s2)%R /\
    vn_entropy D' (channel_map (power_ops (arg_matrices a) n) (me rho)) s1 /\
    vn_entropy N (exchange_entry (power_ops (arg_matrices a) n) (me rho)) s2.
Proof.
  intros OK H NE HB AP HP Hn D D' N SQ HE.
  assert (CL : clean false past n) by (intros X; discriminate X).
  destruct (c31 _ _ _ _ _ _ _ _ _ rho H NE HP Hn CL SQ) as (out & E1 & Q1 & V1 & _ & H1 & _).
  destruct (one_boundary a nq din dout b o0 (past ++ [n]) n rho H NE HB) as (Ws & E2 & G).
  { apply Forall_app. split; [exact HP|]. constructor; [exact Hn|constructor]. } { exact Hn. } { exact SQ. }
  fold D D' in Q1, V1, H1. set (h := (b * length (arg_matrices a) ^ (n - 1))%nat) in *.
  assert (NH : N = (h + h)%nat). { unfold N, h. destruct n as [|k]; [lia|]. cbn [Nat.pow Nat.sub]. rewrite Nat.sub_0_r. rewrite <- HB at 1. lia. }
  set (X := exchange_entry (power_ops (arg_matrices a) n) (me rho)) in *.
  specialize (G (MA N N X) (conj eq_refl eq_refl) (fun i j _ _ => eq_refl)). cbn [diagonal_blocks mr] in G.
  inversion G as [|W1 Y1 l1 l2 S1 G' E3 E4]; subst. inversion G' as [|W2 Y2 l3 l4 S2 G'' E5 E6]; subst. inversion G''; subst. clear G G' G''.
  destruct (made _ _ _ _ _ _ _ H NE) as (_ & _ & _ & F & _).
  assert (FP : fits D' D (power_ops (arg_matrices a) n)) by (apply fits_power, F).
  pose proof (exchange_hermitian _ _ _ _ FP HE) as HX. rewrite power_len in HX. fold N X in HX.
  destruct S1 as (R1 & C1 & V2). destruct S2 as (R2 & C2 & V3). cbn [block mr mc me] in R1, C1, V2, R2, C2, V3. rewrite R1 in V2. rewrite C1 in V2. rewrite R2, C2 in V3.
  rewrite Nat.sub_0_r in *. replace (N - h)%nat with h in * by lia.
  assert (HX1 : hermitian h (me W1)). { intros i j Hi Hj. unfold adj. rewrite !V2 by assumption. apply HX; lia. }
  assert (HX2 : hermitian h (me W2)). { intros i j Hi Hj. unfold adj. rewrite !V3 by assumption. apply HX; lia. }
  pose proof (OK h W1 (conj R1 C1) HX1) as P1. pose proof (OK h W2 (conj R2 C2) HX2) as P2.
  destruct (entropy_one eigvalsh out _ OK Q1 (H1 HE)) as (s1 & T1 & VS1).
  exists s1, (entropy_of (/ 10000000000)%R (eigvalsh W1 ++ eigvalsh W2)). split; [|split; [exact (vn_ext _ _ _ _ V1 VS1)|]].
  2:{ exists (eigvalsh W1 ++ eigvalsh W2). split; [|reflexivity]. rewrite NH. apply (spectrum_ext _ (dsum h (me W1) (me W2))); [|apply spectrum_dsum; assumption].
      intros i j Hi Hj. unfold dsum. destruct (Nat.ltb_spec i h) as [Li|Li]; destruct (Nat.ltb_spec j h) as [Lj|Lj].
      - apply V2; assumption.
      - symmetry. apply (power_split (dout ^ snd nq) (din ^ fst nq) _ _ _ F Hn b AP); fold N h; lia.
      - symmetry. apply (power_split (dout ^ snd nq) (din ^ fst nq) _ _ _ F Hn b AP); fold N h; lia.
      - rewrite V3 by lia. f_equal; lia. }
  assert (S2 : entropy eigvalsh [W1; W2] = Ok (entropy_of (/ 10000000000)%R (eigvalsh W1 ++ eigvalsh W2))).
  { cbn [entropy forallb flat_map]. rewrite R1, C1, R2, C2, Nat.eqb_refl. cbn [andb]. rewrite app_nil_r. f_equal. apply entropy_eigs_of. }
  exact (coherent_steps _ _ _ _ _ _ _ _ _ _ _ E1 E2 T1 S2).
Qed.

(** values for C127_refuted *)
Lemma entropy_of_app cut l m : entropy_of cut (l ++ m) = (entropy_of cut l + entropy_of cut m)%R.
Proof.
  unfold entropy_of. rewrite map_app. assert (H : forall a b, fold_right Rplus 0%R (a ++ b) = (fold_right Rplus 0 a + fold_right Rplus 0 b)%R).
  { induction a as [|x a IH]; intros b; cbn [List.app fold_right]; [symmetry; apply Rplus_0_l|]. rewrite IH. symmetry. apply Rplus_assoc. } rewrite H. apply Ropp_plus_distr.
Qed.
Lemma vn_diag d A l s : length l = d -> eqm d d A (diag_mat l) -> vn_entropy d A s -> s = entropy_of (/ 10000000000)%R l.
Proof.
  intros L E V. apply (vn_unique d (diag_mat l) d (diag_mat l)); [exact (vn_ext _ _ _ _ E V)|exists l; split; [apply diag_spectrum, L|reflexivity]|reflexivity].
Qed.
Lemma entropy_half : entropy_of (/ 10000000000)%R [(/ 2)%R] = (/ 2)%R.
Proof.
  unfold entropy_of. cbn [map fold_right]. destruct (Rlt_dec _ _) as [_|N]; [|exfalso; apply N; rewrite Rabs_pos_eq; lra]. rewrite ln_Rinv by lra. pose proof ln2_pos. field. lra.
Qed.
Lemma entropy_quarter : entropy_of (/ 10000000000)%R [(/ 4)%R] = (/ 2)%R.
Proof.
  unfold entropy_of. cbn [map fold_right]. destruct (Rlt_dec _ _) as [_|N]; [|exfalso; apply N; rewrite Rabs_pos_eq; lra]. rewrite ln_Rinv by lra. replace 4%R with (2 * 2)%R by lra. rewrite ln_mult by lra. pose proof ln2_pos. field. lra.
Qed.
