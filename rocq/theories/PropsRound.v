(** Rounding errors of the eigenvalue routine (C140).
    Specification: RoundSpec.v (eigenvalues up to an error), EntropySpec.v, ChoiSpec.v (von_neumann), KrausSpec.v.
    Model: ChannelModel.v, KrausModel.v.  [past]: the numbers of uses asked for before. *)
From Verif Require Import Py Scalar PauliModel PauliSpec EncoderProofs EighExists Spectral SpectralProofs KrausModel KrausSpec KrausProofs KrausProofs2 KrausProofs5 KrausProofs6 KrausProofs8 KrausProofs12
  ChoiModel ChannelModel ChannelSpec ChoiSpec SpectralExists ChoiProofs3 EntropyProofs EntropySpec CohProofs CohProofs3 CohProofs4 Processing ProcessingSpec Processing2 Degradable KnownSpec KnownProofs KnownProofs2 KnownProofs3 RoundSpec RoundProofs PropsKnown PropsDegradable.
From Coq Require Import Reals Lra.
Open Scope nat_scope.

(** ** C140 *)
Section Round.
Variables (eps : R) (eigvalsh : marr CC -> list R) (sqrtm : marr CC -> marr CC).
Hypothesis SMALL : (eps <= / 10000000000)%R.
Hypothesis OK : eigvalsh_within eps eigvalsh.
(** no logarithm of zero or of a negative number is taken: what passes the cut-off is positive *)
Theorem C140_logarithms d A : is_square d A -> density d (me A) -> Forall (fun y => (0 < y)%R) (filter (fun y => below cut_off10 (Rabs y)) (eigvalsh A)).
Proof.
  intros Q H. destruct (OK d A Q (proj1 H)) as (l & SP & N). destruct (density_eigs d (me A) l H SP) as [F _]. clear SP. induction N as [|x y l l' E N IH]; [constructor|].
  inversion F as [|? ? F1 F2]; subst. cbn [filter]. unfold below at 1. destruct (Rlt_dec cut_off10 (Rabs y)) as [L|L]; [constructor|]; [|exact (IH F2)..].
  unfold cut_off10 in L. unfold Rabs in L, E. destruct (Rcase_abs y), (Rcase_abs (x - y)); lra.
Qed.
(** the entropy of a density matrix is near its von Neumann entropy *)
Theorem C140_entropy d A : is_square d A -> density d (me A) -> exists r s, entropy eigvalsh [A] = Ok r /\ von_neumann d (me A) s /\ (Rabs (r - s) <= INR d * (68 / 10000000000))%R.
Proof.
  intros Q H. destruct (von_exists d (me A) (proj1 H)) as (s & V). destruct (entropy_within eps eigvalsh A d s SMALL OK Q H V) as (r & E & B). exists r, s. split; [exact E|]. split; [exact V|].
  replace (68 / 10000000000)%R with (2 * slack)%R by (unfold slack; lra). exact B.
Qed.
(** and so is the coherent information *)
Theorem C140_value sp (a : kraus_arg CC) nq din dout orthogonal o0 past n rho reg :
  kraus_init sp a nq din dout orthogonal = Ok o0 -> arg_matrices a <> [] -> sp = true \/ orthogonal = [] -> Forall (fun m => 1 <= m) past -> 1 <= n -> clean sp past n ->
  let D := (din ^ fst nq) ^ n in let D' := (dout ^ snd nq) ^ n in let N := length (arg_matrices a) ^ n in
  trace_preserving (din ^ fst nq) (arg_matrices a) -> is_square D rho -> density D (me rho) ->
  exists r s1 s2, snd (coherent_information eigvalsh sqrtm (after (KrausType o0) past) rho n reg) = Ok (if reg then r / INR n else r)%R /\
    von_neumann D' (channel_map (power_ops (arg_matrices a) n) (me rho)) s1 /\ von_neumann N (exchange_entry (power_ops (arg_matrices a) n) (me rho)) s2 /\
    (Rabs (r - (s1 - s2)) <= (INR D' + INR N) * (68 / 10000000000))%R.
Proof.
  intros I0 NE OR HP Hn CL D D' N TP0 SQ DR. replace (68 / 10000000000)%R with (2 * slack)%R by (unfold slack; lra).
  pose proof (fitsn sp a nq din dout orthogonal o0 n I0 NE) as F. fold D D' in F.
  assert (TP : trace_preserving D (power_ops (arg_matrices a) n)) by (apply (tp_power (dout ^ snd nq)); [eapply fits0; eassumption|exact TP0]).
  pose proof (channel_density D' D _ (me rho) F TP DR) as DO. pose proof (exchange_density D' D _ (me rho) F TP DR) as DW.
  assert (PL : length (power_ops (arg_matrices a) n) = N) by apply power_len. rewrite PL in DW.
  destruct (coherent_raw eigvalsh sqrtm sp a nq din dout orthogonal o0 past n rho reg I0 NE OR HP Hn CL SQ) as (out & W & Q1 & V1 & Q2 & V2 & E).
  fold D D' in Q1, V1. fold N in Q2, V2. destruct (von_exists _ _ (proj1 DO)) as (s1 & W1). destruct (von_exists _ _ (proj1 DW)) as (s2 & W2).
  destruct (entropy_within eps eigvalsh out D' s1 SMALL OK Q1) as (r1 & E1 & B1); [exact (density_ext _ _ _ (eqm_sym _ _ _ _ V1) DO)|exact (von_ext _ _ _ _ (eqm_sym _ _ _ _ V1) W1)|].
  destruct (entropy_within eps eigvalsh W N s2 SMALL OK Q2) as (r2 & E2 & B2); [exact (density_ext _ _ _ (eqm_sym _ _ _ _ V2) DW)|exact (von_ext _ _ _ _ (eqm_sym _ _ _ _ V2) W2)|].
  exists (r1 - r2)%R, s1, s2. split; [exact (E r1 r2 E1 E2)|]. split; [exact W1|]. split; [exact W2|].
  replace (r1 - r2 - (s1 - s2))%R with ((r1 - s1) + - (r2 - s2))%R by ring. eapply Rle_trans; [apply Rabs_triang|]. rewrite Rabs_Ropp. lra.
Qed.
End Round.
Print Assumptions C140_logarithms.
Print Assumptions C140_entropy.
Print Assumptions C140_value.
(** every eigenvalue is returned too small by 1e-10, those that are 0 come out negative *)
Example C140_case : exists exact eigvalsh o0 r s1 s2, eigvalsh_ok exact /\ (forall A, eigvalsh A = map (fun x => (x - / 10000000000)%R) (exact A)) /\ eigvalsh_within (/ 10000000000) eigvalsh /\
  kraus_init false damp_ops (1, 1) 2 2 [] = Ok o0 /\ snd (coherent_information eigvalsh (fun A => A) (after (KrausType o0) [3; 1]) pair_state 2 true) = Ok (r / 2)%R /\
  von_neumann 4 (channel_map (power_ops (arg_matrices damp_ops) 2) (me pair_state)) s1 /\ von_neumann 4 (exchange_entry (power_ops (arg_matrices damp_ops) 2) (me pair_state)) s2 /\ (Rabs (r - (s1 - s2)) <= 544 / 10000000000)%R.
Proof.
  destruct eigvalsh_exists as (ev & OK). destruct (damp_init false) as (o0 & H0). pose (ev' := fun A => map (fun x => (x - / 10000000000)%R) (ev A)).
  assert (OK' : eigvalsh_within (/ 10000000000) ev').
  { intros d A Q H. exists (ev A). split; [exact (OK d A Q H)|]. unfold ev'. induction (ev A) as [|x l IH]; constructor; [|exact IH]. replace (x - (x - / 10000000000))%R with (/ 10000000000)%R by ring. rewrite Rabs_pos_eq; lra. }
  destruct (C140_value (/ 10000000000) ev' (fun A => A) ltac:(lra) OK' false damp_ops (1, 1) 2 2 [] o0 [3; 1] 2 pair_state true H0) as (r & s1 & s2 & E & V1 & V2 & B);
    try first [discriminate|right; reflexivity|repeat constructor; fail|lia|exact damp_tp|exact pair_density|split; reflexivity]; try (intros D; discriminate D).
  exists ev, ev', o0, r, s1, s2. split; [exact OK|]. split; [reflexivity|]. split; [exact OK'|]. split; [exact H0|]. replace (INR 2) with 2%R in E by (cbn; ring). split; [exact E|].
  split; [exact V1|]. split; [exact V2|]. cbn in B. lra.
Qed.
