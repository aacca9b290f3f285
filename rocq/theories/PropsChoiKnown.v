(** Channels of C123 to C132 given by their Choi matrix (C133).
    Specification: KnownSpec.v, DephSpec.v (channels), ChoiSpec.v (choi_matrix), ChanSpec.v (istp_ok, iscp_ok: what qutip's istp and iscp decide).
    Model: ChannelModel.v, ChoiModel.v, OptimModel.v.  [channel_of] and [reports_at_most] are as in PropsKnown.v and PropsPureFid.v. *)
From Verif Require Import ChanSpec ChanProofs.
From Verif Require Import Py Scalar PauliModel PauliSpec EncoderProofs EighExists Spectral SpectralProofs KrausModel KrausSpec KrausProofs KrausProofs2 KrausProofs3 KrausProofs4 KrausProofs5 KrausProofs6 KrausProofs8 KrausProofs9 KrausProofs12
  ChoiModel ChannelModel ChannelSpec ChoiSpec ChoiProofs ChoiProofs2 ChoiProofs3 SpectralExists EntropyProofs EntropySpec CohProofs CohProofs3 CohProofs4 ParamModel ParamSpec ParamProofs3 ParamProofs7 OptimModel OptimSpec OptimProofs OptimProofs2 OptimProofs3 KnownSpec KnownProofs KnownProofs2 KnownProofs3 KnownProofs4 Degradable PureFid DephSpec DephMax DephUseless HashProofs PropsKnown PropsPureFid PropsDeph.
From Verif Require PropsOptim PropsDegradable PropsChoi PropsFidelity PropsChan.
From Coq Require Import Reals Lra.
From Coq Require String.
Import String.StringSyntax.
Delimit Scope string_scope with string.
Open Scope nat_scope.
Open Scope K_scope.
Add Ring CCring68 : (s_rt CC).

(** h is an object made by the constructor from the Choi matrix of the channel with Kraus operators ops, with as many systems at the output as at the input *)
Definition choi_of (ops : list (marr CC)) (sp : bool) (h : chan CC) : Prop :=
  exists istp iscp m k din dout, istp_ok istp /\ iscp_ok iscp /\ chan_init_choi istp iscp m (k, k) din dout sp = Ok h /\
    let D := (din ^ k)%nat in let O := (dout ^ k)%nat in is_square (D * O) m /\ fits O D ops /\ eqm (D * O) (D * O) (me m) (choi_matrix ops O).
Lemma fits_dims O D O' D' (ops : list (marr CC)) : ops <> [] -> fits O D ops -> fits O' D' ops -> O' = O /\ D' = D.
Proof. intros NE F G. destruct ops as [|A l]; [congruence|]. destruct (Forall_inv F), (Forall_inv G). split; congruence. Qed.
Lemma choi_twin O D ops sp h : fits O D ops -> ops <> [] -> trace_preserving D ops -> choi_of ops sp h ->
  exists c, channel_of ops false c /\ input_dimension h = D /\ (forall m, (exists u, update_channel_tensored h m = (h, Ok u)) <-> m = 1%nat) /\
    (forall eigvalsh sqrtm rho reg, eigvalsh_ok eigvalsh -> sqrtm_ok sqrtm -> is_square D rho -> density D (me rho) ->
       snd (coherent_information eigvalsh sqrtm h rho 1 reg) = snd (coherent_information eigvalsh sqrtm (after c []) rho 1 reg)) /\
    (O = D -> (2 <= D)%nat -> forall sqrtm rho, sqrtm_ok sqrtm -> is_square D rho -> density D (me rho) -> snd (fidelity_two_states sqrtm h rho 1) = snd (fidelity_two_states sqrtm (after c []) rho 1)).
Proof.
  intros F NE T (istp & iscp & m & k & din & dout & IT & IC & I & SM & F' & E). cbv zeta in *.
  destruct (fits_dims _ _ _ _ _ NE F F') as [EO ED].
  assert (EH : h = ChoiType sp (CH m k k din dout)). { rewrite (PropsChan.C89_accepts istp iscp m (k, k) din dout sp IT IC SM) in I by (exists ops; rewrite <- ED in T; cbn [fst snd]; auto). injection I as <-. reflexivity. }
  destruct (proj2 (chan_init_iff (OpList ops) (k, k) din dout [] false NE)) as (c & EC). { cbn [fst snd arg_matrices]. split; [exact F'|]. rewrite ED. apply tp_nearly, T. }
  exists c. split; [exists (OpList ops), (k, k), din, dout; split; [exact EC|apply same_ops_refl]|]. rewrite EH. split; [cbn; unfold ch_input_dim; cbn; exact ED|].
  split. { intros j. unfold update_channel_tensored. destruct (Nat.eqb_spec j 1) as [->|N]; split; intros H; [reflexivity|exists tt; reflexivity|destruct H as (u & H); discriminate H|congruence]. }
  destruct (chan_init_made _ _ _ _ _ _ _ EC) as (o & -> & K). assert (I0 : kraus_init false (OpList ops) (k, k) din dout [] = Ok o) by exact K. split.
  - intros ev sq rho reg OE OS SQ (H1 & H2 & H3). rewrite <- ED in SQ, H1, H2.
    destruct (PropsChoi.C47_coherent_information ev sq false sp (OpList ops) k din dout [] o [] m rho reg OE OS I0 NE (or_intror eq_refl) ltac:(constructor) ltac:(intros X; discriminate X) SM E SQ H1 H2) as (r & R1 & R2). congruence.
  - intros EQ L sq rho OS SQ DR. assert (EQD : dout = din). { rewrite <- EO, <- ED in EQ. destruct k as [|k]; [cbn in ED; lia|]. apply (Nat.pow_inj_l _ _ (S k)); [lia|exact EQ]. }
    subst dout. rewrite <- ED in SQ, DR, T.
    destruct (PropsFidelity.C118_kinds sq false sp (OpList ops) k din [] o [] m rho OS I0 NE ltac:(constructor) ltac:(intros X; discriminate X) SM E T SQ DR) as (x & X1 & X2). congruence.
Qed.

Section C133.
Variables (eigvalsh : marr CC -> list R) (sqrtm : marr CC -> marr CC) (s : scipy) (g : rng).
Hypothesis OKe : eigvalsh_ok eigvalsh.
Hypothesis OKs : sqrtm_ok sqrtm.
Hypothesis SC : scipy_ok s.
(** ** C133 *)
(** the same number as any Kraus object of the channel, with any history *)
Theorem C133_coherent O D ops sp c past sp' h rho reg : fits O D ops -> ops <> [] -> trace_preserving D ops -> channel_of ops sp c -> Forall (fun m => 1 <= m)%nat past -> clean sp past 1 -> choi_of ops sp' h -> is_square D rho -> density D (me rho) ->
  exists r, snd (coherent_information eigvalsh sqrtm (after c past) rho 1 reg) = Ok r /\ snd (coherent_information eigvalsh sqrtm h rho 1 reg) = Ok r.
Proof.
  intros F NE T C HP CL CH SQ DR. destruct (choi_twin O D ops sp' h F NE T CH) as (c2 & C2 & _ & _ & Q & _). rewrite (Q eigvalsh sqrtm rho reg OKe OKs SQ DR).
  destruct C as (a & nq & din & dout & I & S), C2 as (a2 & nq2 & din2 & dout2 & I2 & S2).
  destruct (chan_init_made _ _ _ _ _ _ _ I) as (k & -> & K). destruct (chan_init_made _ _ _ _ _ _ _ I2) as (k2 & -> & K2).
  assert (NA : arg_matrices a <> []) by (apply (same_nonempty ops); [apply same_ops_sym, S|exact NE]). assert (NA2 : arg_matrices a2 <> []) by (apply (same_nonempty ops); [apply same_ops_sym, S2|exact NE]).
  assert (I0 : kraus_init sp a nq din dout [] = Ok k) by (destruct sp; exact K). assert (I02 : kraus_init false a2 nq2 din2 dout2 [] = Ok k2) by exact K2.
  destruct (fits_dims O D (dout ^ snd nq) (din ^ fst nq) (arg_matrices a) NA) as [EO ED]; [apply (same_ops_fits _ _ ops); [apply same_ops_sym, S|exact F]|exact (fits0 sp a nq din dout [] k I0 NA)|].
  destruct (fits_dims O D (dout2 ^ snd nq2) (din2 ^ fst nq2) (arg_matrices a2) NA2) as [EO2 ED2]; [apply (same_ops_fits _ _ ops); [apply same_ops_sym, S2|exact F]|exact (fits0 false a2 nq2 din2 dout2 [] k2 I02 NA2)|].
  destruct DR as (H1 & H2 & _).
  apply (same_information sp false a a2 nq nq2 din dout din2 dout2 [] [] k k2 past [] 1 I0 I02 NA NA2 HP ltac:(constructor) (le_n 1) CL ltac:(intros X; discriminate X)); try (right; reflexivity); try congruence; try assumption.
  - intros X. rewrite EO. apply (channel_map_same O D); [apply (same_ops_fits _ _ ops); [apply same_ops_sym, S|exact F]|apply (same_ops_trans _ _ _ S), same_ops_sym, S2|apply eqm_refl].
  - rewrite Nat.pow_1_r, ED. exact SQ.
  - rewrite Nat.pow_1_r, ED. exact H1.
  - rewrite Nat.pow_1_r, ED. exact H2.
Qed.
Theorem C133_value O D ops sp h rho reg t : fits O D ops -> ops <> [] -> trace_preserving D ops -> choi_of ops sp h -> is_square D rho -> density D (me rho) -> entropies O ops (me rho) t ->
  exists r, snd (coherent_information eigvalsh sqrtm h rho 1 reg) = Ok (if reg then r / INR 1 else r)%R /\ (fst t - snd t - INR O * slack <= r <= fst t - snd t + INR (length ops) * slack)%R.
Proof.
  intros F NE T CH SQ DR V. destruct (choi_twin O D ops sp h F NE T CH) as (c & C & _ & _ & Q & _). rewrite (Q eigvalsh sqrtm rho reg OKe OKs SQ DR).
  exact (known_one eigvalsh sqrtm OKe O D ops false c F NE T C [] rho reg t ltac:(constructor) ltac:(intros X; discriminate X) SQ DR V).
Qed.
Lemma choi_reported O D ops sp h n rank a name regularized c' o y : fits O D ops -> ops <> [] -> trace_preserving D ops -> choi_of ops sp h -> a_param a = PName name ->
  (forall c rho, channel_of ops false c -> is_square D rho -> density D (me rho) -> exists r, snd (coherent_information eigvalsh sqrtm (after c []) rho 1 regularized) = Ok (if regularized then r / INR 1 else r)%R /\ (r <= y)%R) ->
  optimize_coherent eigvalsh sqrtm s g h n rank a regularized = (c', Ok o) -> n = 1%nat /\ reports_at_most o regularized 1 y.
Proof.
  intros F NE T CH HA B H. destruct (PropsOptim.C57_coherent _ _ _ _ _ _ _ _ _ _ _ SC H) as (E & v & V1 & V2 & _). destruct (PropsOptim.C72_coherent _ _ _ _ _ _ _ _ _ _ _ _ SC HA H) as (Q1 & Q2 & _).
  destruct (choi_twin O D ops sp h F NE T CH) as (c & C & DI & UP & Q & _).
  assert (N : n = 1%nat). { destruct CH as (istp & iscp & m & k & din & dout & IT & IC & I & _). unfold chan_init_choi in I. destruct (choi_init istp iscp m (k, k) din dout) as [x|e]; [|discriminate I]. injection I as <-.
    unfold optimize_coherent in H. cbn [update_channel_tensored] in H. destruct (Nat.eqb_spec n 1) as [->|X]; [reflexivity|]. discriminate H. }
  subst n. split; [reflexivity|]. assert (E' : c' = h). { rewrite E. destruct (proj2 (UP 1%nat) eq_refl) as (u & ->). reflexivity. }
  subst c'. rewrite E' in Q1, Q2. rewrite DI in Q1, Q2. destruct (B c _ C Q1 Q2) as (r & R1 & R2). exists r. split; [|exact R2]. rewrite V1. f_equal. rewrite (Q eigvalsh sqrtm _ regularized OKe OKs Q1 Q2) in V2. rewrite V2 in R1. injection R1 as ->. reflexivity.
Qed.
(** what optimize_coherent can report for a Choi matrix *)
Theorem C133_erasure q D sp h n rank a name regularized c' o : (0 <= q <= 1)%R -> choi_of (erasure q D) sp h -> a_param a = PName name ->
  optimize_coherent eigvalsh sqrtm s g h n rank a regularized = (c', Ok o) -> n = 1%nat /\ reports_at_most o regularized 1 (Rmax 0 (1 - 2 * q) * log2 (INR D) + INR (D + 1) * slack)%R.
Proof.
  intros Hq CH HA. apply (choi_reported (D + 1) D _ sp h n rank a name regularized c' o _ (erasure_fits q D) (erasure_some q D) (erasure_tp q D Hq) CH HA). intros c rho C S1 S2.
  destruct (C123_most eigvalsh sqrtm OKe q D false c [] 1 rho regularized Hq C) as (r & R1 & R2); [constructor|lia|intros X; discriminate X|rewrite Nat.pow_1_r; assumption..|].
  exists r. split; [exact R1|]. rewrite Nat.pow_1_r in R2. cbn [INR] in R2. lra.
Qed.
Theorem C133_bit_flip p sp h n rank a name regularized c' o : (0 <= p <= 1)%R -> choi_of (bit_flip p) sp h -> a_param a = PName name ->
  optimize_coherent eigvalsh sqrtm s g h n rank a regularized = (c', Ok o) -> n = 1%nat /\ reports_at_most o regularized 1 (1 - binary_entropy p + 2 * slack)%R.
Proof.
  intros Hp CH HA. apply (choi_reported 2 2 _ sp h n rank a name regularized c' o _ (bit_flip_fits p) (bit_flip_some p) (bit_flip_tp p Hp) CH HA). intros c rho C S1 S2.
  destruct (C124_most eigvalsh sqrtm OKe p false c [] 1 rho regularized Hp C) as (r & R1 & R2); [constructor|lia|intros X; discriminate X|assumption..|].
  exists r. split; [exact R1|]. cbn in R2. lra.
Qed.
Theorem C133_damping p v sp h n rank a name regularized c' o : (0 <= p <= 1)%R -> (0 <= v)%R -> (forall x, (0 <= x <= 1)%R -> (damping_value p x <= v)%R) -> choi_of (amplitude_damping p) sp h -> a_param a = PName name ->
  optimize_coherent eigvalsh sqrtm s g h n rank a regularized = (c', Ok o) -> n = 1%nat /\ reports_at_most o regularized 1 (v + 2 * slack)%R.
Proof.
  intros Hp Hv B CH HA. apply (choi_reported 2 2 _ sp h n rank a name regularized c' o _ (damping_fits p) (damping_some p) (damping_tp p Hp) CH HA). intros c rho C S1 S2.
  destruct (Rle_dec p (1 / 2)) as [L|L].
  - destruct (C125_most eigvalsh sqrtm OKe p v false c [] 1 rho regularized ltac:(lra) B C) as (r & R1 & R2); [constructor|lia|intros X; discriminate X|assumption..|]. exists r. split; [exact R1|]. cbn in R2. lra.
  - destruct (C125_useless eigvalsh sqrtm OKe p false c [] 1 rho regularized ltac:(lra) C) as (r & R1 & R2); [constructor|lia|intros X; discriminate X|assumption..|]. exists r. split; [exact R1|]. cbn in R2. lra.
Qed.
Theorem C133_dephrasure p q sp h n rank a name regularized c' o : (0 < p < 1 / 2)%R -> (0 <= q <= optima_mixed_state_bound p)%R -> choi_of (dephrasure p q) sp h -> a_param a = PName name ->
  optimize_coherent eigvalsh sqrtm s g h n rank a regularized = (c', Ok o) -> n = 1%nat /\ reports_at_most o regularized 1 ((1 - 2 * q) - (1 - q) * binary_entropy p + 4 * slack)%R.
Proof.
  intros Hp Hq CH HA. assert (Hq' : (0 <= q <= 1)%R) by (pose proof (bound_half p Hp); lra).
  apply (choi_reported 3 2 _ sp h n rank a name regularized c' o _ (dephrasure_fits p q) ltac:(discriminate) (dephrasure_tp p q ltac:(lra) Hq') CH HA). intros c rho C S1 S2.
  apply (C130_most eigvalsh sqrtm OKe p q false c [] rho regularized Hp Hq C); [constructor|intros X; discriminate X|assumption..].
Qed.
Theorem C133_dephrasure_mixed p q sp h reg : (0 <= p <= 1)%R -> (0 <= q <= 1)%R -> choi_of (dephrasure p q) sp h ->
  let v := ((1 - 2 * q) - (1 - q) * binary_entropy p)%R in
  exists r, snd (coherent_information eigvalsh sqrtm h (mixed_state 2) 1 reg) = Ok (if reg then r / INR 1 else r)%R /\ (v - 3 * slack <= r <= v + 4 * slack)%R.
Proof.
  intros Hp Hq CH v. destruct (mixed_state_entropy 2 ltac:(lia)) as [DM _].
  destruct (C133_value 3 2 _ sp h (mixed_state 2) reg _ (dephrasure_fits p q) ltac:(discriminate) (dephrasure_tp p q Hp Hq) CH (conj eq_refl eq_refl) DM (dephrasure_mixed p q Hp Hq)) as (r & E & B).
  exists r. split; [exact E|]. change (length (dephrasure p q)) with 4%nat in B. cbn [fst snd] in B. replace (INR 4) with 4%R in B by (cbn; lra). replace (INR 3) with 3%R in B by (cbn; lra). unfold v. lra.
Qed.
(** fidelities of pure qubits *)
Lemma choi_fidelity_same D ops sp h rho v : fits D D ops -> ops <> [] -> trace_preserving D ops -> choi_of ops sp h -> (2 <= D)%nat -> is_square D rho -> unit_vector D v -> eqm D D (me rho) (pure v) ->
  exists c, channel_of ops false c /\ snd (fidelity_two_states sqrtm h rho 1) = snd (fidelity_two_states sqrtm (after c []) rho 1).
Proof.
  intros F NE T CH L SQ U E. destruct (choi_twin D D ops sp h F NE T CH) as (c & C & _ & _ & _ & Q). exists c. split; [exact C|]. apply Q; try assumption; try reflexivity. apply (density_ext D (pure v)); [apply eqm_sym, E|apply pure_density, U].
Qed.
Theorem C133_fidelity_bit_flip p sp h rho v : (0 <= p <= 1)%R -> choi_of (bit_flip p) sp h -> is_square 2 rho -> unit_vector 2 v -> eqm 2 2 (me rho) (pure v) ->
  exists x, snd (fidelity_two_states sqrtm h rho 1) = Ok x /\ (sqrt (1 - p) <= x <= 1)%R.
Proof.
  intros Hp CH SQ U E. destruct (choi_fidelity_same 2 _ sp h rho v (bit_flip_fits p) (bit_flip_some p) (bit_flip_tp p Hp) CH (le_n 2) SQ U E) as (c & C & ->).
  destruct (C128_bit_flip sqrtm OKs p false c [] 1 rho v Hp C) as (x & X & B); [constructor|lia|intros X; discriminate X|assumption..|]. exists x. rewrite pow_1 in B. auto.
Qed.
Theorem C133_fidelity_damping p sp h rho v : (0 <= p <= 1)%R -> choi_of (amplitude_damping p) sp h -> is_square 2 rho -> unit_vector 2 v -> eqm 2 2 (me rho) (pure v) ->
  exists x, snd (fidelity_two_states sqrtm h rho 1) = Ok x /\ (sqrt (1 - p) <= x <= 1)%R.
Proof.
  intros Hp CH SQ U E. destruct (choi_fidelity_same 2 _ sp h rho v (damping_fits p) (damping_some p) (damping_tp p Hp) CH (le_n 2) SQ U E) as (c & C & ->).
  destruct (C128_damping sqrtm OKs p false c [] 1 rho v Hp C) as (x & X & B); [constructor|lia|intros X; discriminate X|assumption..|]. exists x. rewrite pow_1 in B. auto.
Qed.
Theorem C133_fidelity_depolarising p sp h rho v : (0 <= p <= 1)%R -> choi_of (depolarising p) sp h -> is_square 2 rho -> unit_vector 2 v -> eqm 2 2 (me rho) (pure v) ->
  snd (fidelity_two_states sqrtm h rho 1) = Ok (sqrt (1 - 2 * p / 3)).
Proof.
  intros Hp CH SQ U E. destruct (choi_fidelity_same 2 _ sp h rho v (depolarising_fits p) ltac:(discriminate) (depolarising_tp p Hp) CH (le_n 2) SQ U E) as (c & C & ->).
  apply (C128_depolarising sqrtm OKs p false c [] rho v Hp C); [constructor|intros X; discriminate X|assumption..].
Qed.
End C133.
Print Assumptions C133_coherent.
Print Assumptions C133_value.
Print Assumptions C133_erasure.
Print Assumptions C133_bit_flip.
Print Assumptions C133_damping.
Print Assumptions C133_dephrasure.
Print Assumptions C133_dephrasure_mixed.
Print Assumptions C133_fidelity_bit_flip.
Print Assumptions C133_fidelity_damping.
Print Assumptions C133_fidelity_depolarising.

(** ** cases *)
Lemma choi_made din O D ops sp : fits O D ops -> trace_preserving D ops -> D = (din ^ 1)%nat -> exists h, choi_of ops sp h.
Proof.
  intros F T ->. destruct PropsChan.decide_ok as [DT DC]. set (m := MA (din ^ 1 * O ^ 1) (din ^ 1 * O ^ 1) (choi_matrix ops (O ^ 1))).
  exists (ChoiType sp (CH m 1 1 din O)). exists PropsChan.decide_tp, PropsChan.decide_cp, m, 1%nat, din, O. split; [exact DT|]. split; [exact DC|].
  assert (F' : fits (O ^ 1) (din ^ 1) ops) by (rewrite (Nat.pow_1_r O); exact F). assert (SM : is_square (din ^ 1 * O ^ 1) m) by (split; reflexivity).
  split; [|cbv zeta; split; [exact SM|]; split; [exact F'|apply eqm_refl]]. apply (PropsChan.C89_accepts PropsChan.decide_tp PropsChan.decide_cp m (1, 1)%nat din O sp DT DC SM). exists ops. split; [exact F'|]. split; [exact T|apply eqm_refl].
Qed.
(** the dephrasure channel of C130_case, given by its 6 x 6 Choi matrix, and the depolarising channel on |0> *)
Example C133_case : exists eigvalsh sqrtm h d r, eigvalsh_ok eigvalsh /\ sqrtm_ok sqrtm /\ choi_of (dephrasure (1 / 10) (1 / 20)) false h /\ choi_of (depolarising (3 / 10)) true d /\
  snd (coherent_information eigvalsh sqrtm h (mixed_state 2) 1 false) = Ok r /\ (9 / 10 - 19 / 20 * binary_entropy (1 / 10) - 3 * slack <= r <= 9 / 10 - 19 / 20 * binary_entropy (1 / 10) + 4 * slack)%R /\
  snd (fidelity_two_states sqrtm d (ket 0) 1) = Ok (sqrt (1 - 2 * (3 / 10) / 3)).
Proof.
  destruct sqrtm_exists as (sq & OS). destruct eigvalsh_exists as (ev & OE).
  destruct (choi_made 2 3 2 _ false (dephrasure_fits (1 / 10) (1 / 20)) (dephrasure_tp (1 / 10) (1 / 20) ltac:(lra) ltac:(lra)) eq_refl) as (h & CH).
  destruct (choi_made 2 2 2 _ true (depolarising_fits (3 / 10)) (depolarising_tp (3 / 10) ltac:(lra)) eq_refl) as (d & CD).
  destruct (C133_dephrasure_mixed ev sq OE OS (1 / 10) (1 / 20) false h false ltac:(lra) ltac:(lra) CH) as (r & R & B).
  exists ev, sq, h, d, r. repeat (split; [first [exact OE|exact OS|exact CH|exact CD|exact R|lra]|]).
  apply (C133_fidelity_depolarising sq OS (3 / 10) true d (ket 0) (basis 0) ltac:(lra) CD); [split; reflexivity|apply basis_unit; lia|apply basis_pure; lia].
Qed.
