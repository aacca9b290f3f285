(** The coherent information of a channel on a code that corrects its errors (C139).
    Specification: KlSpec.v (the Knill-Laflamme conditions, operators that act on few qubits), QecSpec.v
    (distance), CodesSpec.v, KnownSpec.v, EntropySpec.v, KrausSpec.v.  Models: CodesModel.v, PauliModel.v
    (encode_krauss_operators), ChannelModel.v, KrausModel.v.  eigvalsh_ok and eigh_ok say what
    numpy.linalg.eigvalsh and eigh are assumed to return on Hermitian matrices.
    [channel_of ops sp c]: c is what AnalyticQChan returns for the operators ops.  [past]: the numbers of
    uses asked for before.  [value_between x y]: coherent_information returns r, or r/n when regularised,
    with x <= r <= y. *)
From Verif Require Import Py ZMat RankSpec CodesModel CodesSpec CodesProofs PropsCodes Scalar PauliModel PauliSpec PauliProofs PauliProofs2 EncoderProofs EighExists Spectral SpectralProofs KrausModel KrausSpec KrausProofs KrausProofs2 KrausProofs5 KrausProofs6 KrausProofs8 KrausProofs12
  ChoiModel ChannelModel ChannelSpec ChoiSpec SpectralExists EntropyProofs EntropySpec CohProofs CohProofs3 CohProofs4 Processing ProcessingSpec Processing2 Degradable QecSpec QecProofs NoCorrectSpec NoCorrectProofs KnownSpec KnownProofs KnownProofs2 KnownProofs3 KlSpec KlProofs KlCode.
From Coq Require Import Reals Lra.
Open Scope nat_scope.

Section Value.
Variables (eigvalsh : marr CC -> list R) (sqrtm : marr CC -> marr CC).
Hypothesis OK : eigvalsh_ok eigvalsh.
Let value := value_between eigvalsh sqrtm.
(** ** C139 *)
(** n uses of any channel, on any code on which its errors can be corrected *)
Theorem C139_correctable O D d ops W sp c past n sigma s reg : fits O D ops -> ops <> [] -> trace_preserving D ops -> channel_of ops sp c ->
  Forall (fun m => 1 <= m) past -> 1 <= n -> clean sp past n ->
  isometry (D ^ n) d W -> correctable (O ^ n) (D ^ n) d (power_ops ops n) W -> density d sigma -> von_neumann d sigma s ->
  value c past n (embedded (D ^ n) d W sigma) reg (s - INR (O ^ n) * slack)%R (s + INR (length ops ^ n) * slack)%R.
Proof.
  intros F NE T C HP Hn CL IW KL DS VS. pose proof (embedded_density (D ^ n) d W IW sigma DS) as DR.
  pose proof (fits_power _ _ _ n F) as Fn. pose proof (tp_power O D ops n F T) as Tn.
  destruct (entropies_exist (O ^ n) (D ^ n) (power_ops ops n) _ Fn Tn DR) as (t & V).
  pose proof (kl_entropies (O ^ n) (D ^ n) d (power_ops ops n) W Fn Tn IW KL sigma s t DS VS V) as E.
  rewrite <- E. exact (known_near eigvalsh sqrtm OK O D ops sp c F NE T C past n (embedded (D ^ n) d W sigma) reg t HP Hn CL (conj eq_refl eq_refl) DR V).
Qed.
(** a stabilizer code of distance 2t+1 and a channel each of whose operators acts on at most t qubits *)
Theorem C139_code eigh g n k lo c t : eigh_ok eigh -> init g n k lo = Ok c -> 1 <= n -> valid_generators n k (zd (stab c)) ->
  Forall (fun r => Nat.even (y_count n r) = true) (zd (stab c)) -> distance_at_least n (zd (stab c)) (2 * t + 1) ->
  exists E, encode_krauss_operators eigh c = Ok (MA (2 ^ n) (2 ^ k) E) /\
  forall errors sp ch past sigma s reg, Forall (acts_on_few n t) errors -> errors <> [] -> trace_preserving (2 ^ n) errors -> channel_of errors sp ch ->
    Forall (fun m => 1 <= m) past -> clean sp past 1 -> density (2 ^ k) sigma -> von_neumann (2 ^ k) sigma s ->
    value ch past 1 (embedded (2 ^ n) (2 ^ k) E sigma) reg (s - INR (2 ^ n) * slack)%R (s + INR (length errors) * slack)%R.
Proof.
  intros HE I Hn (V1 & V2 & V3 & V4 & V5 & V6) HY DI. destruct (code_setup eigh g n k lo c HE I Hn V4 HY) as (Ss & m & E & _ & EE & IS & FX & FS & _ & HM).
  rewrite (HM V6 V2) in *. exists E. split; [exact EE|]. intros errors sp ch past sigma s reg FE NE T C HP CL DS VS.
  assert (F : fits (2 ^ n) (2 ^ n) errors) by (apply Forall_forall; intros A HA; rewrite Forall_forall in FE; destruct (FE A HA) as (H1 & H2 & _); split; assumption).
  pose proof (code_correctable n (2 ^ k) E (zd (stab c)) Ss t IS FX FS DI Hn errors FE) as KL.
  pose proof (embedded_density (2 ^ n) (2 ^ k) E IS sigma DS) as DR. destruct (entropies_exist (2 ^ n) (2 ^ n) errors _ F T DR) as (u & V).
  pose proof (kl_entropies (2 ^ n) (2 ^ n) (2 ^ k) errors E F T IS KL sigma s u DS VS V) as Q. rewrite <- Q.
  exact (known_one eigvalsh sqrtm OK (2 ^ n) (2 ^ n) errors sp ch F NE T C past (embedded (2 ^ n) (2 ^ k) E sigma) reg u HP CL (conj eq_refl eq_refl) DR V).
Qed.
Lemma log2_pow2 k : log2 (INR (2 ^ k)) = INR k.
Proof. unfold log2. rewrite pow_INR. change (INR 2) with 2%R. rewrite ln_pow by lra. field. pose proof ln_lt_2. lra. Qed.
(** on its maximally mixed state the channel keeps all k qubits *)
Theorem C139_mixed eigh g n k lo c t : eigh_ok eigh -> init g n k lo = Ok c -> 1 <= n -> valid_generators n k (zd (stab c)) ->
  Forall (fun r => Nat.even (y_count n r) = true) (zd (stab c)) -> distance_at_least n (zd (stab c)) (2 * t + 1) ->
  exists E, encode_krauss_operators eigh c = Ok (MA (2 ^ n) (2 ^ k) E) /\
  forall errors sp ch past reg, Forall (acts_on_few n t) errors -> errors <> [] -> trace_preserving (2 ^ n) errors -> channel_of errors sp ch ->
    Forall (fun m => 1 <= m) past -> clean sp past 1 ->
    value ch past 1 (embedded (2 ^ n) (2 ^ k) E (me (mixed_state (2 ^ k)))) reg (INR k - INR (2 ^ n) * slack)%R (INR k + INR (length errors) * slack)%R.
Proof.
  intros HE I Hn HV HY DI. destruct (C139_code eigh g n k lo c t HE I Hn HV HY DI) as (E & EE & H). exists E. split; [exact EE|]. intros errors sp ch past reg FE NE T C HP CL.
  destruct (mixed_state_entropy (2 ^ k)) as [DM VM]; [apply Nat.neq_0_lt_0, Nat.pow_nonzero; lia|]. rewrite log2_pow2 in VM. exact (H errors sp ch past _ _ reg FE NE T C HP CL DM VM).
Qed.
End Value.
Print Assumptions C139_correctable.
Print Assumptions C139_code.
Print Assumptions C139_mixed.

(** the five-qubit code and a channel that flips qubit 1 with probability 16/25 *)
Definition no_error : list Z := repeat 0%Z 10.
Definition flip_one : list Z := [0; 1; 0; 0; 0; 0; 0; 0; 0; 0]%Z.
Definition flip_errors : list (marr CC) := [MA (2 ^ 5) (2 ^ 5) (scale (((3 / 5)%R, 0%R) : CC) (P 5 no_error)); MA (2 ^ 5) (2 ^ 5) (scale (((4 / 5)%R, 0%R) : CC) (P 5 flip_one))].
Lemma flip_errors_few : Forall (acts_on_few 5 1) flip_errors.
Proof.
  assert (G : forall a b, length b = 10 -> binary b -> weight 5 b <= 1 -> acts_on_few 5 1 (MA (2 ^ 5) (2 ^ 5) (scale a (P 5 b)))).
  { intros a b L B W. split; [reflexivity|]. split; [reflexivity|]. exists [MA (2 ^ 5) (2 ^ 5) (scale a (P 5 b))]. split.
    - constructor; [|constructor]. exists a, b. split; [|exact W]. apply multiple_intro; try (reflexivity || assumption); [lia|]. intros i j _ _. reflexivity.
    - intros i j _ _. cbn [map me ksum fold_right]. unfold ksum. cbn [fold_right]. apply CC_eq; cbn; ring. }
  constructor; [|constructor; [|constructor]]; apply G; try reflexivity; try (unfold no_error; cbn; repeat constructor; fail); try (cbn; lia); unfold binary; repeat (apply Forall_cons; [first [left; reflexivity|right; reflexivity]|]); apply Forall_nil.
Qed.
Lemma flip_errors_tp : trace_preserving (2 ^ 5) flip_errors.
Proof.
  assert (G : forall (x : R) b i j, i < 2 ^ 5 -> j < 2 ^ 5 -> mm (2 ^ 5) (adj (scale ((x, 0%R) : CC) (P 5 b))) (scale ((x, 0%R) : CC) (P 5 b)) i j = smul (((x * x)%R, 0%R) : CC) (eye i j)).
  { intros x b i j Hi Hj. destruct (pm_unitary (K := CC) 5 (xp b) (zp 5 b)) as [U _]. rewrite <- (U i j Hi Hj). fold (P 5 b). unfold mm. rewrite <- bsum_mul_l. apply bsum_ext. intros l Hl. unfold adj, scale. rewrite sconj_mul.
    destruct (P 5 b l i) as [p q], (P 5 b l j) as [r s]. apply CC_eq; cbn; ring. }
  intros i j Hi Hj. unfold flip_errors, ksum. cbn [map fold_right mr me]. rewrite !G by assumption. destruct (eye i j) as [p q]. apply CC_eq; cbn; field.
Qed.
Example C139_case : exists c eigh eigvalsh E ch r, init (Strings five_qubit) 5 1 None = Ok c /\ valid_generators 5 1 (zd (stab c)) /\ distance_at_least 5 (zd (stab c)) (2 * 1 + 1) /\
  eigh_ok eigh /\ eigvalsh_ok eigvalsh /\ encode_krauss_operators eigh c = Ok (MA 32 2 E) /\ channel_of flip_errors false ch /\
  snd (coherent_information eigvalsh (fun A => A) (after ch [2; 1]) (embedded 32 2 E (me (mixed_state 2))) 1 false) = Ok r /\ (1 - 32 * slack <= r <= 1 + 2 * slack)%R.
Proof.
  assert (G : exists c, init (Strings five_qubit) 5 1 None = Ok c /\ valid_generators 5 1 (zd (stab c)) /\ distance_at_least 5 (zd (stab c)) (2 * 1 + 1) /\ forallb (fun r => Nat.even (y_count 5 r)) (zd (stab c)) = true).
  { eexists. split; [run|]. split; [valid|]. split; [apply distanceb_ok; run|run]. }
  destruct G as (c & I & V & DI & Y). pose (eg := gs_eigh). pose proof (gs_eigh_ok : eigh_ok eg) as HE. destruct eigvalsh_exists as (ev & OK).
  assert (HY : Forall (fun r => Nat.even (y_count 5 r) = true) (zd (stab c))) by (apply Forall_forall; exact (proj1 (forallb_forall _ _) Y)).
  destruct (C139_mixed ev (fun A => A) OK eg (Strings five_qubit) 5 1 None c 1 HE I ltac:(lia) V HY DI) as (E & EE & H).
  assert (FF : fits (2 ^ 5) (2 ^ 5) flip_errors) by (repeat constructor).
  destruct (channel_exists (2 ^ 5) (2 ^ 5) flip_errors false FF ltac:(discriminate) flip_errors_tp) as (ch & C).
  destruct (H flip_errors false ch [2; 1] false flip_errors_few ltac:(discriminate) flip_errors_tp C) as (r & Hr & B); [repeat constructor|intros D; discriminate D|].
  exists c, eg, ev, E, ch, r. split; [exact I|]. split; [exact V|]. split; [exact DI|]. split; [exact HE|]. split; [exact OK|]. split; [exact EE|]. split; [exact C|]. split; [exact Hr|].
  replace (INR (2 ^ 5)) with 32%R in B by (rewrite pow_INR; cbn; ring). cbn [flip_errors length INR] in B. lra.
Qed.
