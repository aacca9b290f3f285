(** What the environment receives (C141) and rotated inputs (C142).
    Specification: SymSpec.v (the channel to the environment, rotated inputs), KrausSpec.v.
    Model: ChannelModel.v, KrausModel.v.  eigvalsh_ok says what numpy.linalg.eigvalsh is assumed to return
    on Hermitian matrices; SpectralExists.v shows that it can be met.  [channel_of ops sp c]: c is what
    AnalyticQChan returns for the operators ops.  [past]: the numbers of uses asked for before. *)
From Verif Require Import Py Scalar PauliModel PauliSpec EncoderProofs EighExists Spectral SpectralProofs KrausModel KrausSpec KrausProofs KrausProofs2 KrausProofs5 KrausProofs6 KrausProofs8 KrausProofs12
  ChoiModel ChannelModel ChannelSpec ChoiSpec SpectralExists EntropyProofs EntropySpec CohProofs CohProofs2 CohProofs3 CohProofs4 Processing ProcessingSpec Processing2 Degradable KnownSpec KnownProofs KnownProofs2 KnownProofs3 SymSpec SymProofs PropsKnown PropsDegradable.
From Coq Require Import Reals Lra.
Open Scope nat_scope.

(** ** C141 *)
Section Environment.
Variables (O D : nat) (ops : list (marr CC)).
Hypothesis F : fits O D ops.
Hypothesis NE : ops <> [].
Hypothesis T : trace_preserving D ops.
Hypothesis HO : 1 <= O.
Lemma env_some : environment_ops O D ops <> [].
Proof. unfold environment_ops. destruct O; [lia|discriminate]. Qed.
(** AnalyticQChan accepts the channel to the environment, *)
Theorem C141_accepted sp : exists e, channel_of (environment_ops O D ops) sp e.
Proof. apply (channel_exists (length ops) D); [apply comp_fits|apply env_some|apply comp_tp; assumption]. Qed.
(** its output is the exchange matrix of the channel, *)
Theorem C141_output sp spE c e past pE n rho : channel_of ops sp c -> channel_of (environment_ops O D ops) spE e ->
  Forall (fun m => 1 <= m) past -> clean sp past n -> Forall (fun m => 1 <= m) pE -> clean spE pE n -> 1 <= n -> is_square (D ^ n) rho ->
  exists out W, snd (chan_channel (after e pE) rho n false) = Ok out /\ snd (chan_exchange (after c past) rho n) = Ok [W] /\ same_mat out W.
Proof.
  intros C E HP CL HPE CLE Hn SQ. destruct (object_exchange O D ops sp c F NE C past n rho HP Hn CL SQ) as (W & E2 & Q2 & V2).
  destruct (object_channel (length ops) D _ spE e (comp_fits O D ops) env_some E pE n rho HPE Hn CLE SQ) as (out & E1 & Q1 & V1). exists out, W. split; [exact E1|]. split; [exact E2|].
  destruct Q1 as [A1 A2], Q2 as [B1 B2]. split; [congruence|]. split; [congruence|]. rewrite A1, A2. eapply eqm_trans; [exact V1|]. eapply eqm_trans; [|apply eqm_sym; exact V2].
  pose proof (fits_power _ _ _ n (comp_fits O D ops)) as Fp. pose proof (comp_fits (O ^ n) (D ^ n) (power_ops ops n)) as Fc. rewrite power_len in Fc.
  destruct (same_maps _ _ _ _ (me rho) Fp Fc (comp_power O D ops n F)) as [M _]. intros x y Hx Hy. etransitivity; [apply M; assumption|]. apply (comp_map (O ^ n)); [apply fits_power, F|rewrite power_len; assumption..].
Qed.
(** and what the receiver gains the environment loses *)
Theorem C141_negative eigvalsh sqrtm sp spE c e past pE n rho reg : eigvalsh_ok eigvalsh -> channel_of ops sp c -> channel_of (environment_ops O D ops) spE e ->
  Forall (fun m => 1 <= m) past -> clean sp past n -> Forall (fun m => 1 <= m) pE -> clean spE pE n -> 1 <= n -> is_square (D ^ n) rho -> density (D ^ n) (me rho) ->
  exists r s, snd (coherent_information eigvalsh sqrtm (after c past) rho n reg) = Ok (if reg then r / INR n else r)%R /\
    snd (coherent_information eigvalsh sqrtm (after e pE) rho n reg) = Ok (if reg then s / INR n else s)%R /\
    (Rabs (r + s) <= (INR (O ^ n) + INR (length ops ^ n)) * slack)%R.
Proof.
  intros OK C E HP CL HPE CLE Hn SQ DR. destruct (entropies_exist (O ^ n) (D ^ n) (power_ops ops n) (me rho)) as (t & V); [apply fits_power, F|apply (tp_power O); assumption|exact DR|].
  pose proof (comp_entropies O D ops n (me rho) t F DR V) as W.
  destruct (known_near eigvalsh sqrtm OK O D ops sp c F NE T C past n rho reg t HP Hn CL SQ DR V) as (r & E1 & B1).
  destruct (known_near eigvalsh sqrtm OK (length ops) D _ spE e (comp_fits O D ops) env_some (comp_tp O D ops F T) E pE n rho reg _ HPE Hn CLE SQ DR W) as (s & E2 & B2).
  exists r, s. split; [exact E1|]. split; [exact E2|]. rewrite comp_len in B2. cbn [fst snd] in B2. apply Rabs_le. lra.
Qed.
End Environment.
Print Assumptions C141_accepted.
Print Assumptions C141_output.
Print Assumptions C141_negative.

(** ** C142 *)
Section Prepared.
Variables (O E D : nat) (V : marr CC) (ops : list (marr CC)).
Hypothesis F : fits O E ops.
Hypothesis NE : ops <> [].
Hypothesis T : trace_preserving E ops.
Hypothesis R : mr V = E.
Hypothesis Cc : mc V = D.
(** V is an isometry *)
Hypothesis ISO : eqm D D (mm E (adj (me V)) (me V)) eye.
Lemma iso_tp : trace_preserving D [V].
Proof. intros i j Hi Hj. rewrite <- (ISO i j Hi Hj), <- R. unfold ksum. cbn [map fold_right]. apply CC_eq; cbn; ring. Qed.
Lemma prepared_some : prepared V ops <> []. Proof. destruct ops; [congruence|discriminate]. Qed.
Theorem C142_accepted sp : exists c, channel_of (prepared V ops) sp c.
Proof. apply (channel_exists O D); [apply (prepared_fits O E); assumption|apply prepared_some|apply (prepared_tp O E); try assumption; apply iso_tp]. Qed.
(** sending rho through the rotated channel is sending the rotated rho through the channel *)
Theorem C142_rotated eigvalsh sqrtm spA spB cA cB pA pB n rho reg : eigvalsh_ok eigvalsh -> channel_of (prepared V ops) spA cA -> channel_of ops spB cB ->
  Forall (fun m => 1 <= m) pA -> clean spA pA n -> Forall (fun m => 1 <= m) pB -> clean spB pB n -> 1 <= n -> is_square (D ^ n) rho -> density (D ^ n) (me rho) ->
  density (E ^ n) (me (sent V n (me rho))) /\
  exists r s, snd (coherent_information eigvalsh sqrtm (after cA pA) rho n reg) = Ok (if reg then r / INR n else r)%R /\
    snd (coherent_information eigvalsh sqrtm (after cB pB) (sent V n (me rho)) n reg) = Ok (if reg then s / INR n else s)%R /\
    (Rabs (r - s) <= (INR (O ^ n) + INR (length ops ^ n)) * slack)%R.
Proof.
  intros OK CA CB HPA CLA HPB CLB Hn SQ DR. assert (FV : fits E D [V]) by (constructor; [split; assumption|constructor]).
  assert (DS : density (E ^ n) (me (sent V n (me rho)))). { cbn [sent me]. apply (channel_density (E ^ n) (D ^ n)); [apply fits_power, FV|apply (tp_power E); [exact FV|apply iso_tp]|exact DR]. } split; [exact DS|].
  assert (SS : is_square (E ^ n) (sent V n (me rho))) by (unfold sent; rewrite R; split; reflexivity).
  destruct (entropies_exist (O ^ n) (E ^ n) (power_ops ops n) (me (sent V n (me rho)))) as (t & W); [apply fits_power, F|apply (tp_power O); assumption|exact DS|].
  pose proof (prepared_entropies O E D V ops n (me rho) t F R Cc DR W) as U.
  destruct (known_near eigvalsh sqrtm OK O E ops spB cB F NE T CB pB n _ reg t HPB Hn CLB SS DS W) as (s & E1 & B1).
  destruct (known_near eigvalsh sqrtm OK O D (prepared V ops) spA cA) with (past := pA) (n := n) (rho := rho) (reg := reg) (t := t) as (r & E2 & B2); try assumption;
    [apply (prepared_fits O E); assumption|apply prepared_some|apply (prepared_tp O E); try assumption; apply iso_tp|].
  exists r, s. split; [exact E2|]. split; [exact E1|]. unfold prepared in B2. rewrite map_length in B2. apply Rabs_le. lra.
Qed.
End Prepared.
Print Assumptions C142_accepted.
Print Assumptions C142_rotated.
(** the two inputs of a damping channel, each rotated by the Hadamard gate *)
Definition hadamard : marr CC := mat2 (rt (1 / 2)) (rt (1 / 2)) (rt (1 / 2)) (- rt (1 / 2))%K.
Lemma hadamard_iso : eqm 2 2 (mm 2 (adj (me hadamard)) (me hadamard)) eye.
Proof.
  assert (H : (sqrt (1 / 2) * sqrt (1 / 2) = 1 / 2)%R) by (apply sqrt_sqrt; lra).
  intros i j Hi Hj. destruct i as [|[|i]]; [| |lia]; (destruct j as [|[|j]]; [| |lia]); apply CC_eq; cbn; nra.
Qed.
Example C142_case : exists eigvalsh cA cB r s, eigvalsh_ok eigvalsh /\ channel_of (prepared hadamard (arg_matrices damp_ops)) true cA /\ channel_of (arg_matrices damp_ops) false cB /\
  snd (coherent_information eigvalsh (fun A => A) (after cA [1; 3]) pair_state 2 false) = Ok r /\
  snd (coherent_information eigvalsh (fun A => A) (after cB [2; 1]) (sent hadamard 2 (me pair_state)) 2 false) = Ok s /\ (Rabs (r - s) <= 8 * slack)%R.
Proof.
  destruct eigvalsh_exists as (ev & OK). pose proof damp_fits as DF. pose proof damp_tp as DT.
  destruct (C142_accepted 2 2 2 hadamard (arg_matrices damp_ops) DF ltac:(discriminate) DT eq_refl eq_refl hadamard_iso true) as (cA & CA).
  destruct (channel_exists 2 2 (arg_matrices damp_ops) false DF ltac:(discriminate) DT) as (cB & CB).
  destruct (C142_rotated 2 2 2 hadamard (arg_matrices damp_ops) DF ltac:(discriminate) DT eq_refl eq_refl hadamard_iso ev (fun A => A) true false cA cB [1; 3] [2; 1] 2 pair_state false OK CA CB) as (_ & r & s & E1 & E2 & B);
    try first [repeat constructor; fail|lia|exact pair_density|split; reflexivity]; try (intros H G; first [discriminate H|discriminate G]).
  exists ev, cA, cB, r, s. do 5 (split; [assumption|]). eapply Rle_trans; [exact B|]. right. cbn. ring.
Qed.
Example C141_case : exists eigvalsh c e r s, eigvalsh_ok eigvalsh /\ channel_of (arg_matrices damp_ops) true c /\ channel_of (environment_ops 2 2 (arg_matrices damp_ops)) false e /\
  snd (coherent_information eigvalsh (fun A => A) (after c [3; 1]) pair_state 2 false) = Ok r /\
  snd (coherent_information eigvalsh (fun A => A) (after e [1]) pair_state 2 false) = Ok s /\ (Rabs (r + s) <= 8 * slack)%R.
Proof.
  destruct eigvalsh_exists as (ev & OK). pose proof damp_fits as DF. pose proof damp_tp as DT.
  destruct (channel_exists 2 2 (arg_matrices damp_ops) true DF ltac:(discriminate) DT) as (c & C).
  destruct (C141_accepted 2 2 (arg_matrices damp_ops) DF DT ltac:(lia) false) as (e & E).
  destruct (C141_negative 2 2 (arg_matrices damp_ops) DF ltac:(discriminate) DT ltac:(lia) ev (fun A => A) true false c e [3; 1] [1] 2 pair_state false OK C E) as (r & s & E1 & E2 & B);
    try first [repeat constructor; fail|lia|exact pair_density|split; reflexivity]; try (intros H G; first [discriminate H|discriminate G]).
  exists ev, c, e, r, s. do 5 (split; [assumption|]). eapply Rle_trans; [exact B|]. right. cbn. ring.
Qed.
