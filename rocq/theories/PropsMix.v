(** Mixing two channels without telling which one acted does not help (C138).
    Specification: MixSpec.v (the mixture), KnownSpec.v, EntropySpec.v, ChoiSpec.v (von_neumann), KrausSpec.v.
    Model: ChannelModel.v, KrausModel.v.  eigvalsh_ok says what numpy.linalg.eigvalsh is assumed to return
    on Hermitian matrices; SpectralExists.v shows that it can be met.  [channel_of ops sp c]: c is what
    AnalyticQChan returns for the operators ops.  [past]: the numbers of uses asked for before. *)
From Verif Require Import Py Scalar PauliModel PauliSpec EncoderProofs EighExists Spectral SpectralProofs KrausModel KrausSpec KrausProofs KrausProofs2 KrausProofs5 KrausProofs6 KrausProofs8 KrausProofs12
  ChoiModel ChannelModel ChannelSpec ChoiSpec SpectralExists EntropyProofs EntropySpec CohProofs CohProofs3 CohProofs4 Processing ProcessingSpec Processing2 Degradable KnownSpec KnownProofs KnownProofs2 KnownProofs3 MixSpec MixProofs PropsKnown.
From Coq Require Import Reals Lra.
Open Scope nat_scope.

Lemma mixture_some q a b : a <> [] -> mixture q a b <> []. Proof. destruct a; [congruence|discriminate]. Qed.
(** ** C138 *)
(** AnalyticQChan accepts the operators of the mixture *)
Theorem C138_accepted q O D a b sp : (0 <= q <= 1)%R -> fits O D a -> fits O D b -> trace_preserving D a -> trace_preserving D b -> a <> [] ->
  exists c, channel_of (mixture q a b) sp c.
Proof.
  intros Hq FA FB TA TB NA. apply (channel_exists O D); [apply mixture_fits; assumption|apply mixture_some, NA|apply mixture_tp; assumption].
Qed.
Section Mix.
Variables (eigvalsh : marr CC -> list R) (sqrtm : marr CC -> marr CC).
Hypothesis OK : eigvalsh_ok eigvalsh.
(** its coherent information is at most the mean *)
Theorem C138_convex q O D a b spA spB sp cA cB c past pA pB rho : (0 <= q <= 1)%R -> fits O D a -> fits O D b -> trace_preserving D a -> trace_preserving D b -> a <> [] -> b <> [] ->
  channel_of a spA cA -> channel_of b spB cB -> channel_of (mixture q a b) sp c ->
  Forall (fun m => 1 <= m) past -> clean sp past 1 -> Forall (fun m => 1 <= m) pA -> clean spA pA 1 -> Forall (fun m => 1 <= m) pB -> clean spB pB 1 ->
  is_square D rho -> density D (me rho) ->
  exists rA rB r, snd (coherent_information eigvalsh sqrtm (after cA pA) rho 1 false) = Ok rA /\ snd (coherent_information eigvalsh sqrtm (after cB pB) rho 1 false) = Ok rB /\
    snd (coherent_information eigvalsh sqrtm (after c past) rho 1 false) = Ok r /\
    (r <= (1 - q) * rA + q * rB + (INR O + INR (length a + length b)) * slack)%R.
Proof.
  intros Hq FA FB TA TB NA NB CA CB C HP CL HPA CLA HPB CLB SQ DR. destruct (entropies_exist O D a _ FA TA DR) as (t & V). destruct (entropies_exist O D b _ FB TB DR) as (u & W).
  pose proof (mixture_fits q O D a b FA FB) as FM. pose proof (mixture_tp q D a b Hq TA TB) as TM. destruct (entropies_exist O D (mixture q a b) _ FM TM DR) as (v & X).
  pose proof (mixture_entropies q O D a b _ t u v Hq FA FB TA TB DR V W X) as P.
  destruct (known_one eigvalsh sqrtm OK O D a spA cA FA NA TA CA pA rho false t HPA CLA SQ DR V) as (rA & EA & BA).
  destruct (known_one eigvalsh sqrtm OK O D b spB cB FB NB TB CB pB rho false u HPB CLB SQ DR W) as (rB & EB & BB).
  destruct (known_one eigvalsh sqrtm OK O D _ sp c FM (mixture_some q a b NA) TM C past rho false v HP CL SQ DR X) as (r & E & B).
  exists rA, rB, r. split; [exact EA|]. split; [exact EB|]. split; [exact E|]. rewrite mixture_len in B.
  assert (SL : (0 < slack)%R) by (unfold slack; lra). pose proof (pos_INR O). 
  assert (INR O * slack = (1 - q) * (INR O * slack) + q * (INR O * slack))%R by ring. nra.
Qed.
End Mix.
Print Assumptions C138_accepted.
Print Assumptions C138_convex.
(** the bit-flip channel is a mixture of channels that lose nothing *)
Definition flip_ops : list (marr CC) := [mat2 0 1 1 0]%K.
Lemma flip_fits : fits 2 2 flip_ops. Proof. repeat constructor. Qed.
Lemma flip_tp : trace_preserving 2 flip_ops.
Proof. intros i j Hi Hj. destruct i as [|[|i]]; [| |lia]; (destruct j as [|[|j]]; [| |lia]); apply CC_eq; cbn; lra. Qed.
Example C138_case : exists eigvalsh cA cB c rA rB r, eigvalsh_ok eigvalsh /\ channel_of (identity_ops 2) false cA /\ channel_of flip_ops true cB /\
  channel_of (mixture (1 / 10) (identity_ops 2) flip_ops) true c /\
  snd (coherent_information eigvalsh (fun A => A) (after cA [2; 1]) (diagonal_state (1 / 5)) 1 false) = Ok rA /\ snd (coherent_information eigvalsh (fun A => A) cB (diagonal_state (1 / 5)) 1 false) = Ok rB /\
  snd (coherent_information eigvalsh (fun A => A) c (diagonal_state (1 / 5)) 1 false) = Ok r /\ (r <= 9 / 10 * rA + 1 / 10 * rB + 4 * slack)%R.
Proof.
  destruct eigvalsh_exists as (ev & OK). destruct (channel_exists 2 2 _ false (identity_fits 2) ltac:(discriminate) (identity_tp 2)) as (cA & CA). destruct (channel_exists 2 2 _ true flip_fits ltac:(discriminate) flip_tp) as (cB & CB).
  destruct (C138_accepted (1 / 10) 2 2 _ _ true ltac:(lra) (identity_fits 2) flip_fits (identity_tp 2) flip_tp ltac:(discriminate)) as (c & C).
  destruct (C138_convex ev (fun A => A) OK (1 / 10) 2 2 _ _ false true true cA cB c [] [2; 1] [] (diagonal_state (1 / 5)) ltac:(lra) (identity_fits 2) flip_fits (identity_tp 2) flip_tp ltac:(discriminate) ltac:(discriminate) CA CB C) as (rA & rB & r & E1 & E2 & E3 & B);
    try first [intros _ _; constructor; fail|repeat constructor; fail|intros H; discriminate H|apply diagonal_density; lra].
  exists ev, cA, cB, c, rA, rB, r. repeat (split; [assumption|]). replace (9 / 10)%R with (1 - 1 / 10)%R by lra. eapply Rle_trans; [exact B|]. right. cbn. ring.
Qed.
