(** The channel properties in the form in which they are stated. *)
From Verif Require Import Py Scalar PauliModel PauliSpec KrausModel KrausSpec KrausProofs KrausProofs2 KrausProofs3 KrausProofs4 KrausProofs5 KrausProofs6 KrausProofs8 KrausProofs9 KrausProofs10
  ChoiModel ChannelModel ChannelSpec.
From Coq Require Import Reals Lra.
Open Scope nat_scope.

Section G.
Context {K : StarRing}.
Variables (sp : bool) (a : kraus_arg K) (nq : nat * nat) (din dout : nat) (orthogonal : list nat) (o0 : kraus K) (past : list nat) (n : nat).
Hypothesis I0 : kraus_init sp a nq din dout orthogonal = Ok o0.
Hypothesis NE : arg_matrices a <> [].
Hypothesis HP : Forall (fun m => 1 <= m) past.
Hypothesis Hn : 1 <= n.
Hypothesis CL : clean sp past n.
Let D := (din ^ fst nq) ^ n.
Let D' := (dout ^ snd nq) ^ n.
Let ops := power_ops (arg_matrices a) n.
Let c := after (KrausType o0) past.

Lemma fits0 : fits (dout ^ snd nq) (din ^ fst nq) (arg_matrices a).
Proof. apply (made _ _ _ _ _ _ _ I0 NE). Qed.
Lemma fitsn : fits D' D ops.
Proof. apply fits_power, fits0. Qed.
Lemma hermitian_ext d (A B : array K) : eqm d d A B -> hermitian d A -> hermitian d B.
Proof. intros E H i j Hi Hj. unfold adj. rewrite <- !E by assumption. apply H; assumption. Qed.

Theorem c31_general rho : is_square D rho -> exists out, snd (chan_channel c rho n false) = Ok out /\ is_square D' out /\
  eqm D' D' (me out) (channel_map ops (me rho)) /\
  (trace_preserving (din ^ fst nq) (arg_matrices a) -> tr D' (me out) = tr D (me rho)) /\ (hermitian D (me rho) -> hermitian D' (me out)).
Proof.
  intros SQ. destruct (channel_run _ _ _ _ _ _ _ past n rho I0 NE HP Hn CL SQ) as (out & E & (M1 & M2 & M3)). cbn [mr mc me] in *. rewrite M1, M2 in M3.
  exists out. split; [exact E|]. split; [split; assumption|]. split; [exact M3|]. split.
  - intros T. transitivity (tr D' (channel_map ops (me rho))); [apply tr_eqm, M3|]. apply (channel_trace D' D); [apply fitsn|]. apply (tp_power (dout ^ snd nq)); [apply fits0|exact T].
  - intros H. apply (hermitian_ext _ (channel_map ops (me rho))); [apply eqm_sym, M3|]. apply (channel_hermitian D' D); [apply fitsn|exact H].
Qed.
Theorem c32_dual rho X : is_square D rho -> is_square D' X -> exists N A, snd (chan_channel c rho n false) = Ok N /\ snd (chan_channel c X n true) = Ok A /\
  is_square D' N /\ is_square D A /\ tr D' (mm D' (me X) (me N)) = tr D (mm D (me A) (me rho)).
Proof.
  intros SQ SX. destruct (channel_run _ _ _ _ _ _ _ past n rho I0 NE HP Hn CL SQ) as (N & E & (M1 & M2 & M3)).
  destruct (adjoint_run _ _ _ _ _ _ _ past n X I0 NE HP Hn CL SX) as (A & E' & (L1 & L2 & L3)). cbn [mr mc me] in *. rewrite M1, M2 in M3. rewrite L1, L2 in L3.
  exists N, A. split; [exact E|]. split; [exact E'|]. split; [split; assumption|]. split; [split; assumption|].
  transitivity (tr D' (mm D' (me X) (channel_map ops (me rho)))); [apply tr_eqm; intros i j Hi Hj; apply mm_ext; intros k Hk; [reflexivity|apply M3; assumption]|].
  rewrite tr_mm. rewrite (adjoint_hermitian_swap D' D) by apply fitsn. rewrite tr_mm. apply tr_eqm. intros i j Hi Hj. apply mm_ext; intros k Hk; [symmetry; apply L3; assumption|reflexivity].
Qed.
Theorem c32_unital : exists A, snd (chan_channel c (MA D' D' eye) n true) = Ok A /\ is_square D A /\
  (eqm D D (me A) eye <-> trace_preserving D ops) /\ (trace_preserving (din ^ fst nq) (arg_matrices a) -> eqm D D (me A) eye).
Proof.
  destruct (adjoint_run _ _ _ _ _ _ _ past n (MA D' D' eye) I0 NE HP Hn CL) as (A & E' & (L1 & L2 & L3)); [split; reflexivity|]. cbn [mr mc me] in *. rewrite L1, L2 in L3.
  exists A. split; [exact E'|]. split; [split; assumption|]. fold ops D in L3.
  assert (G : eqm D D (me A) eye <-> trace_preserving D ops).
  { rewrite <- (unital_iff D' D ops fitsn). split; intros H; [apply (eqm_trans _ _ _ (me A)); [apply eqm_sym, L3|exact H]|apply (eqm_trans _ _ _ (adjoint_map ops eye)); [exact L3|exact H]]. }
  split; [exact G|]. intros T. apply G. apply (tp_power (dout ^ snd nq)); [apply fits0|exact T].
Qed.
Theorem c33 rhos : length rhos = n -> Forall (is_square (din ^ fst nq)) rhos ->
  exists outs out, Forall2 (fun rho x => snd (chan_channel (KrausType o0) rho 1 false) = Ok x) rhos outs /\
    snd (chan_channel c (tens_all rhos) n false) = Ok out /\ same_mat out (tens_all outs).
Proof.
  intros L F. assert (G : exists outs, Forall2 (fun rho x => snd (chan_channel (KrausType o0) rho 1 false) = Ok x) rhos outs /\
     Forall2 (fun rho out => is_square (din ^ fst nq) rho /\ same_mat out (MA (dout ^ snd nq) (dout ^ snd nq) (channel_map (arg_matrices a) (me rho)))) rhos outs).
  { clear L. induction F as [|rho rhos Q F IH]; [exists []; split; constructor|]. destruct IH as (outs & G1 & G2).
    destruct (channel_run _ _ _ _ _ _ _ [] 1 rho I0 NE ltac:(constructor) ltac:(lia) ltac:(intros ? ?; constructor) ltac:(rewrite Nat.pow_1_r; exact Q)) as (x & E & SM).
    exists (x :: outs). split; [constructor; assumption|]. constructor; [|exact G2]. split; [exact Q|]. rewrite !Nat.pow_1_r in SM. eapply same_mat_trans; [exact SM|].
    split; [reflexivity|]. split; [reflexivity|]. cbn [mr mc me]. apply (channel_map_same _ (din ^ fst nq)); [|apply same_ops_sym, power_ops_1|apply eqm_refl].
    pose proof (fits_power _ _ _ 1 fits0) as FP. rewrite !Nat.pow_1_r in FP. exact FP. }
  destruct G as (outs & G1 & G2). destruct (channel_power _ _ _ _ _ fits0 G2) as (V & [Q1 Q2] & Q3). rewrite L in *.
  destruct (channel_run _ _ _ _ _ _ _ past n (tens_all rhos) I0 NE HP Hn CL Q3) as (out & E & SM). exists outs, out. split; [exact G1|]. split; [exact E|].
  eapply same_mat_trans; [exact SM|]. split; [symmetry; exact Q1|]. split; [symmetry; exact Q2|]. exact V.
Qed.
(** exchange *)
Hypothesis OR : sp = true \/ orthogonal = [].
Theorem c35_general rho : is_square D rho -> exists W, snd (chan_exchange c rho n) = Ok [W] /\ is_square (length (arg_matrices a) ^ n) W /\
  eqm (length (arg_matrices a) ^ n) (length (arg_matrices a) ^ n) (me W) (exchange_entry ops (me rho)) /\
  (hermitian D (me rho) -> hermitian (length (arg_matrices a) ^ n) (me W)) /\
  (trace_preserving (din ^ fst nq) (arg_matrices a) -> tr (length (arg_matrices a) ^ n) (me W) = tr D (me rho)).
Proof.
  intros SQ. destruct (exchange_run _ _ _ _ _ _ _ past n rho I0 NE OR HP Hn CL SQ) as (W & E & Q & V). pose proof Q as [Q1 Q2]. rewrite Q1, Q2 in V.
  exists W. split; [exact E|]. split; [exact Q|]. split; [exact V|]. pose proof (power_len (arg_matrices a) n) as PL. fold ops in PL, V. rewrite <- PL in *. split.
  - intros H. apply (hermitian_ext _ (exchange_entry ops (me rho))); [apply eqm_sym, V|]. apply (exchange_hermitian D' D); [apply fitsn|exact H].
  - intros T. transitivity (tr (length ops) (exchange_entry ops (me rho))); [apply tr_eqm, V|]. rewrite (exchange_trace D' D) by apply fitsn.
    apply (channel_trace D' D); [apply fitsn|]. apply (tp_power (dout ^ snd nq)); [apply fits0|exact T].
Qed.
Theorem c36_dual rho A : is_square D rho -> is_square (length (arg_matrices a) ^ n) A -> exists W B, snd (chan_exchange c rho n) = Ok [W] /\
  snd (chan_exchange_adjoint c A n) = Ok B /\ is_square D B /\
  tr (length (arg_matrices a) ^ n) (mm (length (arg_matrices a) ^ n) (me A) (me W)) = tr D (mm D (me B) (me rho)).
Proof.
  intros SQ QA. destruct (exchange_run _ _ _ _ _ _ _ past n rho I0 NE OR HP Hn CL SQ) as (W & E & Q & V). pose proof Q as [Q1 Q2]. rewrite Q1, Q2 in V.
  destruct (exchange_adjoint_run _ _ _ _ _ _ _ past n A I0 NE HP Hn CL QA) as (B & E' & (M1 & M2 & M3)). cbn [mr mc me] in *. rewrite M1, M2 in M3.
  exists W, B. split; [exact E|]. split; [exact E'|]. split; [split; assumption|]. pose proof (power_len (arg_matrices a) n) as PL. fold ops in PL, V, M3. rewrite <- PL in *.
  transitivity (tr (length ops) (mm (length ops) (me A) (exchange_entry ops (me rho)))); [apply tr_eqm; intros i j Hi Hj; apply mm_ext; intros k Hk; [reflexivity|apply V; assumption]|].
  rewrite (exchange_dual D' D) by apply fitsn. apply tr_eqm. intros i j Hi Hj. apply mm_ext; intros k Hk; [symmetry; apply M3; assumption|reflexivity].
Qed.
Theorem c36_unital : trace_preserving (din ^ fst nq) (arg_matrices a) ->
  exists B, snd (chan_exchange_adjoint c (MA (length (arg_matrices a) ^ n) (length (arg_matrices a) ^ n) eye) n) = Ok B /\ is_square D B /\ eqm D D (me B) eye.
Proof.
  intros T. destruct (exchange_adjoint_run _ _ _ _ _ _ _ past n (MA (length (arg_matrices a) ^ n) (length (arg_matrices a) ^ n) eye) I0 NE HP Hn CL) as (B & E' & (M1 & M2 & M3)); [split; reflexivity|].
  cbn [mr mc me] in *. rewrite M1, M2 in M3. exists B. split; [exact E'|]. split; [split; assumption|]. eapply eqm_trans; [exact M3|]. fold ops D.
  eapply eqm_trans; [apply (exchange_adjoint_eye D'), fitsn|]. apply (tp_power (dout ^ snd nq)); [apply fits0|exact T].
Qed.
End G.

Theorem c31 sp (a : kraus_arg CC) nq din dout orthogonal o0 past n rho :
  kraus_init sp a nq din dout orthogonal = Ok o0 -> arg_matrices a <> [] -> Forall (fun m => 1 <= m) past -> 1 <= n -> clean sp past n ->
  let D := (din ^ fst nq) ^ n in let D' := (dout ^ snd nq) ^ n in is_square D rho ->
  exists out, snd (chan_channel (after (KrausType o0) past) rho n false) = Ok out /\ is_square D' out /\
    eqm D' D' (me out) (channel_map (power_ops (arg_matrices a) n) (me rho)) /\
    (psd D (me rho) -> psd D' (me out)) /\ (hermitian D (me rho) -> hermitian D' (me out)) /\
    (trace_preserving (din ^ fst nq) (arg_matrices a) -> tr D' (me out) = tr D (me rho) /\ (density D (me rho) -> density D' (me out))).
Proof.
  intros H NE HP Hn CL D D' SQ. destruct (c31_general _ _ _ _ _ _ _ _ _ H NE HP Hn CL rho SQ) as (out & E & Q & V & T & HE). fold D D' in Q, V, T, HE.
  exists out. split; [exact E|]. split; [exact Q|]. split; [exact V|].
  assert (P : psd D (me rho) -> psd D' (me out)).
  { intros P. apply (psd_ext _ (channel_map (power_ops (arg_matrices a) n) (me rho))); [apply eqm_sym, V|]. apply (channel_psd D' D); [|exact P]. eapply fitsn; eassumption. }
  split; [exact P|]. split; [exact HE|]. intros TP. split; [apply T, TP|]. intros (H1 & H2 & H3). split; [apply HE, H1|]. split; [apply P, H2|]. rewrite (T TP). exact H3.
Qed.
Theorem c35 sp (a : kraus_arg CC) nq din dout orthogonal o0 past n rho :
  kraus_init sp a nq din dout orthogonal = Ok o0 -> arg_matrices a <> [] -> sp = true \/ orthogonal = [] -> Forall (fun m => 1 <= m) past -> 1 <= n -> clean sp past n ->
  let D := (din ^ fst nq) ^ n in let N := length (arg_matrices a) ^ n in is_square D rho ->
  exists W, snd (chan_exchange (after (KrausType o0) past) rho n) = Ok [W] /\ is_square N W /\
    eqm N N (me W) (exchange_entry (power_ops (arg_matrices a) n) (me rho)) /\
    (psd D (me rho) -> psd N (me W)) /\ (hermitian D (me rho) -> hermitian N (me W)) /\
    (trace_preserving (din ^ fst nq) (arg_matrices a) -> tr N (me W) = tr D (me rho) /\ (density D (me rho) -> density N (me W))).
Proof.
  intros H NE OR HP Hn CL D N SQ. destruct (c35_general _ _ _ _ _ _ _ _ _ H NE HP Hn CL OR rho SQ) as (W & E & Q & V & HE & T). fold D N in Q, V, T, HE.
  exists W. split; [exact E|]. split; [exact Q|]. split; [exact V|].
  assert (P : psd D (me rho) -> psd N (me W)).
  { intros P. apply (psd_ext _ (exchange_entry (power_ops (arg_matrices a) n) (me rho))); [apply eqm_sym, V|]. unfold N. rewrite <- power_len.
    apply (exchange_psd ((dout ^ snd nq) ^ n) D); [|exact P]. eapply fitsn; eassumption. }
  split; [exact P|]. split; [exact HE|]. intros TP. split; [apply T, TP|]. intros (H1 & H2 & H3). split; [apply HE, H1|]. split; [apply P, H2|]. rewrite (T TP). exact H3.
Qed.
