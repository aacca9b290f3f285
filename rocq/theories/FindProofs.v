(** Proofs about effective_channel_with_stabilizers. *)
From Verif Require Import Py ZMat CodesModel RankSpec CodesSpec BoolLin Rank CodesProofs CodesProofs2 Scalar PauliModel PauliSpec PauliProofs PauliProofs2 EncoderProofs CorrectProofs KrausModel KrausSpec KrausProofs KrausProofs2 KrausProofs8 KrausProofs10
  ChoiModel ChannelModel ChannelSpec ParamModel OptimModel FindModel FindSpec.
From Coq Require Import Reals Lra.
From Coq Require String.
Import String.StringSyntax.
Delimit Scope string_scope with string.
Open Scope nat_scope.

(** ** the error channel *)
Lemma error_channel_ok errors n : arg_matrices errors <> [] -> fits 2 2 (arg_matrices errors) -> trace_preserving 2 (arg_matrices errors) -> 1 <= n ->
  exists o, error_channel errors n 1 = Ok o /\ same_ops (slices (nth_ops o)) (power_ops (arg_matrices errors) n).
Proof.
  intros NE F T Hn. destruct (proj2 (chan_init_iff errors (1, 1) 2 2 [] false NE)) as (c & HC).
  { split; [exact F|]. apply tp_nearly. exact T. }
  unfold error_channel. rewrite HC. cbn [bind]. destruct (chan_init_made _ _ _ _ _ _ _ HC) as (o & -> & H0). cbn in H0.
  destruct (history_updates false errors (1, 1) 2 2 [] o [] n H0 NE (Forall_nil _) Hn) as (A & _ & B & _); [discriminate|].
  cbn [run_updates fold_left List.app] in A, B. unfold floor_div. cbn [Nat.eqb bind]. rewrite Nat.div_1_r.
  destruct (update_kraus_operators o n) as [o' r]. cbn in A. subst r. cbn [bind]. exists o'. split; [reflexivity|exact B].
Qed.
Lemma error_channel_inv errors n k o : error_channel errors n k = Ok o -> arg_matrices errors <> [] -> fits 2 2 (arg_matrices errors).
Proof.
  unfold error_channel. destruct (chan_init errors (1, 1) 2 2 [] false) as [c|e] eqn:E; [|discriminate]. intros _ NE.
  destruct (proj1 (chan_init_iff errors (1, 1) 2 2 [] false NE)) as [F _]; eauto.
Qed.

(** ** corrected errors *)
Lemma corrected_all g n k ops c Ws : init g n k ops = Ok c -> 1 <= n -> Forall binary (zd (stab c)) -> fits (2 ^ n) (2 ^ n) Ws ->
  exists Ss Ks, binary_rep_to_pauli_mat (stab c) = Ok Ss /\ kraus_operators_correcting_errors c Ws = Ok Ks /\
    Forall2 (corrected (2 ^ n) Ss) Ws Ks /\ fits (2 ^ n) (2 ^ n) Ks /\ fits (2 ^ n) (2 ^ n) Ss /\
    (trace_preserving (2 ^ n) Ws -> trace_preserving (2 ^ n) Ks).
Proof.
  intros I Hn B F. destruct (init_inv _ _ _ _ _ I) as (M & W & _ & ZC & ES & Hk & Hp & _). rewrite ES in *.
  assert (L : Forall (fun r => length r = (2 * n)%nat) (zd M)) by (destruct W as [_ W]; rewrite ZC in W; exact W).
  destruct (rowmats (K := CC) n (zd M) Hn L B) as (Ss & EM & FM). change (fun r => pm n (xp r) (zp n r)) with (P n) in FM.
  assert (EB : binary_rep_to_pauli_mat (K := CC) M = Ok Ss) by (unfold binary_rep_to_pauli_mat; rewrite ZC, CodesProofs.div2_double; exact EM).
  assert (FS : Forall (fun S => mr S = (2 ^ n)%nat /\ mc S = (2 ^ n)%nat) Ss).
  { clear -FM. induction FM as [|r S rows Ss (H1 & H2 & _) FM IH]; constructor; auto. }
  assert (US : forall S, In S Ss -> unitary (2 ^ n) (me S)).
  { clear -FM. induction FM as [|r S rows Ss (H1 & H2 & H3) FM IH]; intros S' []; [subst|auto].
    eapply unitary_ext; [exact H3|apply pm_unitary]. }
  exists Ss. unfold kraus_operators_correcting_errors. rewrite ES, EB. cbn [bind].
  assert (G : exists Ks, mapM (correct_error Ss) Ws = Ok Ks /\ Forall2 (corrected (2 ^ n) Ss) Ws Ks /\ fits (2 ^ n) (2 ^ n) Ks /\
     forall i j, i < 2 ^ n -> j < 2 ^ n -> ksum (map (fun A => mm (mr A) (adj (me A)) (me A) i j) Ks) = ksum (map (fun A => mm (mr A) (adj (me A)) (me A) i j) Ws)).
  { induction F as [|A Ws [A1 A2] F IH]; [exists []; split; [reflexivity|]; split; [constructor|]; split; [constructor|]; reflexivity|].
    destruct IH as (Ks & E1 & E2 & E3 & E4). destruct A as [ar ac A]. cbn in A1, A2. subst ar ac.
    destruct (correct_shape n Ss A FS) as (K & EK & SK).
    exists (MA (2 ^ n) (2 ^ n) K :: Ks). split; [cbn [mapM]; rewrite EK, E1; reflexivity|].
    destruct SK as [->|(S & HS & ->)].
    - split; [constructor; [|exact E2]|split; [constructor; [auto|exact E3]|]].
      + exists (identity (2 ^ n)). split; [left; reflexivity|]. split; [reflexivity|]. split; [reflexivity|]. intros i j Hi Hj. cbn [mr mc me product identity] in *. symmetry. apply mm_eye_l. exact Hi.
      + intros i j Hi Hj. cbn [map]. rewrite !ksum_cons, E4 by assumption. reflexivity.
    - assert (S1 := proj1 (Forall_forall _ _) FS S HS). destruct S1 as [S1 S2].
      split; [constructor; [|exact E2]|split; [constructor; [auto|exact E3]|]].
      + exists S. split; [right; exact HS|]. split; [cbn; auto|]. split; [reflexivity|]. intros i j Hi Hj. cbn [mr mc me product] in *. rewrite S2. reflexivity.
      + intros i j Hi Hj. cbn [map]. rewrite !ksum_cons, E4 by assumption. f_equal. cbn [mr me]. apply gram_unitary; [apply US; exact HS|exact Hi|exact Hj]. }
  destruct G as (Ks & E1 & E2 & E3 & E4). exists Ks. split; [reflexivity|]. split; [exact E1|]. split; [exact E2|]. split; [exact E3|]. split; [exact FS|].
  intros T i j Hi Hj. rewrite E4 by assumption. apply T; assumption.
Qed.

Lemma fits_same r c (l m : list (marr CC)) : fits r c m -> same_ops l m -> fits r c l.
Proof. intros F H. induction H as [|A B l m (E1 & E2 & _) H IH]; [constructor|]. inversion F as [|? ? [F1 F2] F3]; subst. constructor; [auto|apply IH; exact F3]. Qed.
Lemma dots Ks (E : marr CC) d : fits d d Ks -> mr E = d -> mapM (fun x => np_dot x E) Ks = Ok (map (fun x => product x E) Ks).
Proof.
  intros F HE. apply mapM_map. intros x Hx. unfold np_dot, product. destruct (proj1 (Forall_forall _ _) F x Hx) as [_ X]. rewrite X, HE, Nat.eqb_refl. reflexivity.
Qed.
Lemma prod_single Ks (E : marr CC) : prod_ops Ks [E] = map (fun x => product x E) Ks.
Proof. unfold prod_ops. induction Ks as [|x Ks IH]; [reflexivity|]. cbn [map] in *. cbn [flat_map List.app]. rewrite <- IH. reflexivity. Qed.

Theorem effective_ok eigh g n c errors : eigh_ok eigh -> init g n 1 None = Ok c -> valid_generators n 1 (zd (stab c)) ->
  Forall (fun r => Nat.even (y_count n r) = true) (zd (stab c)) ->
  arg_matrices errors <> [] -> fits 2 2 (arg_matrices errors) -> trace_preserving 2 (arg_matrices errors) ->
  exists Ss E ops, binary_rep_to_pauli_mat (stab c) = Ok Ss /\ encode_krauss_operators eigh c = Ok E /\
    mr E = 2 ^ n /\ mc E = 2 /\ trace_preserving 2 [E] /\
    (forall A, In A Ss -> same_mat (product A E) E) /\
    effective_operators eigh g n 1 errors = Ok ops /\
    Forall2 (encoded (2 ^ n) Ss E) (power_ops (arg_matrices errors) n) ops /\
    fits (2 ^ n) 2 ops /\ trace_preserving 2 ops.
Proof.
  intros HE I (V0 & V1 & V2 & V3 & V4 & V5) HY NE F T.
  assert (Hn : 1 <= n) by lia.
  destruct (encoder_isometry eigh g n 1 None c HE I Hn V3 HY) as (Ss & m & E & EB & EE & IS & FX & _ & HM). specialize (HM V5 V1). subst m. cbn in EE, IS, FX.
  destruct (error_channel_ok errors n NE F T Hn) as (o & EO & SO).
  pose proof (fits_power 2 2 _ n F) as FP. pose proof (tp_power 2 2 _ n F T) as TP.
  pose proof (fits_same _ _ _ _ FP SO) as FO.
  assert (TO : trace_preserving (2 ^ n) (slices (nth_ops o))) by (apply (tp_same _ _ _ _ FP (same_ops_sym _ _ SO) TP)).
  destruct (corrected_all g n 1 None c _ I Hn V3 FO) as (Ss' & Ks & EB' & EK & CK & FK & FS & TK). rewrite EB in EB'. injection EB' as <-. specialize (TK TO).
  exists Ss, (MA (2 ^ n) 2 E), (map (fun x => product x (MA (2 ^ n) 2 E)) Ks).
  assert (TE : trace_preserving 2 [MA (2 ^ n) 2 E]).
  { intros i j Hi Hj. cbn [map]. rewrite ksum_cons. cbn [mr me]. rewrite (IS i j Hi Hj). change (ksum []) with (s0 (s := CC)). apply CC_eq; cbn; ring. }
  split; [exact EB|]. split; [exact EE|]. split; [reflexivity|]. split; [reflexivity|]. split; [exact TE|]. split; [|split; [|split; [|split]]].
  - intros A HA. destruct (proj1 (Forall_forall _ _) FS A HA) as [A1 A2]. split; [exact A1|]. split; [reflexivity|]. unfold product. cbn [mr mc me]. rewrite A1, A2. apply FX. exact HA.
  - unfold effective_operators. rewrite I. cbn [bind]. rewrite EO. cbn [bind]. rewrite EE. cbn [bind]. rewrite EK. cbn [bind]. apply (dots Ks _ (2 ^ n)); [exact FK|reflexivity].
  - clear -SO CK FP FS. revert Ks CK. induction SO as [|A B l m (S1 & S2 & S3) SO IH]; intros Ks CK; inversion CK as [|? K ? Ks' C1 C2]; subst; [constructor|].
    inversion FP as [|? ? [F1 F2] F3]; subst. cbn [map]. constructor; [|apply IH; assumption].
    destruct C1 as (U & HU & (X1 & X2 & X3)). exists U. split; [exact HU|]. unfold product in *. cbn [mr mc me] in *. split; [exact X1|]. split; [reflexivity|]. cbn [mr mc me].
    intros i j Hi Hj. rewrite X2, S2. unfold mm at 1 3. apply bsum_ext. intros l' Hl. f_equal. rewrite X3; [|congruence|congruence].
    unfold mm. apply bsum_ext. intros l2 Hl2. f_equal. apply S3; [|congruence]. rewrite S1, F1. destruct HU as [->|HU]; [exact Hl2|].
    destruct (proj1 (Forall_forall _ _) FS U HU) as [_ U2]. rewrite U2 in Hl2. exact Hl2.
  - unfold fits in FK |- *. apply Forall_map. rewrite Forall_forall in FK |- *. intros x Hx. destruct (FK x Hx) as [X1 X2]. split; [exact X1|reflexivity].
  - rewrite <- prod_single. apply (tp_prod (2 ^ n) (2 ^ n)); [exact FK|constructor; [auto|constructor]|exact TK|exact TE].
Qed.
