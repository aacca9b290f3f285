(** Sums and products of channel objects. *)
From Verif Require Import Py Scalar PauliModel PauliSpec KrausModel KrausSpec KrausProofs KrausProofs2 KrausProofs3 KrausProofs4 KrausProofs5 KrausProofs6 KrausProofs8 ChoiModel ChannelModel ChannelSpec.
From Coq Require Import Reals Lra.
Open Scope nat_scope.

Lemma same_nonempty {K : StarRing} (l m : list (marr K)) : same_ops l m -> l <> [] -> m <> [].
Proof. intros H. inversion H; subst; [contradiction|discriminate]. Qed.
Lemma prod_nonempty {K : StarRing} (l m : list (marr K)) : l <> [] -> m <> [] -> prod_ops l m <> [].
Proof. destruct l, m; try contradiction; discriminate. Qed.
Lemma tens_nonempty {K : StarRing} (l m : list (marr K)) : l <> [] -> m <> [] -> tens_ops l m <> [].
Proof. destruct l, m; try contradiction; discriminate. Qed.

(** the fields used by + and * never change *)
Lemma after_static (o0 : kraus CC) past : Forall (fun m => 1 <= m) past -> state_ok o0 [] o0 -> exists o, after (KrausType o0) past = KrausType o /\ static o0 o.
Proof. intros H S. destruct (after_ok o0 past H S) as (o & E & SO). exists o. split; [exact E|]. apply SO. Qed.
Lemma init_state op nq din dout orthogonal sp (c : chan CC) : arg_matrices op <> [] -> chan_init op nq din dout orthogonal sp = Ok c ->
  exists k, c = KrausType k /\ state_ok k [] k.
Proof. intros NE H. destruct (chan_init_made _ _ _ _ _ _ _ H) as (k & -> & E). exists k. split; [reflexivity|]. apply (made _ _ _ _ _ _ _ E NE). Qed.
Theorem add_history opA nqA dinA doutA orA spA cA opB nqB dinB doutB orB spB cB pA pB : arg_matrices opA <> [] -> arg_matrices opB <> [] ->
  chan_init opA nqA dinA doutA orA spA = Ok cA -> chan_init opB nqB dinB doutB orB spB = Ok cB ->
  Forall (fun m => 1 <= m) pA -> Forall (fun m => 1 <= m) pB ->
  chan_add (after cA pA) (after cB pB) = chan_add cA cB /\ chan_mul (after cA pA) (after cB pB) = chan_mul cA cB.
Proof.
  intros NA NB HA HB FA FB. destruct (init_state _ _ _ _ _ _ _ NA HA) as (a & -> & SA). destruct (init_state _ _ _ _ _ _ _ NB HB) as (b & -> & SB).
  destruct (after_static a pA FA SA) as (a' & -> & (A1 & A2 & A3 & A4 & A5 & A6 & A7)). destruct (after_static b pB FB SB) as (b' & -> & (B1 & B2 & B3 & B4 & B5 & B6 & B7)).
  cbn [chan_add chan_mul]. rewrite A1, A2, A4, A5, A6, B1, B2, B4, B5, B6. auto.
Qed.

Section A.
Variables (opA opB : kraus_arg CC) (nqA nqB : nat * nat) (dinA doutA dinB doutB : nat) (orA orB : list nat) (spA spB : bool) (cA cB : chan CC).
Hypothesis NA : arg_matrices opA <> [].
Hypothesis NB : arg_matrices opB <> [].
Hypothesis IA : chan_init opA nqA dinA doutA orA spA = Ok cA.
Hypothesis IB : chan_init opB nqB dinB doutB orB spB = Ok cB.
Let opsA := arg_matrices opA.
Let opsB := arg_matrices opB.

(** one use of an accepted channel *)
Lemma use_channel op nq din dout orthogonal sp c rho : arg_matrices op <> [] -> chan_init op nq din dout orthogonal sp = Ok c -> is_square (din ^ fst nq) rho ->
  exists out, snd (chan_channel c rho 1 false) = Ok out /\ same_mat out (MA (dout ^ snd nq) (dout ^ snd nq) (channel_map (arg_matrices op) (me rho))).
Proof.
  intros NE H SQ. destruct (chan_init_made _ _ _ _ _ _ _ H) as (k & -> & E).
  destruct (channel_run _ _ _ _ _ _ _ [] 1 rho E NE ltac:(constructor) ltac:(lia) ltac:(intros ? ?; constructor) ltac:(rewrite Nat.pow_1_r; exact SQ)) as (out & EO & SM).
  rewrite !Nat.pow_1_r in SM. exists out. split; [exact EO|]. eapply same_mat_trans; [exact SM|]. split; [reflexivity|]. split; [reflexivity|]. cbn [mr mc me].
  destruct (made _ _ _ _ _ _ _ E NE) as (_ & _ & _ & F & _).
  apply (channel_map_same _ (din ^ fst nq)).
  - pose proof (fits_power _ _ _ 1 F) as FP. rewrite !Nat.pow_1_r in FP. exact FP.
  - apply same_ops_sym, power_ops_1.
  - apply eqm_refl.
Qed.
Lemma parts : exists a b, cA = KrausType a /\ cB = KrausType b /\ fits (doutA ^ snd nqA) (dinA ^ fst nqA) opsA /\ fits (doutB ^ snd nqB) (dinB ^ fst nqB) opsB /\
  slices (kraus_ops a) = opsA /\ slices (kraus_ops b) = opsB /\ t1 (kraus_ops a) = doutA ^ snd nqA /\ t2 (kraus_ops a) = dinA ^ fst nqA /\
  t1 (kraus_ops b) = doutB ^ snd nqB /\ t2 (kraus_ops b) = dinB ^ fst nqB /\ t0 (kraus_ops a) = length opsA /\ t0 (kraus_ops b) = length opsB /\
  numb_qubits a = nqA /\ numb_qubits b = nqB /\ dim_in a = dinA /\ dim_in b = dinB /\ dim_out a = doutA /\ dim_out b = doutB /\ sparse a = spA /\ sparse b = spB.
Proof.
  destruct (chan_init_made _ _ _ _ _ _ _ IA) as (a & -> & EA). destruct (chan_init_made _ _ _ _ _ _ _ IB) as (b & -> & EB). exists a, b.
  destruct (made _ _ _ _ _ _ _ EA NA) as (_ & SA & LA & FA & A0 & A1 & A2 & _). destruct (made _ _ _ _ _ _ _ EB NB) as (_ & SB & LB & FB & B0 & B1 & B2 & _).
  apply kraus_init_ok in EA, EB. destruct EA as (oa & _ & _ & ->), EB as (ob & _ & _ & ->).
  do 2 (split; [reflexivity|]). do 2 (split; [assumption|]). cbn [built numb_qubits dim_in dim_out] in *. repeat (split; [assumption || reflexivity|]). assumption.
Qed.
Theorem add_spec c : chan_add cA cB = Ok c -> forall rho, is_square (dinB ^ fst nqB) rho ->
  exists mid out out', snd (chan_channel cB rho 1 false) = Ok mid /\ snd (chan_channel cA mid 1 false) = Ok out /\
    snd (chan_channel c rho 1 false) = Ok out' /\ same_mat out' out.
Proof.
  intros H rho SQ. destruct parts as (a & b & -> & -> & FA & FB & LA & LB & A1 & A2 & B1 & B2 & _ & _ & QA & QB & IAe & IBe & OA & OB & SA & SB).
  cbn [chan_add] in H. destruct (serial_spec (kraus_ops a) (kraus_ops b)) as [S1 S2]; [rewrite LA; exact NA|rewrite LB; exact NB|].
  destruct (Nat.eq_dec (t2 (kraus_ops a)) (t1 (kraus_ops b))) as [E|E]; [|rewrite (S2 E) in H; discriminate].
  destruct (S1 E) as (ops & EO & SO & T0 & T1 & T2). rewrite EO in H. cbn [bind] in H. rewrite LA, LB in SO. rewrite QA, QB, IBe, OA in H. cbn [fst snd] in H.
  assert (NO : arg_matrices (OpArray ops) <> []). { cbn [arg_matrices]. apply (same_nonempty _ _ (same_ops_sym _ _ SO)). apply prod_nonempty; assumption. }
  destruct (use_channel _ _ _ _ _ _ _ rho NO H SQ) as (out' & EO' & SM'). cbn [fst snd arg_matrices] in SM'.
  destruct (use_channel _ _ _ _ _ _ _ rho NB IB SQ) as (mid & EM & SMM). fold opsB in SMM.
  assert (SQM : is_square (dinA ^ fst nqA) mid) by (destruct SMM as (M1 & M2 & _); cbn in M1, M2; split; congruence).
  destruct (use_channel _ _ _ _ _ _ _ mid NA IA SQM) as (out & EOA & SMA). fold opsA in SMA.
  exists mid, out, out'. split; [exact EM|]. split; [exact EOA|]. split; [exact EO'|]. eapply same_mat_trans; [exact SM'|]. eapply same_mat_trans; [|apply same_mat_sym, SMA].
  split; [reflexivity|]. split; [reflexivity|]. cbn [mr mc me]. intros i j Hi Hj.
  assert (FP : fits (doutA ^ snd nqA) (dinB ^ fst nqB) (prod_ops opsA opsB)) by (apply (fits_prod _ (dinA ^ fst nqA)); [exact FA|rewrite <- A2, E, B1; exact FB]).
  transitivity (channel_map (prod_ops opsA opsB) (me rho) i j).
  - symmetry. refine (channel_map_same _ (dinB ^ fst nqB) _ _ _ _ FP (same_ops_sym _ _ SO) (eqm_refl _ _ _) i j Hi Hj).
  - rewrite (channel_prod (doutA ^ snd nqA) (dinA ^ fst nqA) (dinB ^ fst nqB)); [|exact FA|rewrite <- A2, E, B1; exact FB].
    destruct SMM as (M1 & M2 & M3). cbn [mr mc me] in M1, M2, M3. rewrite M1, M2 in M3. 
    refine (channel_map_same _ (dinA ^ fst nqA) _ _ _ _ FA (same_ops_refl _) _ i j Hi Hj). rewrite <- A2, E, B1. apply eqm_sym, M3.
Qed.
Theorem add_ok : dinA ^ fst nqA = doutB ^ snd nqB -> trace_preserving (dinA ^ fst nqA) opsA -> trace_preserving (dinB ^ fst nqB) opsB ->
  exists k, chan_add cA cB = Ok (KrausType k) /\ numb_kraus k = length opsA * length opsB /\ same_ops (slices (kraus_ops k)) (prod_ops opsA opsB) /\
    trace_preserving (dinB ^ fst nqB) (slices (kraus_ops k)) /\ input_dim k = dinB ^ fst nqB /\ output_dim k = doutA ^ snd nqA.
Proof.
  intros E TA TB. destruct parts as (a & b & -> & -> & FA & FB & LA & LB & A1 & A2 & B1 & B2 & A0 & B0 & QA & QB & IAe & IBe & OA & OB & SA & SB).
  cbn [chan_add]. destruct (serial_spec (kraus_ops a) (kraus_ops b)) as [S1 _]; [rewrite LA; exact NA|rewrite LB; exact NB|].
  destruct (S1 ltac:(congruence)) as (ops & EO & SO & T0 & T1 & T2). rewrite EO. cbn [bind]. rewrite LA, LB in SO. rewrite QA, QB, IBe, OA.
  assert (NO : arg_matrices (OpArray ops) <> []). { cbn [arg_matrices]. apply (same_nonempty _ _ (same_ops_sym _ _ SO)). apply prod_nonempty; assumption. }
  assert (FB' : fits (dinA ^ fst nqA) (dinB ^ fst nqB) opsB) by (rewrite E; exact FB).
  assert (FP : fits (doutA ^ snd nqA) (dinB ^ fst nqB) (prod_ops opsA opsB)) by (apply (fits_prod _ (dinA ^ fst nqA)); assumption).
  assert (TP : trace_preserving (dinB ^ fst nqB) (slices ops)).
  { apply (tp_same (doutA ^ snd nqA) _ (prod_ops opsA opsB)); [exact FP|apply same_ops_sym, SO|]. apply (tp_prod (doutA ^ snd nqA) (dinA ^ fst nqA)); assumption. }
  assert (FO : fits (doutA ^ snd nqA) (dinB ^ fst nqB) (slices ops)) by (apply (same_ops_fits _ _ (prod_ops opsA opsB)); [apply same_ops_sym, SO|exact FP]).
  destruct (proj2 (chan_init_iff (OpArray ops) (fst nqB, snd nqA) dinB doutA [] (sparse a || sparse b) NO)) as (c & EC).
  { cbn [fst snd arg_matrices]. split; [exact FO|apply tp_nearly, TP]. }
  destruct (chan_init_made _ _ _ _ _ _ _ EC) as (k & -> & EK). exists k. split; [exact EC|].
  destruct (made _ _ _ _ _ _ _ EK NO) as (_ & _ & SL & _ & _ & _ & _ & NK & _). cbn [arg_matrices] in *. rewrite SL, NK, slices_len, T0, A0, B0.
  split; [reflexivity|]. split; [exact SO|]. split; [exact TP|]. apply kraus_init_ok in EK. destruct EK as (? & _ & _ & ->). split; reflexivity.
Qed.
Theorem add_mismatch : dinA ^ fst nqA <> doutB ^ snd nqB -> chan_add cA cB = Err TypeError.
Proof.
  intros E. destruct parts as (a & b & -> & -> & FA & FB & LA & LB & A1 & A2 & B1 & B2 & _ & _ & QA & QB & IAe & IBe & OA & OB & SA & SB).
  cbn [chan_add]. destruct (serial_spec (kraus_ops a) (kraus_ops b)) as [_ S2]; [rewrite LA; exact NA|rewrite LB; exact NB|]. rewrite S2 by congruence. reflexivity.
Qed.

(** ** products *)
Lemma kron_parts a b : slices (kraus_ops a) = opsA -> slices (kraus_ops b) = opsB -> same_ops (slices (np_kron3 (kraus_ops a) (kraus_ops b))) (tens_ops opsA opsB).
Proof. intros <- <-. apply slices_kron. Qed.
Theorem mul_spec c : chan_mul cA cB = Ok c -> forall rho sigma, is_square (dinA ^ fst nqA) rho -> is_square (dinB ^ fst nqB) sigma ->
  exists x y out, snd (chan_channel cA rho 1 false) = Ok x /\ snd (chan_channel cB sigma 1 false) = Ok y /\
    snd (chan_channel c (tens rho sigma) 1 false) = Ok out /\ same_mat out (tens x y).
Proof.
  intros H rho sigma SQ SQ'. destruct parts as (a & b & EA & EB & FA & FB & LA & LB & A1 & A2 & B1 & B2 & A0 & B0 & QA & QB & IAe & IBe & OA & OB & SA & SB).
  pose proof (kron_parts a b LA LB) as SO. rewrite EA, EB in H. cbn [chan_mul] in H. unfold parallel_concatenate in H. rewrite IAe, IBe, OA, OB in H.
  set (ops := np_kron3 (kraus_ops a) (kraus_ops b)) in *.
  assert (NO : arg_matrices (OpArray ops) <> []). { cbn [arg_matrices]. apply (same_nonempty _ _ (same_ops_sym _ _ SO)). apply tens_nonempty; assumption. }
  destruct (proj1 (chan_init_iff (OpArray ops) (1, 1) (dinA * dinB) (doutA * doutB) [] (sparse a || sparse b) NO) (ex_intro _ c H)) as [FO _]. cbn [fst snd arg_matrices] in FO. rewrite !Nat.pow_1_r in FO.
  assert (FT : fits (doutA ^ snd nqA * doutB ^ snd nqB) (dinA ^ fst nqA * dinB ^ fst nqB) (slices ops)).
  { apply (same_ops_fits _ _ (tens_ops opsA opsB)); [apply same_ops_sym, SO|]. apply fits_tens; assumption. }
  assert (DD : doutA * doutB = doutA ^ snd nqA * doutB ^ snd nqB /\ dinA * dinB = dinA ^ fst nqA * dinB ^ fst nqB).
  { destruct (nonempty_dims ops _ _ NO FO), (nonempty_dims ops _ _ NO FT). split; congruence. } destruct DD as [DO DI].
  destruct (use_channel _ _ _ _ _ _ _ rho NA IA SQ) as (x & EX & SX). fold opsA in SX.
  destruct (use_channel _ _ _ _ _ _ _ sigma NB IB SQ') as (y & EY & SY). fold opsB in SY.
  destruct (use_channel _ _ _ _ _ _ _ (tens rho sigma) NO H) as (out & EOU & SU).
  { cbn [fst]. rewrite Nat.pow_1_r, DI. destruct SQ, SQ'. split; cbn [tens mr mc]; congruence. }
  exists x, y, out. split; [exact EX|]. split; [exact EY|]. split; [exact EOU|]. cbn [snd arg_matrices] in SU. rewrite Nat.pow_1_r, DO in SU.
  eapply same_mat_trans; [exact SU|]. eapply same_mat_trans; [|apply same_mat_sym, tens_same; [exact SX|exact SY]].
  split; [reflexivity|]. split; [reflexivity|]. cbn [mr mc]. intros i j Hi Hj. rewrite me_tens. cbn [mr mc me].
  rewrite <- (channel_tens (doutA ^ snd nqA) (dinA ^ fst nqA) _ (dinB ^ fst nqB)) by assumption.
  refine (channel_map_same _ _ _ _ _ _ FT SO _ i j Hi Hj). intros p q _ _. rewrite me_tens. destruct SQ' as [-> ->]. reflexivity.
Qed.
Theorem mul_ok : trace_preserving (dinA ^ fst nqA) opsA -> trace_preserving (dinB ^ fst nqB) opsB -> 0 < dinB ^ fst nqB ->
  (dinA * dinB = dinA ^ fst nqA * dinB ^ fst nqB /\ doutA * doutB = doutA ^ snd nqA * doutB ^ snd nqB ->
   exists k, chan_mul cA cB = Ok (KrausType k) /\ numb_kraus k = length opsA * length opsB /\ same_ops (slices (kraus_ops k)) (tens_ops opsA opsB) /\
    trace_preserving (dinA ^ fst nqA * dinB ^ fst nqB) (slices (kraus_ops k))) /\
  (~ (dinA * dinB = dinA ^ fst nqA * dinB ^ fst nqB /\ doutA * doutB = doutA ^ snd nqA * doutB ^ snd nqB) -> chan_mul cA cB = Err AssertionError).
Proof.
  intros TA TB POS. destruct parts as (a & b & -> & -> & FA & FB & LA & LB & A1 & A2 & B1 & B2 & A0 & B0 & QA & QB & IAe & IBe & OA & OB & SA & SB).
  pose proof (kron_parts a b LA LB) as SO. cbn [chan_mul]. unfold parallel_concatenate. rewrite IAe, IBe, OA, OB. set (ops := np_kron3 (kraus_ops a) (kraus_ops b)) in *.
  assert (NO : arg_matrices (OpArray ops) <> []). { cbn [arg_matrices]. apply (same_nonempty _ _ (same_ops_sym _ _ SO)). apply tens_nonempty; assumption. }
  assert (FT : fits (doutA ^ snd nqA * doutB ^ snd nqB) (dinA ^ fst nqA * dinB ^ fst nqB) (slices ops)).
  { apply (same_ops_fits _ _ (tens_ops opsA opsB)); [apply same_ops_sym, SO|]. apply fits_tens; assumption. }
  split.
  - intros [DI DO]. assert (TP : trace_preserving (dinA ^ fst nqA * dinB ^ fst nqB) (slices ops)).
    { apply (tp_same (doutA ^ snd nqA * doutB ^ snd nqB) _ (tens_ops opsA opsB)); [apply fits_tens; assumption|apply same_ops_sym, SO|].
      eapply tp_tens; eassumption. }
    destruct (proj2 (chan_init_iff (OpArray ops) (1, 1) (dinA * dinB) (doutA * doutB) [] (sparse a || sparse b) NO)) as (c & EC).
    { cbn [fst snd arg_matrices]. rewrite !Nat.pow_1_r, DI, DO. split; [exact FT|apply tp_nearly, TP]. }
    destruct (chan_init_made _ _ _ _ _ _ _ EC) as (k & -> & EK). exists k. split; [exact EC|].
    destruct (made _ _ _ _ _ _ _ EK NO) as (_ & _ & SL & _ & _ & _ & _ & NK & _). cbn [arg_matrices] in *. rewrite SL, NK, slices_len. split; [cbn; congruence|]. split; [exact SO|exact TP].
  - intros ND. unfold chan_init. rewrite init_err; [reflexivity|exact NO|auto|eexists; reflexivity|]. cbn [fst snd arg_matrices]. rewrite !Nat.pow_1_r. intros FO. apply ND.
    destruct (nonempty_dims ops _ _ NO FO), (nonempty_dims ops _ _ NO FT). split; congruence.
Qed.
End A.

(** ** the Kraus objects' own + and * *)
Section KA.
Context {K : StarRing}.
Theorem kraus_add_iff sp opA nqA dinA doutA orA a opB nqB dinB doutB orB (b : kraus K) : arg_matrices opA <> [] -> arg_matrices opB <> [] ->
  kraus_init sp opA nqA dinA doutA orA = Ok a -> kraus_init sp opB nqB dinB doutB orB = Ok b ->
  (dinA ^ fst nqA <> doutB ^ snd nqB -> kraus_add a b = Err TypeError) /\
  (dinA ^ fst nqA = doutB ^ snd nqB -> dinB ^ fst nqA = dinB ^ fst nqB -> doutA ^ snd nqB = doutA ^ snd nqA ->
     exists k, kraus_add a b = Ok k /\ same_ops (slices (kraus_ops k)) (prod_ops (arg_matrices opA) (arg_matrices opB))) /\
  (dinA ^ fst nqA = doutB ^ snd nqB -> ~ (dinB ^ fst nqA = dinB ^ fst nqB /\ doutA ^ snd nqB = doutA ^ snd nqA) -> kraus_add a b = Err AssertionError).
Proof.
  intros NA NB EA EB. destruct (made _ _ _ _ _ _ _ EA NA) as (_ & SA & LA & FA & A0 & A1 & A2 & _). destruct (made _ _ _ _ _ _ _ EB NB) as (_ & SB & LB & FB & B0 & B1 & B2 & _).
  assert (QA : numb_qubits a = nqA /\ dim_in a = dinA /\ dim_out a = doutA) by (apply kraus_init_ok in EA; destruct EA as (? & _ & _ & ->); auto).
  assert (QB : numb_qubits b = nqB /\ dim_in b = dinB /\ dim_out b = doutB) by (apply kraus_init_ok in EB; destruct EB as (? & _ & _ & ->); auto).
  destruct QA as (QA & IA & OA), QB as (QB & IB & OB). unfold kraus_add. rewrite SA, SB, (proj2 (Bool.orb_true_iff (negb sp) sp)), (proj2 (Bool.orb_true_iff sp (negb sp))) by (destruct sp; auto). cbn [assert_ bind]. rewrite QA, QB, IA, IB, OA, OB.
  destruct (serial_spec (kraus_ops a) (kraus_ops b)) as [S1 _]; [rewrite LA; exact NA|rewrite LB; exact NB|].
  split; [intros E; unfold guard; rewrite (proj2 (Nat.eqb_neq _ _) E); reflexivity|].
  assert (G : dinA ^ fst nqA = doutB ^ snd nqB -> exists ops, serial_concatenate (kraus_ops a) (kraus_ops b) = Ok ops /\ slices ops <> [] /\
      fits (doutA ^ snd nqA) (dinB ^ fst nqB) (slices ops) /\ same_ops (slices ops) (prod_ops (arg_matrices opA) (arg_matrices opB))).
  { intros E. destruct (S1 ltac:(congruence)) as (ops & EO & SO & _). exists ops. rewrite LA, LB in SO. split; [exact EO|].
    split; [apply (same_nonempty _ _ (same_ops_sym _ _ SO)), prod_nonempty; assumption|]. split; [|exact SO].
    apply (same_ops_fits _ _ (prod_ops (arg_matrices opA) (arg_matrices opB))); [apply same_ops_sym, SO|]. apply (fits_prod _ (dinA ^ fst nqA)); [exact FA|rewrite E; exact FB]. }
  split.
  - intros E E1 E2. destruct (G E) as (ops & EO & NO & FO & SO). unfold guard. rewrite E, Nat.eqb_refl. cbn [bind]. rewrite EO. cbn [bind].
    eexists. split; [apply kraus_init_ok; exists ops; split; [reflexivity|]; split; [cbn [fst snd arg_matrices]; rewrite E1, E2; exact FO|reflexivity]|]. exact SO.
  - intros E ND. destruct (G E) as (ops & EO & NO & FO & SO). unfold guard. rewrite E, Nat.eqb_refl. cbn [bind]. rewrite EO. cbn [bind].
    apply init_err; [exact NO|auto|eexists; reflexivity|]. cbn [fst snd arg_matrices]. intros F'. apply ND.
    destruct (nonempty_dims ops _ _ NO FO), (nonempty_dims ops _ _ NO F'). split; congruence.
Qed.
Theorem kraus_add_class opA nqA dinA doutA orA a opB nqB dinB doutB orB (b : kraus K) : arg_matrices opA <> [] -> arg_matrices opB <> [] ->
  kraus_init true opA nqA dinA doutA orA = Ok a -> kraus_init false opB nqB dinB doutB orB = Ok b -> kraus_add a b = Err AssertionError.
Proof.
  intros NA NB EA EB. destruct (made _ _ _ _ _ _ _ EA NA) as (_ & SA & _). destruct (made _ _ _ _ _ _ _ EB NB) as (_ & SB & _). unfold kraus_add. rewrite SA, SB. reflexivity.
Qed.
Theorem kraus_mul_iff spA opA nqA dinA doutA orA a spB opB nqB dinB doutB orB (b : kraus K) : arg_matrices opA <> [] -> arg_matrices opB <> [] ->
  kraus_init spA opA nqA dinA doutA orA = Ok a -> kraus_init spB opB nqB dinB doutB orB = Ok b ->
  (spA <> spB -> kraus_mul a b = Err AssertionError) /\
  (spA = spB -> dinA * dinB = dinA ^ fst nqA * dinB ^ fst nqB -> doutA * doutB = doutA ^ snd nqA * doutB ^ snd nqB ->
     exists k, kraus_mul a b = Ok k /\ same_ops (slices (kraus_ops k)) (tens_ops (arg_matrices opA) (arg_matrices opB)) /\
       sparse k = spA /\ numb_qubits k = (1, 1) /\ dim_in k = dinA * dinB /\ dim_out k = doutA * doutB /\ numb_kraus k = length (arg_matrices opA) * length (arg_matrices opB)) /\
  (~ (dinA * dinB = dinA ^ fst nqA * dinB ^ fst nqB /\ doutA * doutB = doutA ^ snd nqA * doutB ^ snd nqB) -> kraus_mul a b = Err AssertionError).
Proof.
  intros NA NB EA EB. destruct (made _ _ _ _ _ _ _ EA NA) as (_ & SA & LA & FA & A0 & _). destruct (made _ _ _ _ _ _ _ EB NB) as (_ & SB & LB & FB & B0 & _).
  assert (QA : numb_qubits a = nqA /\ dim_in a = dinA /\ dim_out a = doutA) by (apply kraus_init_ok in EA; destruct EA as (? & _ & _ & ->); auto).
  assert (QB : numb_qubits b = nqB /\ dim_in b = dinB /\ dim_out b = doutB) by (apply kraus_init_ok in EB; destruct EB as (? & _ & _ & ->); auto).
  destruct QA as (QA & IA & OA), QB as (QB & IB & OB). unfold kraus_mul, parallel_concatenate. rewrite SA, SB, IA, IB, OA, OB. set (ops := np_kron3 (kraus_ops a) (kraus_ops b)).
  assert (SO : same_ops (slices ops) (tens_ops (arg_matrices opA) (arg_matrices opB))) by (rewrite <- LA, <- LB; apply slices_kron).
  assert (NO : arg_matrices (OpArray ops) <> []) by (cbn [arg_matrices]; apply (same_nonempty _ _ (same_ops_sym _ _ SO)); apply tens_nonempty; assumption).
  assert (FT : fits (doutA ^ snd nqA * doutB ^ snd nqB) (dinA ^ fst nqA * dinB ^ fst nqB) (slices ops)).
  { apply (same_ops_fits _ _ (tens_ops (arg_matrices opA) (arg_matrices opB))); [apply same_ops_sym, SO|]. apply fits_tens; assumption. }
  rewrite (Nat.mul_comm dinB), (Nat.mul_comm doutB). split; [|split].
  - intros N. rewrite (proj2 (Bool.eqb_false_iff _ _) N). reflexivity.
  - intros <- E1 E2. rewrite Bool.eqb_reflx. cbn [assert_ bind].
    assert (EK : exists k, kraus_init spA (OpArray ops) (1, 1) (dinA * dinB) (doutA * doutB) [] = Ok k).
    { eexists. apply kraus_init_ok. exists ops. split; [reflexivity|]. split; [cbn [fst snd arg_matrices]; rewrite !Nat.pow_1_r, E1, E2; exact FT|reflexivity]. }
    destruct EK as (k & EK). exists k. split; [exact EK|]. destruct (made _ _ _ _ _ _ _ EK NO) as (_ & SK & LK & _ & K0 & _ & _ & NK & _). cbn [arg_matrices] in *. rewrite LK, NK, slices_len. split; [exact SO|]. split; [exact SK|].
    apply kraus_init_ok in EK. destruct EK as (? & _ & _ & ->). cbn [built numb_qubits dim_in dim_out]. repeat split. unfold ops. cbn [np_kron3 t0]. congruence.
  - intros ND. destruct (Bool.eqb spA spB); [|reflexivity]. cbn [assert_ bind]. apply init_err; [exact NO|auto|eexists; reflexivity|]. cbn [fst snd arg_matrices]. rewrite !Nat.pow_1_r. intros F'. apply ND.
    destruct (nonempty_dims ops _ _ NO FT), (nonempty_dims ops _ _ NO F'). split; congruence.
Qed.
Theorem mul_assoc (a b c : kraus K) : 
  same_ops (slices (parallel_concatenate (kraus_ops a) (parallel_concatenate (kraus_ops b) (kraus_ops c))))
           (slices (parallel_concatenate (parallel_concatenate (kraus_ops a) (kraus_ops b)) (kraus_ops c))).
Proof. apply kron_assoc. Qed.
End KA.
