(** Concatenation of channels, and the trace-preservation check. *)
From Verif Require Import Py Scalar PauliModel PauliSpec KrausModel KrausSpec KrausProofs KrausProofs2 KrausProofs3 KrausProofs4 KrausProofs5 ChoiModel ChannelModel ChannelSpec.
From Coq Require Import Reals Lra.
Open Scope nat_scope.

Section S.
Context {K : StarRing}.
Add Ring Kr10 : (s_rt K).
Implicit Types (o : kraus K) (t a b : ten3 K).

Lemma reshape_slices a b : t2 a = t1 b ->
  same_ops (slices (reshape3 (T4 (t0 a) (t0 b) (t1 a) (t2 b) (fun i m j l => bsum (t2 a) (fun k => smul (te a i j k) (te b m k l)))))) (prod_ops (slices a) (slices b)).
Proof.
  intros E. unfold slices at 1. cbn [t0 reshape3 u0 u1]. rewrite seq_blocks. unfold prod_ops, slices.
  rewrite flat_map_concat_map, flat_map_concat_map, map_map.
  induction (seq 0 (t0 a)) as [|x l IH]; [constructor|]. cbn [map concat]. apply same_ops_app; [|exact IH]. clear IH.
  rewrite map_map. assert (H : forall y, In y (seq 0 (t0 b)) -> (y < t0 b)%nat) by (intros y Hy; apply in_seq in Hy; lia).
  induction (seq 0 (t0 b)) as [|y m IHm]; [constructor|]. cbn [map]. constructor; [|apply IHm; intros; apply H; right; assumption].
  destruct (divmod_block x (t0 b) y (H y (or_introl eq_refl))) as [E1 E2].
  split; [reflexivity|]. split; [reflexivity|]. intros i j Hi Hj. cbn [me slice0 te reshape3 ue u1 mc]. rewrite E1, E2. reflexivity.
Qed.
Lemma guard_loop {A B} (f : A -> B -> bool) (l : list B) (m : list A) e :
  foldM (fun _ x => foldM (fun _ y => guard (f x y) e) l tt) m tt = (if forallb (fun x => forallb (f x) l) m then Ok tt else Err e).
Proof.
  assert (G : forall x, foldM (fun _ y => guard (f x y) e) l tt = (if forallb (f x) l then Ok tt else Err e)).
  { intros x. induction l as [|y l IH]; [reflexivity|]. cbn [foldM forallb]. unfold guard at 1. destruct (f x y); [cbn [bind andb]; exact IH|reflexivity]. }
  induction m as [|x m IH]; [reflexivity|]. cbn [foldM forallb]. rewrite G. destruct (forallb (f x) l); [cbn [bind andb]; exact IH|reflexivity].
Qed.
Theorem serial_spec a b : slices a <> [] -> slices b <> [] ->
  (t2 a = t1 b -> exists ops, serial_concatenate a b = Ok ops /\ same_ops (slices ops) (prod_ops (slices a) (slices b)) /\
                   t0 ops = t0 a * t0 b /\ t1 ops = t1 a /\ t2 ops = t2 b) /\
  (t2 a <> t1 b -> serial_concatenate a b = Err TypeError).
Proof.
  intros NA NB. unfold serial_concatenate.
  rewrite (guard_loop (fun k2 k1 : marr K => Nat.eqb (mr k2) (mc k1))).
  assert (G : forallb (fun x : marr K => forallb (fun k1 : marr K => Nat.eqb (mr x) (mc k1)) (slices a)) (slices b) = Nat.eqb (t1 b) (t2 a)).
  { destruct (Nat.eqb_spec (t1 b) (t2 a)) as [E|E].
    - apply forallb_forall. intros x Hx. apply forallb_forall. intros y Hy. apply in_map_iff in Hx, Hy. destruct Hx as (i & <- & _), Hy as (j & <- & _). apply Nat.eqb_eq. exact E.
    - destruct (slices a) as [|x la] eqn:EA; [contradiction|]. destruct (slices b) as [|y lb] eqn:EB; [contradiction|].
      assert (HX : mc x = t2 a) by (assert (In x (slices a)) as HI by (rewrite EA; left; reflexivity); apply in_map_iff in HI; destruct HI as (i & <- & _); reflexivity).
      assert (HY : mr y = t1 b) by (assert (In y (slices b)) as HI by (rewrite EB; left; reflexivity); apply in_map_iff in HI; destruct HI as (i & <- & _); reflexivity).
      cbn [forallb]. rewrite HX, HY, (proj2 (Nat.eqb_neq _ _) E). reflexivity. }
  rewrite G. split; intros E.
  - rewrite <- E, Nat.eqb_refl. cbn [bind]. eexists. split; [reflexivity|]. split; [apply reshape_slices, E|]. cbn. auto.
  - rewrite (proj2 (Nat.eqb_neq _ _)) by congruence. reflexivity.
Qed.
Lemma kron_assoc a b c : same_ops (slices (np_kron3 a (np_kron3 b c))) (slices (np_kron3 (np_kron3 a b) c)).
Proof.
  assert (A : forall i p q r : nat, (i < p * (q * r) -> i / (q * r) = i / r / q /\ (i mod (q * r)) / r = (i / r) mod q /\ (i mod (q * r)) mod r = i mod r)%nat).
  { intros i p q r H. destruct (Nat.eq_dec r 0) as [->|Hr]; [rewrite Nat.mul_0_r, Nat.mul_0_r in H; lia|]. destruct (Nat.eq_dec q 0) as [->|Hq]; [rewrite Nat.mul_0_l, Nat.mul_0_r in H; lia|].
    split; [rewrite Nat.div_div by assumption; f_equal; apply Nat.mul_comm|].
    rewrite (Nat.mul_comm q r), Nat.mod_mul_r by assumption. rewrite (Nat.mul_comm r ((i / r) mod q)).
    split; [rewrite Nat.div_add by assumption; rewrite (Nat.div_small (i mod r)) by (apply Nat.mod_upper_bound; assumption); reflexivity|].
    rewrite Nat.mod_add by assumption. apply Nat.mod_small, Nat.mod_upper_bound. assumption. }
  unfold slices. cbn [np_kron3 t0]. rewrite Nat.mul_assoc.
  assert (H : forall i, In i (seq 0 (t0 a * t0 b * t0 c)) -> i < t0 a * (t0 b * t0 c)) by (intros i Hi; apply in_seq in Hi; lia).
  induction (seq 0 (t0 a * t0 b * t0 c)) as [|i l IH]; [constructor|]. cbn [map]. constructor; [|apply IH; intros; apply H; right; assumption].
  destruct (A i (t0 a) (t0 b) (t0 c) (H i (or_introl eq_refl))) as (A1 & A2 & A3).
  split; [cbn; lia|]. split; [cbn; lia|]. intros x y Hx Hy. cbn [slice0 mr mc me te np_kron3 t0 t1 t2] in *.
  destruct (A x _ _ _ Hx) as (B1 & B2 & B3). destruct (A y _ _ _ Hy) as (C1 & C2 & C3).
  rewrite A1, A2, A3, B1, B2, B3, C1, C2, C3. ring.
Qed.
End S.

(** ** the check *)
Lemma below_true x y : below x y = true <-> (x < y)%R.
Proof. unfold below. destruct (Rlt_dec x y); split; intros; auto; discriminate. Qed.
Lemma tol5_val : tol5 = (/ 100000)%R. Proof. reflexivity. Qed.
Theorem tp_check_iff (k : kraus CC) : is_trace_perserving k = true <-> nearly_tp (t2 (kraus_ops k)) (slices (kraus_ops k)).
Proof.
  unfold is_trace_perserving, nearly_tp. cbn [trace_cond mr mc me]. rewrite forallb_forall.
  assert (G : forall i j, bsum (t0 (kraus_ops k)) (fun n => bsum (t1 (kraus_ops k)) (fun j0 => smul (te (ctrans (kraus_ops k)) n i j0) (te (kraus_ops k) n j0 j))) =
     ksum (map (fun A : marr CC => mm (mr A) (adj (me A)) (me A) i j) (slices (kraus_ops k)))) by (intros i j; rewrite ksum_slices; reflexivity).
  split.
  - intros H i j Hi Hj. specialize (H i ltac:(apply in_seq; lia)). rewrite forallb_forall in H. specialize (H j ltac:(apply in_seq; lia)).
    apply below_true in H. rewrite G, tol5_val in H. exact H.
  - intros H i Hi. apply in_seq in Hi. apply forallb_forall. intros j Hj. apply in_seq in Hj. apply below_true. rewrite G, tol5_val. apply H; lia.
Qed.
Lemma Cmod_0 : Cmod (s0 : CC) = 0%R.
Proof. unfold Cmod. cbn. rewrite !Rmult_0_l, Rplus_0_l. apply sqrt_0. Qed.
Lemma tp_nearly d ops : trace_preserving d ops -> nearly_tp d ops.
Proof.
  intros T i j Hi Hj. rewrite (T i j Hi Hj). replace (ssub (eye i j) (eye i j)) with (s0 : CC); [rewrite Cmod_0; lra|].
  unfold eye. destruct (Nat.eqb i j); cbn; unfold CC_sub, CC_add, CC_opp; cbn; f_equal; ring.
Qed.
Lemma nearly_same r c l m : fits r c l -> same_ops l m -> nearly_tp c l -> nearly_tp c m.
Proof.
  intros F H T i j Hi Hj. specialize (T i j Hi Hj).
  assert (E : ksum (map (fun A : marr CC => mm (mr A) (adj (me A)) (me A) i j) l) = ksum (map (fun A : marr CC => mm (mr A) (adj (me A)) (me A) i j) m)).
  { clear T. revert F. induction H as [|A B l m (E1 & E2 & EE) H IH]; intros F; [reflexivity|].
    inversion F as [|? ? [F1 F2] F3]; subst. cbn [map]. rewrite !ksum_cons, (IH F3). f_equal. rewrite <- E1. unfold mm.
    apply bsum_ext. intros k Hk. unfold adj. rewrite EE by assumption. rewrite (EE k j) by assumption. reflexivity. }
  rewrite <- E. exact T.
Qed.
(** the constructor of AnalyticQChan *)
Theorem chan_init_iff op nq din dout orthogonal sp : arg_matrices op <> [] ->
  (exists c, chan_init op nq din dout orthogonal sp = Ok c) <->
  fits (dout ^ snd nq) (din ^ fst nq) (arg_matrices op) /\ nearly_tp (din ^ fst nq) (arg_matrices op).
Proof.
  intros NE. unfold chan_init. split.
  - intros (c & H). destruct (kraus_init sp op nq din dout (if sp then [] else orthogonal)) as [k|e] eqn:E; [|discriminate]. cbn [bind] in H.
    destruct (made _ _ _ _ _ _ _ E NE) as (_ & _ & SL & F & _ & _ & E2 & _). split; [exact F|].
    unfold assert_ in H. destruct (is_trace_perserving k) eqn:T; [|discriminate]. apply tp_check_iff in T. rewrite SL, E2 in T. exact T.
  - intros [F T]. assert (A : exists ops, arg_array op = Ok ops).
    { destruct op as [l|t]; cbn in *; [|eauto]. destruct l as [|x l]; [contradiction|]. unfold np_array.
      assert (forallb (fun b : marr CC => Nat.eqb (mr b) (mr x) && Nat.eqb (mc b) (mc x))%bool l = true) as ->; [|eauto].
      apply forallb_forall. intros y Hy. destruct (in_fits _ _ _ x F (or_introl eq_refl)) as [X1 X2]. destruct (in_fits _ _ _ y F (or_intror Hy)) as [Y1 Y2].
      rewrite X1, X2, Y1, Y2, !Nat.eqb_refl. reflexivity. }
    destruct A as (ops & EA). assert (KI : kraus_init sp op nq din dout (if sp then [] else orthogonal) = Ok (built sp op nq din dout (if sp then [] else orthogonal) ops)).
    { apply kraus_init_ok. exists ops. auto. }
    rewrite KI. cbn [bind]. destruct (made _ _ _ _ _ _ _ KI NE) as (_ & _ & SL & _ & _ & _ & E2 & _).
    assert (is_trace_perserving (built sp op nq din dout (if sp then [] else orthogonal) ops) = true) as ->; [|eexists; reflexivity].
    apply tp_check_iff. rewrite SL, E2. exact T.
Qed.
Lemma chan_init_made op nq din dout orthogonal sp c : chan_init op nq din dout orthogonal sp = Ok c ->
  exists k, c = KrausType k /\ kraus_init sp op nq din dout (if sp then [] else orthogonal) = Ok k.
Proof.
  unfold chan_init. destruct (kraus_init _ _ _ _ _ _) as [k|e]; [|discriminate]. cbn [bind]. destruct (assert_ _); [|discriminate]. cbn [bind].
  intros H. injection H as <-. eauto.
Qed.
