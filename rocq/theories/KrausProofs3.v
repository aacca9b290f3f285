(** The objects: constructor, update histories, and what each call computes. *)
From Verif Require Import Py Scalar PauliModel PauliSpec KrausModel KrausSpec KrausProofs KrausProofs2 ChoiModel ChannelModel ChannelSpec.
Open Scope nat_scope.

Section O.
Context {K : StarRing}.
Add Ring Kr4 : (s_rt K).
Implicit Types (o : kraus K) (t : ten3 K).

(** ** the constructor *)
Definition exch3 t : ten4 K :=
  swap12 (T4 (t0 t) (t2 t) (t0 t) (t2 t) (fun i k j l => bsum (t1 t) (fun m => smul (te (ctrans t) i k m) (te t j m l)))).
Lemma exchange_fresh o : (sparse o = true -> nth_conj o = ctrans (nth_ops o)) -> kraus_operators_exchange o = Ok (exch3 (nth_ops o)).
Proof.
  intros H. unfold kraus_operators_exchange. replace (if sparse o then nth_conj o else ctrans (nth_ops o)) with (ctrans (nth_ops o)).
  2:{ destruct (sparse o); [symmetry; apply H|]; reflexivity. }
  unfold tensordot21. cbn [ctrans t0 t1 t2]. rewrite Nat.eqb_refl. reflexivity.
Qed.
Lemma np_array_slices (l : list (marr K)) t : np_array l = Ok t -> slices t = l /\ t0 t = length l.
Proof.
  destruct l as [|a r]; [discriminate|]. unfold np_array. destruct (forallb _ r) eqn:E; [|discriminate]. intros H. injection H as <-. split; [|reflexivity].
  unfold slices, slice0. cbn [t0 t1 t2 te]. rewrite forallb_forall in E.
  assert (HH : forall x, In x (a :: r) -> mr x = mr a /\ mc x = mc a).
  { intros x [->|Hx]; [auto|]. specialize (E x Hx). apply andb_prop in E. destruct E as [E1 E2]. apply Nat.eqb_eq in E1, E2. auto. }
  clear E.
  assert (G : forall l k, (forall x, In x l -> mr x = mr a /\ mc x = mc a) -> forall f, (forall i, i < length l -> f (k + i) = nth i l a) ->
    map (fun i => MA (mr a) (mc a) (me (f i))) (seq k (length l)) = l).
  { clear HH. induction l as [|x l IH]; intros k H f Hf; [reflexivity|]. cbn [length seq map]. f_equal.
    - specialize (Hf 0 ltac:(cbn; lia)). rewrite Nat.add_0_r in Hf. rewrite Hf. cbn [nth]. destruct (H x (or_introl eq_refl)) as [<- <-]. destruct x; reflexivity.
    - apply (IH (S k)); [intros; apply H; right; assumption|]. intros i Hi. specialize (Hf (S i) ltac:(cbn; lia)). cbn [nth] in Hf. rewrite <- Hf. f_equal. lia. }
  exact (G (a :: r) 0 HH (fun i => nth i (a :: r) a) (fun i _ => eq_refl)).
Qed.
Lemma foldM_unit {A} (f : A -> res unit) l : foldM (fun _ k => f k) l tt = Ok tt <-> Forall (fun k => f k = Ok tt) l.
Proof.
  induction l as [|x l IH]; cbn; [split; auto|]. destruct (f x) as [[]|e] eqn:E; cbn; [rewrite IH; split; [intros; constructor; auto|inversion 1; auto]|].
  split; [discriminate|]. inversion 1; congruence.
Qed.
Definition built sp (a : kraus_arg K) nq din dout orthogonal ops : kraus K :=
  KR sp ops (length (arg_matrices a)) nq din dout orthogonal 1 ops (ctrans ops) (exch3 ops).
Lemma arg_slices (a : kraus_arg K) ops : arg_array a = Ok ops -> slices ops = arg_matrices a /\ t0 ops = length (arg_matrices a).
Proof.
  destruct a as [l|t]; cbn.
  - apply np_array_slices.
  - intros H. injection H as <-. split; [reflexivity|]. symmetry. apply slices_len.
Qed.
Lemma kraus_init_ok sp a nq din dout orthogonal o : kraus_init sp a nq din dout orthogonal = Ok o <->
  exists ops, arg_array a = Ok ops /\ fits (dout ^ snd nq) (din ^ fst nq) (arg_matrices a) /\ o = built sp a nq din dout orthogonal ops.
Proof.
  assert (F : foldM (fun _ k => do _ <- assert_ (Nat.eqb (mc k) (din ^ fst nq)); assert_ (Nat.eqb (mr k) (dout ^ snd nq))) (arg_matrices a) tt = Ok tt
           <-> fits (dout ^ snd nq) (din ^ fst nq) (arg_matrices a)).
  { rewrite (foldM_unit (fun k => do _ <- assert_ (Nat.eqb (mc k) (din ^ fst nq)); assert_ (Nat.eqb (mr k) (dout ^ snd nq)))). unfold fits. split; intros H; eapply Forall_impl; try exact H; intros k; cbn beta.
    - unfold assert_. destruct (Nat.eqb_spec (mc k) (din ^ fst nq)); cbn; [|discriminate]. destruct (Nat.eqb_spec (mr k) (dout ^ snd nq)); [auto|discriminate].
    - intros [-> ->]. rewrite !Nat.eqb_refl. reflexivity. }
  unfold kraus_init. destruct (arg_array a) as [ops|e]; cbn [bind]; [|split; [discriminate|intros (? & ? & _); discriminate]].
  destruct (foldM _ _ tt) as [[]|e] eqn:E; cbn [bind].
  - set (o1 := KR _ _ _ _ _ _ _ _ _ _ _). rewrite (exchange_fresh o1) by reflexivity. cbn [bind]. split.
    + intros H. injection H as <-. exists ops. split; [reflexivity|]. split; [apply F; reflexivity|reflexivity].
    + intros (ops' & H & _ & ->). injection H as <-. reflexivity.
  - split; [discriminate|]. intros (ops' & _ & H & _). apply F in H. discriminate.
Qed.
Lemma init_err sp (a : kraus_arg K) nq din dout orthogonal : arg_matrices a <> [] ->
  (forall t, a = OpArray t -> True) -> (exists ops, arg_array a = Ok ops) -> ~ fits (dout ^ snd nq) (din ^ fst nq) (arg_matrices a) ->
  kraus_init sp a nq din dout orthogonal = Err AssertionError.
Proof.
  intros _ _ (ops & E) N. unfold kraus_init. rewrite E. cbn [bind].
  assert (G : forall l : list (marr K), ~ fits (dout ^ snd nq) (din ^ fst nq) l ->
     foldM (fun _ k => do _ <- assert_ (Nat.eqb (mc k) (din ^ fst nq)); assert_ (Nat.eqb (mr k) (dout ^ snd nq))) l tt = Err AssertionError).
  { induction l as [|x l IH]; intros H; [exfalso; apply H; constructor|]. cbn. unfold assert_ at 1.
    destruct (Nat.eqb_spec (mc x) (din ^ fst nq)); [|reflexivity]. cbn. unfold assert_ at 1. destruct (Nat.eqb_spec (mr x) (dout ^ snd nq)); [|reflexivity].
    cbn. apply IH. intros F. apply H. constructor; auto. }
  rewrite G by exact N. reflexivity.
Qed.

(** ** updates *)
Definition static o o' : Prop := sparse o' = sparse o /\ kraus_ops o' = kraus_ops o /\ numb_kraus o' = numb_kraus o /\ numb_qubits o' = numb_qubits o /\
  dim_in o' = dim_in o /\ dim_out o' = dim_out o /\ orth o' = orth o.
Definition consistent o : Prop := 1 <= current_n o /\ nth_ops o = power3 (kraus_ops o) (current_n o).
Definition fresh o : Prop := (sparse o = true -> nth_conj o = ctrans (nth_ops o)) /\ nth_exch o = exch3 (nth_ops o).
Lemma static_refl o : static o o. Proof. repeat split. Qed.
Lemma static_trans o o' o'' : static o o' -> static o' o'' -> static o o''.
Proof. intros (A1 & A2 & A3 & A4 & A5 & A6 & A7) (B1 & B2 & B3 & B4 & B5 & B6 & B7). repeat split; congruence. Qed.
Lemma step_loop o s k : 1 <= k -> nth_ops o = power3 (kraus_ops o) k -> forall m,
  let o' := fold_left (fun o _ => tensor_step (kraus_ops o) (nth_ops o) o) (seq s m) o in
  static o o' /\ nth_ops o' = power3 (kraus_ops o) (k + m) /\
  ((sparse o = true -> nth_conj o = ctrans (nth_ops o)) \/ 1 <= m -> sparse o = true -> nth_conj o' = ctrans (nth_ops o')).
Proof.
  intros Hk E m. induction m as [|m IH].
  - cbn. rewrite Nat.add_0_r. split; [apply static_refl|]. split; [exact E|]. intros [H|H]; [exact H|lia].
  - cbn zeta in *. rewrite seq_S, fold_left_app. cbn [fold_left]. set (o1 := fold_left _ _ o) in *. destruct IH as (S1 & E1 & C1).
    destruct S1 as (S1 & S2 & S3 & S4 & S5 & S6 & S7).
    unfold tensor_step. rewrite S1, S2. split; [|split].
    + destruct (sparse o) eqn:SP; repeat split; cbn; congruence.
    + cbn [set_nth nth_ops]. rewrite E1. replace (k + S m) with (S (k + m)) by lia. rewrite power3_S by lia. reflexivity.
    + intros _ H. rewrite H. cbn [set_nth set_conj nth_conj nth_ops]. reflexivity.
Qed.
Definition safe o n : Prop := sparse o = false \/ 2 <= n \/ (n = current_n o /\ nth_conj o = ctrans (nth_ops o)).
Theorem update_spec o n o' r : update_kraus_operators o n = (o', r) -> consistent o -> 1 <= n ->
  (current_n o >= 2 -> sparse o = true -> nth_conj o = ctrans (nth_ops o)) ->
  static o o' /\ consistent o' /\ current_n o' = n /\ (n >= 2 -> sparse o' = true -> nth_conj o' = ctrans (nth_ops o')) /\
  (safe o n -> r = Ok tt /\ fresh o').
Proof.
  intros H [Hc E] Hn HC. unfold update_kraus_operators in H.
  set (o1 := if Nat.ltb (current_n o) n then _ else _) in H.
  assert (G : static o o1 /\ nth_ops o1 = power3 (kraus_ops o) n /\ (safe o n -> sparse o = true -> nth_conj o1 = ctrans (nth_ops o1))
              /\ (2 <= n -> sparse o = true -> nth_conj o1 = ctrans (nth_ops o1))).
  { unfold o1. clear H o1. destruct (Nat.ltb_spec (current_n o) n) as [Hlt|Hge].
    - pose proof (step_loop o (current_n o) (current_n o) Hc E (n - current_n o)) as (S1 & E1 & C1). split; [exact S1|].
      split; [rewrite E1; f_equal; lia|]. split; intros _; apply C1; right; lia.
    - destruct (Nat.ltb_spec n (current_n o)) as [Hlt|Hge'].
      + destruct (Nat.eqb_spec n 1) as [->|N1].
        * split; [repeat split|]. split; [reflexivity|]. split; [|lia]. intros [HS|[HS|[HS _]]] Hsp; [congruence|lia|lia].
        * set (ob := tensor_step (kraus_ops o) (kraus_ops o) o).
          assert (S0 : static o ob) by (unfold ob, tensor_step; destruct (sparse o) eqn:SP; repeat split; cbn; congruence).
          assert (E0 : nth_ops ob = power3 (kraus_ops ob) 2) by (unfold ob, tensor_step; destruct (sparse o); reflexivity).
          assert (C0 : sparse ob = true -> nth_conj ob = ctrans (nth_ops ob)).
          { unfold ob, tensor_step. destruct (sparse o) eqn:SP; cbn; [reflexivity|congruence]. }
          pose proof (step_loop ob 0 2 ltac:(lia) E0 (n - 2)) as (S1 & E1 & C1). destruct S0 as (S01 & S02 & S0). 
          split; [eapply static_trans; [split; [exact S01|split; [exact S02|exact S0]]|exact S1]|].
          split; [rewrite E1, S02; f_equal; lia|]. rewrite S01 in C1, C0. split; intros _; apply C1; left; exact C0.
      + assert (n = current_n o) by lia. subst n. split; [apply static_refl|]. split; [exact E|]. split.
        * intros [HS|[HS|[_ HS]]] Hsp; [congruence|apply HC; assumption|exact HS].
        * intros H2. apply HC. lia. }
  destruct G as ((S1 & S2 & S3 & S4 & S5 & S6 & S7) & E1 & C1 & C2).
  destruct (kraus_operators_exchange (set_n o1 n)) as [e|e] eqn:X; injection H as <- <-.
  - split; [repeat split; assumption|]. split; [split; [exact Hn|cbn; rewrite S2; exact E1]|]. split; [reflexivity|].
    split; [intros Hn2 Hsp; cbn in *; apply C2; [lia|congruence]|]. intros HS. split; [reflexivity|].
    split; [intros Hsp; cbn in *; apply C1; [exact HS|congruence]|].
    rewrite exchange_fresh in X by (intros Hsp; cbn in *; apply C1; [exact HS|congruence]). injection X as <-. reflexivity.
  - split; [repeat split; assumption|]. split; [split; [exact Hn|cbn; rewrite S2; exact E1]|]. split; [reflexivity|].
    split; [intros Hn2 Hsp; cbn in *; apply C2; [lia|congruence]|]. intros HS.
    rewrite exchange_fresh in X by (intros Hsp; cbn in *; apply C1; [exact HS|congruence]). discriminate.
Qed.
(** the stale case *)
Theorem update_stale o : consistent o -> sparse o = true -> 2 <= current_n o -> nth_conj o = ctrans (nth_ops o) -> 2 <= t1 (kraus_ops o) ->
  snd (update_kraus_operators o 1) = Err ValueError /\ nth_conj (fst (update_kraus_operators o 1)) = ctrans (power3 (kraus_ops o) (current_n o)) /\
  nth_ops (fst (update_kraus_operators o 1)) = kraus_ops o.
Proof.
  intros [Hc E] SP H2 C D. unfold update_kraus_operators. rewrite (proj2 (Nat.ltb_ge _ _)) by lia. rewrite (proj2 (Nat.ltb_lt 1 _)) by lia. cbn [Nat.eqb].
  unfold kraus_operators_exchange. cbn [set_n set_nth sparse nth_conj nth_ops]. rewrite SP, C. unfold tensordot21. cbn [ctrans t2]. rewrite E.
  destruct (power3_dims (kraus_ops o) (current_n o) Hc) as (_ & E1 & _). rewrite E1.
  destruct (Nat.eqb_spec (t1 (kraus_ops o) ^ current_n o) (t1 (kraus_ops o))) as [X|X]; [|cbn; rewrite C, E; auto].
  exfalso. assert (t1 (kraus_ops o) ^ 1 < t1 (kraus_ops o) ^ current_n o) by (apply Nat.pow_lt_mono_r; lia). rewrite Nat.pow_1_r in H. lia.
Qed.

(** ** histories *)
Definition reached o0 o : Prop := static o0 o /\ consistent o /\ (current_n o >= 2 -> sparse o = true -> nth_conj o = ctrans (nth_ops o)).
Lemma reached_update o0 o n : reached o0 o -> 1 <= n -> reached o0 (fst (update_kraus_operators o n)) /\ current_n (fst (update_kraus_operators o n)) = n.
Proof.
  intros (S & C & F) Hn. destruct (update_kraus_operators o n) as [o' r] eqn:E. destruct (update_spec o n o' r E C Hn F) as (S' & C' & N & F' & _).
  cbn. split; [|exact N]. split; [eapply static_trans; eassumption|]. split; [exact C'|]. rewrite N. exact F'.
Qed.
(** until something above 1 is requested the object stays as built *)
Definition never_left o : Prop := current_n o = 1 /\ fresh o.
End O.
