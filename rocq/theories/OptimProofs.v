(** The Lipschitz sampler. *)
From Verif Require Import Py Scalar PauliModel KrausSpec ChannelModel ParamModel OptimModel OptimSpec.
From Coq Require Import Reals Lra Sorted.
Open Scope nat_scope.

Lemma reals_sum_app a b : reals_sum (a ++ b) = (reals_sum a + reals_sum b)%R.
Proof. unfold reals_sum. induction a as [|x a IH]; cbn [List.app fold_right]; [ring|]. rewrite IH; ring. Qed.
Lemma l1_dist_ok rho sigma : mr rho = mr sigma -> mc rho = mc sigma -> l1_dist rho sigma = Ok (entry_dist (mr rho) (mc rho) (me rho) (me sigma)).
Proof.
  intros R1 C1. unfold l1_dist. rewrite <- R1, <- C1, !Nat.eqb_refl. cbn [andb]. f_equal. unfold entry_dist. change (fold_right Rplus 0%R) with reals_sum.
  induction (seq 0 (mr rho)) as [|i l IH]; [reflexivity|]. cbn [flat_map map]. rewrite reals_sum_app, IH. reflexivity.
Qed.
Lemma l1_dist_inv rho sigma d : l1_dist rho sigma = Ok d -> d = entry_dist (mr rho) (mc rho) (me rho) (me sigma).
Proof.
  intros H. assert (E : mr rho = mr sigma /\ mc rho = mc sigma).
  { unfold l1_dist in H. destruct (Nat.eqb (mr rho) (mr sigma)) eqn:E1; [|discriminate]. destruct (Nat.eqb (mc rho) (mc sigma)) eqn:E2; [|discriminate].
    apply Nat.eqb_eq in E1, E2. auto. }
  rewrite l1_dist_ok in H by apply E. congruence.
Qed.
Lemma Rleb_iff x y : Rleb x y = true <-> (x <= y)%R.
Proof. unfold Rleb. destruct (Rle_dec x y); split; auto; try discriminate; contradiction. Qed.
Lemma Rltb_iff x y : Rltb x y = true <-> (x < y)%R.
Proof. unfold Rltb. destruct (Rlt_dec x y); split; auto; try discriminate; contradiction. Qed.

Lemma fold_min_le : forall l x m, (m <= fold_left Rmin l x)%R <-> (m <= x)%R /\ forall y, In y l -> (m <= y)%R.
Proof.
  induction l as [|y l IH]; intros x m; cbn [fold_left In].
  - split; [intros H; split; [exact H|tauto]|tauto].
  - rewrite IH. split.
    + intros [H1 H2]. pose proof (Rmin_l x y). pose proof (Rmin_r x y). split; [lra|]. intros z [->|Hz]; [lra|auto].
    + intros [H1 H2]. split; [apply Rmin_glb; auto|auto].
Qed.
Lemma np_min_le l m x : np_min l = Ok m -> (x <= m)%R <-> forall y, In y l -> (x <= y)%R.
Proof.
  destruct l as [|a l]; [discriminate|]. cbn [np_min]. intros [= <-]. rewrite fold_min_le. split.
  - intros [H1 H2] y [->|Hy]; auto.
  - intros H. split; [apply H; left; reflexivity|]. intros y Hy. apply H. right. exact Hy.
Qed.
Lemma fold_max_le : forall l x m, (fold_left Rmax l x <= m)%R <-> (x <= m)%R /\ forall y, In y l -> (y <= m)%R.
Proof.
  induction l as [|y l IH]; intros x m; cbn [fold_left In].
  - split; [intros H; split; [exact H|tauto]|tauto].
  - rewrite IH. split.
    + intros [H1 H2]. pose proof (Rmax_l x y). pose proof (Rmax_r x y). split; [lra|]. intros z [->|Hz]; [lra|auto].
    + intros [H1 H2]. split; [apply Rmax_lub; auto|auto].
Qed.
Lemma np_max_le l m x : np_max l = Ok m -> (m <= x)%R <-> forall y, In y l -> (y <= x)%R.
Proof.
  destruct l as [|a l]; [discriminate|]. cbn [np_max]. intros [= <-]. rewrite fold_max_le. split.
  - intros [H1 H2] y [->|Hy]; auto.
  - intros H. split; [apply H; left; reflexivity|]. intros y Hy. apply H. right. exact Hy.
Qed.

Section Sampler.
Variables (f : objective) (p : paramet) (nsize rank : nat) (c : chan CC).
Hypothesis Hf : steady f c.
Let fv v := snd (f c v).
Lemma f_pure v : f c v = (c, fv v).
Proof. unfold fv. specialize (Hf v). destruct (f c v) as [c' r]. cbn in *. congruence. Qed.

(** the lists and f_max of the loop describe the samples kept; draws 1..k were decided *)
Record holds (k : nat) (st : lip) (kept : list sample) : Prop := Holds {
  h_vecs : l_vecs st = map s_vec kept;
  h_rhos : l_rhos st = map s_rho kept;
  h_evals : l_evals st = map s_val kept;
  h_max : forall x, (l_max st <= x)%R <-> forall s, In s kept -> (s_val s <= x)%R;
  h_drawn : Forall (drawn fv p nsize rank) kept;
  h_sorted : StronglySorted lt (map s_draw kept);
  h_first : hd 1 (map s_draw kept) = 0;
  h_last : Forall (fun x => s_draw x <= k) kept;
  h_choice : forall j v rho, 1 <= j <= k -> p_random p j nsize rank = Ok v -> p_rho p v nsize rank = Ok rho ->
    (In j (map s_draw kept) <-> could_be_best (before j kept) rho) }.

Lemma combine_map {X A B} (g : X -> A) (h : X -> B) l : combine (map g l) (map h l) = map (fun x => (g x, h x)) l.
Proof. induction l as [|x l IH]; cbn; [reflexivity|]. rewrite IH; reflexivity. Qed.
Lemma before_all k l : Forall (fun x => s_draw x <= k) l -> before (S k) l = l.
Proof.
  induction 1 as [|x l H _ IH]; [reflexivity|]. unfold before in *. cbn [filter]. destruct (Nat.ltb (s_draw x) (S k)) eqn:E; [rewrite IH; reflexivity|].
  apply Nat.ltb_ge in E. lia.
Qed.
Lemma before_app j l x : j <= s_draw x -> before j (l ++ [x]) = before j l.
Proof. intros H. unfold before. rewrite filter_app. cbn [filter]. destruct (Nat.ltb (s_draw x) j) eqn:E; [apply Nat.ltb_lt in E; lia|]. apply app_nil_r. Qed.
Lemma sorted_snoc l x : StronglySorted lt l -> Forall (fun y => y < x) l -> StronglySorted lt (l ++ [x]).
Proof.
  induction 1 as [|y l H IH H2]; intros F; cbn [List.app]; [repeat constructor|]. inversion F; subst. constructor; [apply IH; assumption|].
  apply Forall_app; split; [assumption|repeat constructor; assumption].
Qed.

Lemma body_holds k st kept st' c' : holds k st kept -> lip_body f p nsize rank k c st = (c', Ok st') ->
  c' = c /\ exists kept', holds (S k) st' kept' /\ (kept' = kept \/ exists x, kept' = kept ++ [x]).
Proof.
  intros H. unfold lip_body. destruct (p_random p (S k) nsize rank) as [v|e] eqn:Ev; [|discriminate]. cbn [bind].
  destruct (p_rho p v nsize rank) as [rho|e] eqn:Er; [|discriminate]. cbn [bind].
  destruct (mapM _ (combine (l_evals st) (l_rhos st))) as [bounds|e] eqn:Eb; [|discriminate]. cbn [bind].
  destruct (np_min bounds) as [m|e] eqn:Em; [|discriminate]. cbn [bind].
  rewrite (h_evals _ _ _ H), (h_rhos _ _ _ H), combine_map in Eb. apply mapM_ok in Eb.
  assert (B : forall x, (x <= m)%R <-> forall s, In s kept -> (x <= s_val s + entry_dist (mr rho) (mc rho) (me rho) (me (s_rho s)))%R).
  { intros x. rewrite (np_min_le _ _ _ Em). clear -Eb. remember (map (fun x0 => (s_val x0, s_rho x0)) kept) as l eqn:El. revert kept El.
    induction Eb as [|q y l ys Hq _ IH]; intros kept El; destruct kept as [|s kept]; try discriminate; [cbn; tauto|].
    injection El as -> ->. specialize (IH kept eq_refl). apply bind_ok in Hq. destruct Hq as (d & Hd & [= <-]). apply l1_dist_inv in Hd. subst d. cbn [In].
    split; intros G z [<-|Hz].
    - apply G. left. reflexivity.
    - revert z Hz. apply IH. intros y Hy. apply G. right. exact Hy.
    - apply G. left. reflexivity.
    - revert z Hz. apply IH. intros s' Hs'. apply G. right. exact Hs'. }
  assert (G : (l_max st <= m)%R <-> could_be_best kept rho).
  { rewrite B. unfold could_be_best. split.
    - intros G x y Hx Hy. specialize (G y Hy). apply (h_max _ _ _ H); assumption.
    - intros G y Hy. apply (h_max _ _ _ H). intros x Hx. apply G; assumption. }
  assert (NI : ~ In (S k) (map s_draw kept)).
  { intros HI. apply in_map_iff in HI. destruct HI as (x & E & HI). pose proof (h_last _ _ _ H) as HL. rewrite Forall_forall in HL. specialize (HL x HI). cbn in HL. lia. }
  destruct (Rleb (l_max st) m) eqn:Ec.
  - rewrite f_pure. destruct (fv v) as [y|e] eqn:Ef; [|discriminate]. cbn [bind]. destruct (np_max (l_evals st ++ [(- y)%R])) as [fm|e] eqn:Ex; [|discriminate]. cbn [bind].
    intros [= <- <-]. split; [reflexivity|]. exists (kept ++ [Sample (S k) v rho (- y)%R]). split; [|right; eexists; reflexivity].
    apply Rleb_iff in Ec.
    constructor; cbn [l_vecs l_rhos l_evals l_max].
    + rewrite map_app, (h_vecs _ _ _ H). reflexivity.
    + rewrite map_app, (h_rhos _ _ _ H). reflexivity.
    + rewrite map_app, (h_evals _ _ _ H). reflexivity.
    + intros x. rewrite (np_max_le _ _ _ Ex), (h_evals _ _ _ H). split.
      * intros Q s Hs. apply in_app_iff in Hs. apply Q, in_app_iff. destruct Hs as [Hs|[<-|[]]]; [left; apply in_map; exact Hs|right; left; reflexivity].
      * intros Q z Hz. apply in_app_iff in Hz. destruct Hz as [Hz|[<-|[]]].
        -- apply in_map_iff in Hz. destruct Hz as (s & <- & Hs). apply Q, in_app_iff. left. exact Hs.
        -- apply (Q (Sample (S k) v rho (- y)%R)), in_app_iff. right. left. reflexivity.
    + apply Forall_app. split; [apply (h_drawn _ _ _ H)|]. repeat constructor; cbn [s_draw s_vec s_rho s_val]; auto. rewrite Ropp_involutive. exact Ef.
    + rewrite map_app. apply sorted_snoc; [apply (h_sorted _ _ _ H)|]. apply Forall_map. eapply Forall_impl; [|apply (h_last _ _ _ H)]. cbn. intros; lia.
    + pose proof (h_first _ _ _ H) as F. destruct kept as [|x kept]; [discriminate F|exact F].
    + apply Forall_app. split; [eapply Forall_impl; [|apply (h_last _ _ _ H)]; cbn; intros; lia|repeat constructor].
    + intros j w sigma Hj Hw Hs. rewrite before_app by (cbn; lia). rewrite map_app, in_app_iff. cbn [map In s_draw].
      destruct (Nat.eq_dec j (S k)) as [->|N].
      * rewrite Ev in Hw. injection Hw as <-. rewrite Er in Hs. injection Hs as <-. rewrite before_all by apply (h_last _ _ _ H). tauto.
      * rewrite <- (h_choice _ _ _ H j w sigma) by (auto; lia). split; [intros [X|[X|[]]]; [exact X|lia]|tauto].
  - intros [= <- <-]. split; [reflexivity|]. exists kept. split; [|left; reflexivity].
    assert (NG : ~ could_be_best kept rho). { intros X. apply G, Rleb_iff in X. congruence. }
    destruct H as [H1 H2 H3 H4 H5 H6 H7 H8 H9]. constructor; auto.
    + eapply Forall_impl; [|exact H8]. cbn. intros; lia.
    + intros j w sigma Hj Hw Hs. destruct (Nat.eq_dec j (S k)) as [->|N]; [|apply (H9 j w sigma); auto; lia].
      rewrite Ev in Hw. injection Hw as <-. rewrite Er in Hs. injection Hs as <-. rewrite before_all by exact H8. tauto.
Qed.

Lemma loop_holds ns : forall tries k st kept st' c', holds k st kept -> lip_loop f p nsize rank ns tries k c st = (c', Ok st') ->
  c' = c /\ exists tried kept', holds tried st' kept' /\ k <= tried <= k + tries /\
    (tried = k + tries \/ (ns <= Z.of_nat (length kept'))%Z) /\
    (Z.of_nat (length kept') <= Z.max (Z.of_nat (length kept)) ns)%Z /\ length kept <= length kept'.
Proof.
  induction tries as [|t IH]; intros k st kept st' c' H; cbn [lip_loop].
  - intros [= <- <-]. split; [reflexivity|]. exists k, kept. split; [exact H|]. split; [lia|]. split; [left; lia|]. lia.
  - rewrite (h_vecs _ _ _ H), map_length. destruct (Z.of_nat (length kept) <? ns)%Z eqn:E.
    + apply Z.ltb_lt in E. destruct (lip_body f p nsize rank k c st) as [c1 [st1|e]] eqn:Eb; [|discriminate].
      destruct (body_holds k st kept st1 c1 H Eb) as (-> & kept1 & H1 & K1). intros L. destruct (IH _ _ _ _ _ H1 L) as (-> & tried & kept' & H' & B1 & B2 & B3 & B4).
      split; [reflexivity|]. exists tried, kept'. split; [exact H'|]. assert (length kept <= length kept1 <= S (length kept)) by (destruct K1 as [->|(x & ->)]; rewrite ?app_length; cbn; lia).
      split; [lia|]. split; [destruct B2; [left; lia|right; assumption]|]. lia.
    + apply Z.ltb_ge in E. intros [= <- <-]. split; [reflexivity|]. exists k, kept. split; [exact H|]. split; [lia|]. split; [right; exact E|]. lia.
Qed.

Theorem sampler_run ns nt c' vecs evals success : initial_guesses_lipschitz f nsize rank p c ns nt = (c', Ok (vecs, evals, success)) ->
  c' = c /\ exists tried kept, map s_vec kept = vecs /\ map s_val kept = evals /\
    Forall (drawn fv p nsize rank) kept /\ StronglySorted lt (map s_draw kept) /\ hd 1 (map s_draw kept) = 0 /\
    (forall k v rho, 1 <= k <= tried -> p_random p k nsize rank = Ok v -> p_rho p v nsize rank = Ok rho ->
       (In k (map s_draw kept) <-> could_be_best (before k kept) rho)) /\
    Forall (fun x => s_draw x <= tried) kept /\
    tried <= Z.to_nat nt /\ (tried = Z.to_nat nt \/ (ns <= Z.of_nat (length kept))%Z) /\
    1 <= length kept /\ (Z.of_nat (length kept) <= Z.max 1 ns)%Z /\
    (success = true <-> Z.of_nat (length kept) = ns).
Proof.
  unfold initial_guesses_lipschitz. destruct (p_random p 0 nsize rank) as [v|e] eqn:Ev; [|discriminate]. cbn [bind].
  destruct (p_rho p v nsize rank) as [rho|e] eqn:Er; [|discriminate]. cbn [bind]. rewrite f_pure. destruct (fv v) as [y|e] eqn:Ef; [|discriminate].
  set (st0 := Lip _ _ _ _). set (k0 := [Sample 0 v rho (- y)%R]).
  assert (H0 : holds 0 st0 k0).
  { constructor; try reflexivity.
    - intros x. cbn. split; [intros Q s [<-|[]]; exact Q|]. intros Q. apply (Q (Sample 0 v rho (- y)%R)). left. reflexivity.
    - repeat constructor; cbn [s_draw s_vec s_rho s_val]; auto. rewrite Ropp_involutive. exact Ef.
    - repeat constructor.
    - repeat constructor.
    - intros j; lia. }
  destruct (lip_loop f p nsize rank ns (Z.to_nat nt) 0 c st0) as [c2 [st|e]] eqn:El; [|discriminate]. cbn [bind]. intros [= <- <- <- <-].
  destruct (loop_holds ns _ _ _ _ _ _ H0 El) as (-> & tried & kept & H & B1 & B2 & B3 & B4). split; [reflexivity|]. exists tried, kept.
  split; [symmetry; apply (h_vecs _ _ _ H)|]. split; [symmetry; apply (h_evals _ _ _ H)|]. split; [apply (h_drawn _ _ _ H)|]. split; [apply (h_sorted _ _ _ H)|].
  split; [apply (h_first _ _ _ H)|]. split; [apply (h_choice _ _ _ H)|]. split; [apply (h_last _ _ _ H)|]. cbn in B3, B4. split; [lia|]. split; [destruct B2; [left; lia|right; assumption]|].
  split; [lia|]. split; [lia|]. rewrite (h_vecs _ _ _ H), map_length. apply Z.eqb_eq.
Qed.

(** if every draw succeeds, the sampler returns *)
Theorem sampler_total ns nt : (forall k, exists v rho y, p_random p k nsize rank = Ok v /\ p_rho p v nsize rank = Ok rho /\ is_square nsize rho /\ fv v = Ok y) ->
  exists r, initial_guesses_lipschitz f nsize rank p c ns nt = (c, Ok r).
Proof.
  intros T. unfold initial_guesses_lipschitz. destruct (T 0) as (v & rho & y & Ev & Er & [Q1 Q2] & Ef). rewrite Ev. cbn [bind]. rewrite Er. cbn [bind]. rewrite f_pure, Ef.
  assert (L : forall tries k st, l_evals st <> [] -> length (l_evals st) = length (l_rhos st) -> Forall (is_square nsize) (l_rhos st) ->
              exists st', lip_loop f p nsize rank ns tries k c st = (c, Ok st')).
  { induction tries as [|t IH]; intros k st N L F; cbn [lip_loop]; [eexists; reflexivity|].
    destruct (_ <? ns)%Z; [|eexists; reflexivity]. unfold lip_body. destruct (T (S k)) as (v1 & rho1 & y1 & Ev1 & Er1 & [Q3 Q4] & Ef1). rewrite Ev1. cbn [bind]. rewrite Er1. cbn [bind].
    assert (M : exists b bs, mapM (fun q => do d <- l1_dist rho1 (snd q); Ok (fst q + d)%R) (combine (l_evals st) (l_rhos st)) = Ok (b :: bs)).
    { destruct (l_evals st) as [|e0 es]; [congruence|]. destruct (l_rhos st) as [|r0 rs]; [discriminate|]. cbn [combine]. injection L as L.
      rewrite (mapM_map _ (fun q => (fst q + entry_dist (mr rho1) (mc rho1) (me rho1) (me (snd q)))%R)); [do 2 eexists; reflexivity|].
      intros [a b] HI. assert (Hb : is_square nsize b). { rewrite Forall_forall in F. apply F. destruct HI as [HI|HI]; [injection HI as <- <-; left; reflexivity|right; eapply in_combine_r; exact HI]. }
      destruct Hb as [Q5 Q6]. cbn [fst snd]. rewrite l1_dist_ok by congruence. reflexivity. }
    destruct M as (b & bs & ->). cbn [bind np_min]. destruct (Rleb _ _).
    - rewrite f_pure, Ef1. cbn [bind]. destruct (l_evals st) as [|e0 es] eqn:Ee; [congruence|]. cbn [np_max List.app bind]. apply IH; cbn [l_evals l_rhos]; [discriminate| |].
      + rewrite app_length. cbn in *. rewrite app_length. cbn. lia.
      + apply Forall_app. split; [exact F|repeat constructor; assumption].
    - apply IH; assumption. }
  destruct (L (Z.to_nat nt) 0 (Lip [v] [rho] [(- y)%R] (- y)%R)) as (st & ->); cbn [l_evals l_rhos]; [discriminate|reflexivity|repeat constructor; assumption|]. cbn [bind]. eexists; reflexivity.
Qed.
End Sampler.
