(** Properties of the Lipschitz sampler and of the optimisation methods
    (PyQCodes/_optimize.py, PyQCodes/chan/_coherent.py, PyQCodes/chan/channel.py). *)
From Verif Require Import Py Scalar PauliModel PauliSpec EncoderProofs KrausModel KrausSpec KrausExamples ChoiModel ChoiSpec ChoiProofs3 ChannelModel ChannelSpec EntropyProofs ParamModel ParamSpec ParamProofs3 OptimModel OptimSpec OptimProofs OptimProofs2 OptimProofs3 SpectralExists.
From Coq Require Import Reals Lra Sorted.
From Coq Require String.
Import String.StringSyntax.
Delimit Scope string_scope with string.
Open Scope nat_scope.

(** the objectives do not change an object set to n uses *)
Theorem C55_steady eigvalsh sqrtm nsize rank p n c : chan_n c = n ->
  steady (obj_coherent eigvalsh sqrtm nsize rank p n) c /\ steady (obj_fidelity sqrtm nsize p n) c.
Proof. intros H. assert (S : set_to n c) by (destruct c; cbn in *; auto). split; [apply obj_coherent_steady|apply obj_fidelity_steady]; exact S. Qed.

(** ** C55 *)
Theorem C55_result f p nsize rank c ns nt c' vecs evals success : steady f c ->
  initial_guesses_lipschitz f nsize rank p c ns nt = (c', Ok (vecs, evals, success)) ->
  c' = c /\ Forall2 (fun v y => snd (f c v) = Ok (- y)%R) vecs evals /\
  1 <= length vecs /\ (Z.of_nat (length vecs) <= Z.max 1 ns)%Z /\ (success = true <-> Z.of_nat (length vecs) = ns) /\
  Forall (fun v => exists k, k <= Z.to_nat nt /\ p_random p k nsize rank = Ok v) vecs.
Proof.
  intros S H. destruct (sampler_run f p nsize rank c S _ _ _ _ _ _ H) as (-> & tried & kept & <- & <- & D & SS & F0 & CH & FT & T1 & T2 & N1 & N2 & SU).
  split; [reflexivity|]. rewrite map_length. split; [|split; [exact N1|split; [exact N2|split; [exact SU|]]]].
  - clear -D. induction D as [|x l (_ & _ & D) _ IH]; constructor; assumption.
  - apply Forall_map. rewrite Forall_forall in *. intros x Hx. exists (s_draw x). specialize (FT x Hx). cbn in FT. split; [lia|]. apply (D x Hx).
Qed.
(** at most numb_tries + 1 draws: later ones do not matter *)
Theorem C55_draws f p p' nsize rank c ns nt : (forall k, k <= Z.to_nat nt -> p_random p k nsize rank = p_random p' k nsize rank) ->
  (forall v, p_rho p v nsize rank = p_rho p' v nsize rank) ->
  initial_guesses_lipschitz f nsize rank p c ns nt = initial_guesses_lipschitz f nsize rank p' c ns nt.
Proof.
  intros Hd Hr. unfold initial_guesses_lipschitz. rewrite <- (Hd 0) by lia. destruct (p_random p 0 nsize rank) as [v|e]; [|reflexivity]. cbn [bind]. rewrite <- Hr.
  destruct (p_rho p v nsize rank) as [rho|e]; [|reflexivity]. cbn [bind]. destruct (f c v) as [c1 [y|e]]; [|reflexivity].
  assert (L : forall t k c st, k + t <= Z.to_nat nt -> lip_loop f p nsize rank ns t k c st = lip_loop f p' nsize rank ns t k c st).
  { induction t as [|t IH]; intros k c0 st B; cbn [lip_loop]; [reflexivity|]. destruct (_ <? ns)%Z; [|reflexivity].
    assert (E : lip_body f p nsize rank k c0 st = lip_body f p' nsize rank k c0 st).
    { unfold lip_body. rewrite <- (Hd (S k)) by lia. destruct (p_random p (S k) nsize rank) as [w|e]; [|reflexivity]. cbn [bind]. rewrite <- Hr. reflexivity. }
    rewrite E. destruct (lip_body f p' nsize rank k c0 st) as [c2 [st2|e]]; [|reflexivity]. apply IH. lia. }
  rewrite L by lia. reflexivity.
Qed.
(** it returns when the draws give square matrices at which the objective has a value *)
Theorem C55_returns f p nsize rank c ns nt : steady f c ->
  (forall k, exists v rho y, p_random p k nsize rank = Ok v /\ p_rho p v nsize rank = Ok rho /\ is_square nsize rho /\ snd (f c v) = Ok y) ->
  exists r, initial_guesses_lipschitz f nsize rank p c ns nt = (c, Ok r).
Proof. intros S. exact (sampler_total f p nsize rank c S ns nt). Qed.

(** ** C56 *)
Theorem C56_accepts f p nsize rank c ns nt c' vecs evals success : steady f c ->
  initial_guesses_lipschitz f nsize rank p c ns nt = (c', Ok (vecs, evals, success)) ->
  exists tried kept, vecs = map s_vec kept /\ evals = map s_val kept /\ Forall (drawn (fun v => snd (f c v)) p nsize rank) kept /\
    StronglySorted lt (map s_draw kept) /\ hd 1 (map s_draw kept) = 0 /\ Forall (fun x => s_draw x <= tried) kept /\
    (forall k v rho, 1 <= k <= tried -> p_random p k nsize rank = Ok v -> p_rho p v nsize rank = Ok rho ->
       (In k (map s_draw kept) <-> could_be_best (before k kept) rho)) /\
    tried <= Z.to_nat nt /\ (tried = Z.to_nat nt \/ (ns <= Z.of_nat (length vecs))%Z).
Proof.
  intros S H. destruct (sampler_run f p nsize rank c S _ _ _ _ _ _ H) as (-> & tried & kept & E1 & E2 & D & SS & F0 & CH & FT & T1 & T2 & N1 & N2 & SU).
  exists tried, kept. rewrite <- E1, map_length. repeat (split; auto).
Qed.
Print Assumptions C55_steady.
Print Assumptions C55_result.
Print Assumptions C55_draws.
Print Assumptions C55_returns.
Print Assumptions C56_accepts.

(** ** C74: with a Lipschitz objective the sampler keeps the best draws *)
Theorem C74_keeps_best_partial f p nsize rank c ns nt c' vecs evals success k v rho y :
  steady f c -> initial_guesses_lipschitz f nsize rank p c ns nt = (c', Ok (vecs, evals, success)) ->
  (forall v1 rho1 y1 v2 rho2 y2, p_rho p v1 nsize rank = Ok rho1 -> p_rho p v2 nsize rank = Ok rho2 -> snd (f c v1) = Ok y1 -> snd (f c v2) = Ok y2 ->
     (Rabs (y1 - y2) <= entry_dist (mr rho1) (mc rho1) (me rho1) (me rho2))%R) ->
  p_random p k nsize rank = Ok v -> p_rho p v nsize rank = Ok rho -> snd (f c v) = Ok y ->
  (forall j v' y', p_random p j nsize rank = Ok v' -> snd (f c v') = Ok y' -> (y <= y')%R) ->
  k <= Z.to_nat nt -> (Z.of_nat (length vecs) < ns)%Z -> In v vecs.
Proof. exact (keeps_best f p nsize rank c ns nt c' vecs evals success k v rho y). Qed.
(** coherent information is not such an objective *)
Theorem C74_not_lipschitz_partial eigvalsh sqrtm : eigvalsh_ok eigvalsh ->
  exists c rho sigma x y, chan_init (ident 4) (2, 2) 2 2 [] false = Ok c /\ is_square 4 rho /\ is_square 4 sigma /\
    snd (coherent_information eigvalsh sqrtm c rho 1 false) = Ok x /\ snd (coherent_information eigvalsh sqrtm c sigma 1 false) = Ok y /\
    (entry_dist 4 4 (me rho) (me sigma) < Rabs (x - y))%R.
Proof.
  intros OK. destruct id_chan as (o & HC & H0). exists (KrausType o), (MA 4 4 (diag_mat pure4)), (MA 4 4 (diag_mat mixed4)), 0%R, 2%R.
  split; [exact HC|]. split; [split; reflexivity|]. split; [split; reflexivity|]. split; [|split].
  - rewrite (id_diag eigvalsh sqrtm o OK H0) by (reflexivity || (cbn; lra)). rewrite pure4_entropy. reflexivity.
  - rewrite (id_diag eigvalsh sqrtm o OK H0) by (reflexivity || (cbn; lra)). rewrite mixed4_entropy. reflexivity.
  - cbn [me]. rewrite diag_dist by reflexivity. cbn. unfold Rabs. repeat destruct (Rcase_abs _); lra.
Qed.
(** and the sampler throws a global maximum away: of the three states drawn, |00><00|,
    diag(1/2, 1/4, 1/8, 1/8) and the completely mixed one, it keeps the first two *)
Theorem C74_refuted eigvalsh sqrtm : eigvalsh_ok eigvalsh ->
  exists c p rho vecs evals success, chan_init (ident 4) (2, 2) 2 2 [] false = Ok c /\
    (forall k v, p_random p k 4 4 = Ok v -> exists r, p_rho p v 4 4 = Ok r /\ is_square 4 r /\ density 4 (me r)) /\
    initial_guesses_lipschitz (obj_coherent eigvalsh sqrtm 4 4 p 1) 4 4 p c 3 2 = (c, Ok (vecs, evals, success)) /\
    (exists v, p_random p 2 4 4 = Ok v /\ p_rho p v 4 4 = Ok rho /\ ~ In v vecs) /\ success = false /\
    exists x, snd (coherent_information eigvalsh sqrtm c rho 1 false) = Ok x /\
      (Forall (fun y => y < x)%R evals) /\
      forall sigma y, is_square 4 sigma -> density 4 (me sigma) -> snd (coherent_information eigvalsh sqrtm c sigma 1 false) = Ok y -> (y <= x)%R.
Proof.
  intros OK. destruct id_chan as (o & HC & H0). set (c := KrausType o). set (p := diag_param three_draws). set (f := obj_coherent eigvalsh sqrtm 4 4 p 1).
  assert (SF : steady f c). { apply C55_steady. unfold c. cbn. apply (kraus_init_n _ _ _ _ _ _ _ H0). }
  assert (FV : forall l, length l = 4 -> reals_sum l = 1%R -> snd (f c l) = Ok (- entropy_of (/ 10000000000) l)%R).
  { intros l L S1. unfold f, obj_coherent, p, diag_param. cbn [p_rho]. rewrite L. cbn [Nat.eqb]. pose proof (id_diag eigvalsh sqrtm o OK H0 l L S1) as E. fold c in E.
    destruct (coherent_information eigvalsh sqrtm c (MA 4 4 (diag_mat l)) 1 false) as [c' r]. cbn [snd] in *. rewrite E. reflexivity. }
  assert (DR : forall k, length (three_draws k) = 4 /\ reals_sum (three_draws k) = 1%R /\ Forall (fun x => 0 <= x)%R (three_draws k)).
  { intros [|[|k]]; (split; [reflexivity|split; [cbn; lra|repeat constructor; cbn; lra]]). }
  destruct (C55_returns f p 4 4 c 3 2 SF) as ([[vecs evals] success] & E).
  { intros k. destruct (DR k) as (L & S1 & _). exists (three_draws k), (MA 4 4 (diag_mat (three_draws k))), (- entropy_of (/ 10000000000) (three_draws k))%R.
    split; [reflexivity|]. split; [unfold p, diag_param; cbn [p_rho]; rewrite L; reflexivity|]. split; [split; reflexivity|]. apply FV; assumption. }
  exists c, p, (MA 4 4 (diag_mat mixed4)), vecs, evals, success. split; [exact HC|]. split.
  { intros k v [= <-]. destruct (DR k) as (L & S1 & P). exists (MA 4 4 (diag_mat (three_draws k))). split; [unfold p, diag_param; cbn [p_rho]; rewrite L; reflexivity|].
    split; [split; reflexivity|]. apply diag_density; assumption. }
  split; [exact E|].
  destruct (sampler_run f p 4 4 c SF _ _ _ _ _ _ E) as (_ & tried & kept & E1 & E2 & D & SS & F0 & CH & FT & T1 & T2 & N1 & N2 & SU).
  assert (T : tried = 2).
  { destruct T2 as [T2|T2]; [exact T2|]. pose proof (sorted_length _ tried SS) as B. rewrite map_length in B. cbn in T1. assert (length kept <= S tried); [apply B; apply Forall_map; exact FT|]. lia. }
  subst tried. rewrite Forall_forall in D, FT.
  assert (V : forall x, In x kept -> s_rho x = MA 4 4 (diag_mat (three_draws (s_draw x))) /\ s_vec x = three_draws (s_draw x) /\ s_val x = entropy_of (/ 10000000000) (three_draws (s_draw x))).
  { intros x Hx. destruct (D x Hx) as (D1 & D2 & D3). cbn in D1. injection D1 as D1. rewrite <- D1 in *. destruct (DR (s_draw x)) as (L & S1 & _).
    rewrite FV in D3 by assumption. unfold p, diag_param in D2. cbn [p_rho] in D2. rewrite L in D2. cbn [Nat.eqb] in D2. injection D2 as D2. injection D3 as D3. split; [auto|]. split; [reflexivity|lra]. }
  assert (I0 : exists a, In a kept /\ s_draw a = 0). { destruct kept as [|a kept']; [discriminate F0|]. exists a. split; [left; reflexivity|exact F0]. }
  destruct I0 as (a & Ha & Ea).
  assert (I1 : exists b, In b kept /\ s_draw b = 1).
  { assert (H : In 1 (map s_draw kept)).
    { apply (CH 1 (three_draws 1) (MA 4 4 (diag_mat middle4)) ltac:(lia) eq_refl eq_refl). intros x y Hx Hy. apply filter_In in Hx, Hy. destruct Hx as [Hx Lx], Hy as [Hy Ly].
      apply Nat.ltb_lt in Lx, Ly. destruct (V x Hx) as (_ & _ & ->). destruct (V y Hy) as (-> & _ & ->). replace (s_draw x) with 0 by lia. replace (s_draw y) with 0 by lia.
      cbn [three_draws mr mc me]. rewrite diag_dist by reflexivity. cbn [pure4 middle4 combine map fst snd reals_sum fold_right]. unfold Rabs. repeat destruct (Rcase_abs _); lra. }
    apply in_map_iff in H. destruct H as (b & Eb & Hb). exists b. auto. }
  destruct I1 as (b & Hb & Eb).
  assert (NI : ~ In 2 (map s_draw kept)).
  { intros H. apply (CH 2 (three_draws 2) (MA 4 4 (diag_mat mixed4)) ltac:(lia) eq_refl eq_refl) in H. specialize (H b a).
    destruct (V a Ha) as (Ra & _ & Va). destruct (V b Hb) as (_ & _ & Vb). rewrite Ra, Va, Vb, Ea, Eb in H. cbn [three_draws mr mc me] in H.
    rewrite middle4_entropy, pure4_entropy, diag_dist in H by reflexivity.
    assert (G : (7 / 4 <= 0 + reals_sum (map (fun p0 : R * R => Rabs (fst p0 - snd p0)) (combine mixed4 pure4)))%R).
    { apply H; apply filter_In; (split; [assumption|]); rewrite ?Ea, ?Eb; reflexivity. }
    cbn in G. unfold Rabs in G. repeat destruct (Rcase_abs _) in G; lra. }
  split; [|split].
  - exists mixed4. split; [reflexivity|]. split; [reflexivity|]. rewrite <- E1. intros H. apply in_map_iff in H. destruct H as (x & Ex & Hx). destruct (V x Hx) as (_ & Vx & _).
    rewrite Vx in Ex. apply NI. replace 2 with (s_draw x); [apply in_map; exact Hx|]. specialize (FT x Hx). cbn in FT. destruct (s_draw x) as [|[|[|k]]]; [| |reflexivity|lia].
    + cbn in Ex. apply (f_equal (hd 0%R)) in Ex. cbn in Ex. lra.
    + cbn in Ex. apply (f_equal (hd 0%R)) in Ex. cbn in Ex. lra.
  - destruct success; [|reflexivity]. exfalso. assert (H : Z.of_nat (length kept) = 3%Z) by (apply SU; reflexivity).
    assert (B : length (map s_draw kept) <= 2); [|rewrite map_length in B; lia]. apply sorted_length; [exact SS|]. apply Forall_map. rewrite Forall_forall. intros x Hx. specialize (FT x Hx). cbn in FT.
    destruct (Nat.eq_dec (s_draw x) 2) as [Ex|]; [|lia]. exfalso. apply NI. rewrite <- Ex. apply in_map. exact Hx.
  - exists 2%R. split; [|split].
    + rewrite (id_diag eigvalsh sqrtm o OK H0) by (reflexivity || (cbn; lra)). rewrite mixed4_entropy. reflexivity.
    + rewrite <- E2. apply Forall_map, Forall_forall. intros x Hx. destruct (V x Hx) as (_ & _ & ->). specialize (FT x Hx). cbn in FT.
      destruct (s_draw x) as [|[|[|k]]] eqn:Ex; cbn [three_draws]; [rewrite pure4_entropy; lra|rewrite middle4_entropy; lra| |lia]. exfalso. apply NI. rewrite <- Ex. apply in_map. exact Hx.
    + intros sigma y. apply (id_at_most eigvalsh sqrtm o OK H0).
Qed.
Print Assumptions C74_keeps_best_partial.
Print Assumptions C74_not_lipschitz_partial.
Print Assumptions C74_refuted.
(** a Lipschitz objective, the first entry of the state: six draws, ten samples wanted *)
Lemma sorted_length l m : StronglySorted lt l -> Forall (fun x => x <= m) l -> length l <= S m.
Proof.
  intros SS F. rewrite <- (seq_length (S m) 0). apply NoDup_incl_length.
  - induction SS as [|x l SS IH H]; constructor; [|apply IH; inversion F; assumption]. intros C. rewrite Forall_forall in H. specialize (H x C). lia.
  - intros x Hx. rewrite Forall_forall in F. specialize (F x Hx). apply in_seq. lia.
Qed.
Example C74_case : exists c (f : objective) p vecs evals success, steady f c /\ p = diag_param three_draws /\
  initial_guesses_lipschitz f 4 4 p c 10 5 = (c, Ok (vecs, evals, success)) /\ (Z.of_nat (length vecs) < 10)%Z /\
  (forall v1 rho1 y1 v2 rho2 y2, p_rho p v1 4 4 = Ok rho1 -> p_rho p v2 4 4 = Ok rho2 -> snd (f c v1) = Ok y1 -> snd (f c v2) = Ok y2 ->
     (Rabs (y1 - y2) <= entry_dist (mr rho1) (mc rho1) (me rho1) (me rho2))%R) /\
  (forall j v' y', p_random p j 4 4 = Ok v' -> snd (f c v') = Ok y' -> (1 / 4 <= y')%R) /\ In mixed4 vecs.
Proof.
  destruct id_chan as (o & HC & H0). set (f := fun (c : chan CC) (v : list R) => (c, Ok (hd 0%R v))). set (p := diag_param three_draws).
  assert (SF : steady f (KrausType o)) by (intros v; reflexivity).
  destruct (C55_returns f p 4 4 (KrausType o) 10 5 SF) as ([[vecs evals] success] & E).
  { intros k. exists (three_draws k), (MA 4 4 (diag_mat (three_draws k))), (hd 0%R (three_draws k)). split; [reflexivity|].
    split; [destruct k as [|[|k]]; reflexivity|]. split; [split; reflexivity|reflexivity]. }
  assert (LV : (Z.of_nat (length vecs) < 10)%Z).
  { destruct (C56_accepts f p 4 4 _ 10 5 _ _ _ _ SF E) as (tried & kept & -> & _ & _ & SS & _ & FT & _ & T & _). rewrite map_length.
    pose proof (sorted_length (map s_draw kept) 5 SS) as B. rewrite map_length in B. enough (length kept <= 6) by lia. apply B. apply Forall_map.
    apply (Forall_impl _ (fun x Hx => Nat.le_trans _ _ _ Hx T) FT). }
  assert (LP : forall v1 rho1 y1 v2 rho2 y2, p_rho p v1 4 4 = Ok rho1 -> p_rho p v2 4 4 = Ok rho2 -> snd (f (KrausType o) v1) = Ok y1 -> snd (f (KrausType o) v2) = Ok y2 ->
     (Rabs (y1 - y2) <= entry_dist (mr rho1) (mc rho1) (me rho1) (me rho2))%R).
  { intros v1 rho1 y1 v2 rho2 y2. unfold p, diag_param, f. cbn [p_rho snd].
    destruct (Nat.eqb_spec (length v1) 4) as [L1|]; [|discriminate]. destruct (Nat.eqb_spec (length v2) 4) as [L2|]; [|discriminate]. intros [= <-] [= <-] [= <-] [= <-]. cbn [mr mc me].
    rewrite diag_dist by congruence. destruct v1 as [|a v1], v2 as [|b v2]; try discriminate.
    do 3 (destruct v1 as [|? v1], v2 as [|? v2]; try discriminate). destruct v1, v2; try discriminate. cbn.
    repeat match goal with |- context [Rabs ?x] => pose proof (Rabs_pos x); generalize dependent (Rabs x); intros end. lra. }
  assert (MN : forall j v' y', p_random p j 4 4 = Ok v' -> snd (f (KrausType o) v') = Ok y' -> (1 / 4 <= y')%R).
  { intros j v' y' [= <-] [= <-]. destruct j as [|[|j]]; cbn; lra. }
  exists (KrausType o), f, p, vecs, evals, success. split; [exact SF|]. split; [reflexivity|]. split; [exact E|]. split; [exact LV|]. split; [exact LP|]. split; [exact MN|].
  apply (C74_keeps_best_partial f p 4 4 _ 10 5 _ _ _ _ 2 mixed4 (MA 4 4 (diag_mat mixed4)) (1 / 4)%R SF E LP); try reflexivity; [| |cbn; lia|exact LV].
  - unfold f. cbn. f_equal. lra.
  - exact MN.
Qed.
Example C55_case : exists eigvalsh, eigvalsh_ok eigvalsh /\ exists c p, chan_init (ident 4) (2, 2) 2 2 [] false = Ok c /\
  steady (obj_coherent eigvalsh (fun A => A) 4 4 p 1) c /\ exists vecs evals success,
  initial_guesses_lipschitz (obj_coherent eigvalsh (fun A => A) 4 4 p 1) 4 4 p c 3 2 = (c, Ok (vecs, evals, success)).
Proof.
  destruct eigvalsh_exists as (ev & OK). exists ev. split; [exact OK|]. destruct (C74_refuted ev (fun A => A) OK) as (c & p & rho & vecs & evals & success & HC & _ & E & _).
  exists c, p. split; [exact HC|]. split; [|exists vecs, evals, success; exact E]. apply C55_steady. destruct id_chan as (o & HC' & H0). rewrite HC in HC'. injection HC' as ->. apply (kraus_init_n _ _ _ _ _ _ _ H0).
Qed.

(** ** C57: the value returned is the objective at the state returned *)
Theorem C57_coherent eigvalsh sqrtm s g c n rank a regularized c' o : scipy_ok s ->
  optimize_coherent eigvalsh sqrtm s g c n rank a regularized = (c', Ok o) ->
  c' = fst (update_channel_tensored c n) /\
  exists v, o_val o = Float v /\ snd (coherent_information eigvalsh sqrtm c (o_rho o) n regularized) = Ok v /\
            coherent_information eigvalsh sqrtm c' (o_rho o) n regularized = (c', Ok v).
Proof.
  intros Hs. unfold optimize_coherent. destruct (update_channel_tensored c n) as [c1 [u|e]] eqn:EU; [|discriminate]. pose proof (update_set_to _ _ _ _ EU) as ST. cbn [fst].
  destruct (optimize_procedure eigvalsh sqrtm s g c1 n rank "coherent"%string a) as [c2 [o1|e]] eqn:EP; [|discriminate]. intros H. injection H as <- H. cbn [bind] in H.
  assert (GP : exists p, get_paramet g (a_param a) = Ok p).
  { unfold optimize_procedure, procedure_checks in EP. destruct (get_paramet g (a_param a)) as [p|e]; [eauto|discriminate]. }
  destruct GP as (p & GP). destruct (procedure_value eigvalsh sqrtm s g Hs c1 n rank "coherent"%string a c2 o1 (obj_coherent eigvalsh sqrtm) p ST EP eq_refl GP) as (-> & x & Hx & [(v & Hv & Ho)|(r & _ & N & _)]); [|congruence].
  split; [reflexivity|]. cbn in Ho.
  assert (V1 : snd (coherent_information eigvalsh sqrtm c1 (o_rho o1) n false) = Ok (v * -1)%R).
  { unfold obj_coherent in Hv. rewrite Hx in Hv. destruct (coherent_information eigvalsh sqrtm c1 (o_rho o1) n false) as [c2 r]. cbn [snd] in *.
    destruct r as [y|e]; [|discriminate]. cbn in Hv. injection Hv as <-. f_equal. ring. }
  assert (VR : regularized = true -> n <> 0 -> snd (coherent_information eigvalsh sqrtm c1 (o_rho o1) n true) = Ok (v * -1 / INR n)%R).
  { intros _ _. revert V1. unfold coherent_information. destruct (chan_channel c1 (o_rho o1) n false) as [c2 [out|e]]; [|discriminate].
    destruct (match c2 with KrausType _ => _ | _ => _ end) as [c3 w]. cbn [snd]. destruct w as [ws|e]; [|discriminate]. cbn [bind].
    destruct (entropy eigvalsh [out]) as [s1|e]; [|discriminate]. cbn [bind]. destruct (entropy eigvalsh ws) as [s2|e]; [|discriminate]. cbn [bind].
    intros [= E]. rewrite E. reflexivity. }
  rewrite (coherent_update _ _ _ _ _ _ (o_rho o) regularized EU).
  assert (G : exists w, o_val o = Float w /\ snd (coherent_information eigvalsh sqrtm c1 (o_rho o) n regularized) = Ok w).
  { destruct regularized.
    - rewrite Ho in H. destruct (Nat.eqb_spec n 0) as [|N]; [discriminate|]. injection H as <-. cbn [o_val o_rho]. eexists. split; [reflexivity|]. apply VR; auto.
    - injection H as <-. exists (v * -1)%R. split; [exact Ho|exact V1]. }
  destruct G as (w & G1 & G2). exists w. split; [exact G1|]. split; [exact G2|]. rewrite <- G2. pose proof (coherent_steady eigvalsh sqrtm c1 (o_rho o) n regularized ST) as S2.
  destruct (coherent_information eigvalsh sqrtm c1 (o_rho o) n regularized) as [c3 r3]. cbn in *. congruence.
Qed.
Theorem C57_fidelity eigvalsh sqrtm s g c n a c' o : scipy_ok s -> a_optimizer a = "diffev"%string \/ as_int (a_use_pool a) <> 0%Z ->
  optimize_fidelity eigvalsh sqrtm s g c n a = (c', Ok o) ->
  c' = fst (update_channel_tensored c n) /\
  exists v, o_val o = Float v /\ snd (fidelity_two_states sqrtm c (o_rho o) n) = Ok v /\ fidelity_two_states sqrtm c' (o_rho o) n = (c', Ok v).
Proof.
  intros Hs HA. unfold optimize_fidelity. destruct (update_channel_tensored c n) as [c1 [u|e]] eqn:EU; [|discriminate]. pose proof (update_set_to _ _ _ _ EU) as ST. cbn [fst]. intros EP.
  assert (GP : exists p, get_paramet g (a_param a) = Ok p).
  { unfold optimize_procedure, procedure_checks in EP. destruct (get_paramet g (a_param a)) as [p|e]; [eauto|discriminate]. }
  destruct GP as (p & GP).
  destruct (procedure_value eigvalsh sqrtm s g Hs c1 n 1 "fidelity"%string a c' o (fun nsize _ p n => obj_fidelity sqrtm nsize p n) p ST EP eq_refl GP) as (-> & x & Hx & [(v & Hv & Ho)|(r & _ & _ & N1 & N2)]); [|destruct HA as [HA|HA]; [rewrite HA in N1; discriminate N1|contradiction]].
  split; [reflexivity|]. cbn in Ho. exists v. split; [exact Ho|]. unfold obj_fidelity in Hv. rewrite Hx in Hv. rewrite (fidelity_update _ _ _ _ _ (o_rho o) EU). split; [exact Hv|].
  pose proof (fidelity_steady sqrtm c1 (o_rho o) n ST) as S2. rewrite <- Hv. destruct (fidelity_two_states sqrtm c1 (o_rho o) n) as [c3 r3]. cbn in *. congruence.
Qed.
Print Assumptions C57_coherent.
Print Assumptions C57_fidelity.

(** ** C72: the state returned is a density matrix of the input of the n-fold channel,
    of at most the rank asked for *)
Theorem C72_coherent eigvalsh sqrtm s g c n rank a regularized c' o name : scipy_ok s -> a_param a = PName name ->
  optimize_coherent eigvalsh sqrtm s g c n rank a regularized = (c', Ok o) ->
  let D := input_dimension c' in is_square D (o_rho o) /\ density D (me (o_rho o)) /\ rank_at_most D rank (me (o_rho o)).
Proof.
  intros Hs Ha. unfold optimize_coherent. destruct (update_channel_tensored c n) as [c1 [u|e]] eqn:EU; [|discriminate]. pose proof (update_set_to _ _ _ _ EU) as ST.
  destruct (optimize_procedure eigvalsh sqrtm s g c1 n rank "coherent"%string a) as [c2 [o1|e]] eqn:EP; [|discriminate]. intros H. injection H as <- H. cbn [bind] in H.
  assert (GP : exists p, get_paramet g (a_param a) = Ok p).
  { unfold optimize_procedure, procedure_checks in EP. destruct (get_paramet g (a_param a)) as [p|e]; [eauto|discriminate]. }
  destruct GP as (p & GP). destruct (procedure_value eigvalsh sqrtm s g Hs c1 n rank "coherent"%string a c2 o1 (obj_coherent eigvalsh sqrtm) p ST EP eq_refl GP) as (-> & x & Hx & _).
  assert (E : o_rho o = o_rho o1). { destruct regularized; [|congruence]. destruct (o_val o1); [|discriminate]. destruct (Nat.eqb n 0); [discriminate|]. injection H as <-. reflexivity. }
  rewrite E. rewrite Ha in GP. exact (named_result g name p x _ _ _ GP Hx).
Qed.
Theorem C72_fidelity eigvalsh sqrtm s g c n a c' o name : scipy_ok s -> a_param a = PName name ->
  optimize_fidelity eigvalsh sqrtm s g c n a = (c', Ok o) ->
  let D := input_dimension c' in is_square D (o_rho o) /\ density D (me (o_rho o)) /\ rank_at_most D 1 (me (o_rho o)).
Proof.
  intros Hs Ha. unfold optimize_fidelity. destruct (update_channel_tensored c n) as [c1 [u|e]] eqn:EU; [|discriminate]. pose proof (update_set_to _ _ _ _ EU) as ST. intros EP.
  assert (GP : exists p, get_paramet g (a_param a) = Ok p).
  { unfold optimize_procedure, procedure_checks in EP. destruct (get_paramet g (a_param a)) as [p|e]; [eauto|discriminate]. }
  destruct GP as (p & GP).
  destruct (procedure_value eigvalsh sqrtm s g Hs c1 n 1 "fidelity"%string a c' o (fun nsize _ p n => obj_fidelity sqrtm nsize p n) p ST EP eq_refl GP) as (-> & x & Hx & _).
  rewrite Ha in GP. exact (named_result g name p x _ _ _ GP Hx).
Qed.
Print Assumptions C72_coherent.
Print Assumptions C72_fidelity.

(** ** C58: what the pool returns *)
(** a minimiser that evaluates the objective at the starting point only *)
Definition lazy_scipy : scipy :=
  Scipy (fun f _ _ x0 c => let '(c', r) := f c x0 in (c', do v <- r; Ok (Run v x0 true)))
        (fun f _ _ init _ c => let x0 := match init with Population (x :: _) => x | _ => [] end in let '(c', r) := f c x0 in (c', do v <- r; Ok (Run v x0 true))).
Lemma lazy_ok : scipy_ok lazy_scipy.
Proof.
  assert (G : forall f c x0, reports f c (let '(c', r) := f c x0 in (c', do v <- r; Ok (Run v x0 true)))).
  { intros f c x0. destruct (f c x0) as [c' r] eqn:E. split.
    - exists [x0]. cbn. rewrite E. reflexivity.
    - intros w Hw. cbn in Hw. apply bind_ok in Hw. destruct Hw as (v & -> & [= <-]). exists []. cbn. rewrite E. reflexivity. }
  split; intros; apply G.
Qed.
(** the least value is not returned: the pool minimises x |-> -x from 1/2 and 1/4 and
    reports -1/4 although one run found -1/2 *)
Theorem C58_refuted : exists s (f : objective) c bounds maxiter samples results val x, scipy_ok s /\
  mapM (fun x0 => snd (slsqp s f bounds maxiter x0 c)) samples = Ok results /\ (exists r, least r results) /\
  use_multi_processes s f bounds maxiter samples c = Ok (Float val, true, Some x) /\
  exists r, In r results /\ (r_fun r < val)%R.
Proof.
  destruct id_chan as (o & HC & H0).
  exists lazy_scipy, (fun c v => (c, Ok (- hd 0%R v)%R)), (KrausType o), [], 1%Z, [[(1 / 2)%R]; [(1 / 4)%R]],
    [Run (- (1 / 2))%R [(1 / 2)%R] true; Run (- (1 / 4))%R [(1 / 4)%R] true], (- (1 / 4))%R, [(1 / 4)%R].
  split; [exact lazy_ok|]. split; [reflexivity|]. split; [exists (Run (- (1 / 2))%R [(1 / 2)%R] true); split; [left; reflexivity|intros r' [<-|[<-|[]]]; cbn; lra]|]. split.
  - unfold use_multi_processes. cbn [lazy_scipy slsqp mapM bind snd hd]. unfold pool_choose. rewrite pool_negative; [reflexivity| |].
    + repeat constructor; cbn; lra.
    + cbn. unfold start_val. lra.
  - exists (Run (- (1 / 2))%R [(1 / 2)%R] true). split; [left; reflexivity|]. cbn. lra.
Qed.
(** all coherent informations positive: the last run is returned, whatever its value *)
Theorem C58_last_partial s f bounds maxiter samples c results : mapM (fun x0 => snd (slsqp s f bounds maxiter x0 c)) samples = Ok results ->
  results <> [] -> Forall (fun r => (r_fun r < 0)%R) results ->
  exists r, nth_error results (length results - 1) = Some r /\ use_multi_processes s f bounds maxiter samples c = Ok (Float (r_fun r), r_success r, Some (r_x r)).
Proof.
  intros M N F. unfold use_multi_processes. rewrite M. cbn [bind]. destruct results as [|r0 l]; [congruence|]. exists (last l r0). split.
  - clear. cbn [length]. rewrite Nat.sub_succ, Nat.sub_0_r. revert r0. induction l as [|r1 l IH]; intros r0; [reflexivity|]. cbn [length nth_error last]. rewrite IH. destruct l as [|r2 l]; [reflexivity|].
    f_equal. cbn. clear. revert r2. induction l; intros; cbn; auto.
  - unfold pool_choose. rewrite pool_negative; [reflexivity|exact F|]. inversion F; subst. unfold start_val. cbn. lra.
Qed.
(** no value negative, as for fidelities: the first run is returned *)
Theorem C58_first_partial s f bounds maxiter samples c r0 results : mapM (fun x0 => snd (slsqp s f bounds maxiter x0 c)) samples = Ok (r0 :: results) ->
  Forall (fun r => (0 <= r_fun r)%R) (r0 :: results) -> (r_fun r0 < 10000000000)%R ->
  use_multi_processes s f bounds maxiter samples c = Ok (Float (r_fun r0), r_success r0, Some (r_x r0)).
Proof.
  intros M F L. unfold use_multi_processes. rewrite M. cbn [bind]. unfold pool_choose. rewrite pool_nonneg; [reflexivity|exact F|]. unfold start_val. cbn. lra.
Qed.
(** the rule for values of either sign: a run is taken when its value and that of the run in
    hand add up to less than zero; no run is taken only if all values are 10^10 or more *)
Theorem C58_rule_partial s f bounds maxiter samples c results : mapM (fun x0 => snd (slsqp s f bounds maxiter x0 c)) samples = Ok results ->
  (forall r, taken results r -> use_multi_processes s f bounds maxiter samples c = Ok (Float (r_fun r), r_success r, Some (r_x r))) /\
  (Forall (fun r => (10000000000 <= r_fun r)%R) results -> use_multi_processes s f bounds maxiter samples c = Ok (Float (-10000000000), false, None)) /\
  ((exists r, taken results r) \/ Forall (fun r => (10000000000 <= r_fun r)%R) results).
Proof.
  intros M. unfold use_multi_processes. rewrite M. cbn [bind]. split; [|split].
  - intros r T. rewrite (pool_taken _ _ T). reflexivity.
  - intros F. rewrite (pool_high _ F). reflexivity.
  - destruct (taken_total results); auto.
Qed.
(** 3, then -5 (3 - 5 < 0), then 4 (-5 + 4 < 0): the worst of the three is returned *)
Example C58_case_rule : let r x := Run x [x] true in taken [r 3; r (-5); r 4]%R (r 4%R).
Proof.
  cbn zeta. apply (taken_next [Run 3 [3] true; Run (-5) [-5] true]%R (Run (-5) [-5] true)%R _ []); [|cbn; lra|constructor].
  apply (taken_next [Run 3 [3] true]%R (Run 3 [3] true)%R _ []); [|cbn; lra|constructor].
  apply (taken_first []); [constructor|cbn; lra|constructor].
Qed.
Print Assumptions C58_rule_partial.
(** what holds: a value returned is the value of one of the runs, with its x and success *)
Theorem C58_one_of_the_runs_partial s f bounds maxiter samples c val success x : use_multi_processes s f bounds maxiter samples c = Ok (val, success, Some x) ->
  exists r results, mapM (fun x0 => snd (slsqp s f bounds maxiter x0 c)) samples = Ok results /\ In r results /\ val = Float (r_fun r) /\ success = r_success r /\ x = r_x r.
Proof.
  unfold use_multi_processes. destruct (mapM _ samples) as [results|e]; [|discriminate]. cbn [bind].
  destruct (pool_choose_in results) as [E|(r & Hr & E)]; rewrite E; [discriminate|]. intros [= <- <- <-]. exists r, results. auto.
Qed.
Print Assumptions C58_refuted.
Print Assumptions C58_last_partial.
Print Assumptions C58_first_partial.
Print Assumptions C58_one_of_the_runs_partial.

Example C58_case : exists s (f : objective) c, scipy_ok s /\
  mapM (fun x0 => snd (slsqp s f [] 1 x0 c)) [[(1 / 2)%R]; [(1 / 4)%R]] = Ok [Run (1 / 2)%R [(1 / 2)%R] true; Run (1 / 4)%R [(1 / 4)%R] true] /\
  use_multi_processes s f [] 1 [[(1 / 2)%R]; [(1 / 4)%R]] c = Ok (Float (1 / 2)%R, true, Some [(1 / 2)%R]).
Proof.
  destruct id_chan as (o & HC & H0). exists lazy_scipy, (fun c v => (c, Ok (hd 0%R v))), (KrausType o). split; [exact lazy_ok|]. split; [reflexivity|].
  apply (C58_first_partial lazy_scipy _ [] 1%Z _ _ (Run (1 / 2)%R [(1 / 2)%R] true) [Run (1 / 4)%R [(1 / 4)%R] true]); [reflexivity|repeat constructor; cbn; lra|cbn; lra].
Qed.

(** ** C59: SLSQP without a pool *)
Lemma serial_result s f bounds maxiter samples c c' o : optimize_samples_slsqp s f bounds maxiter samples c = (c', Ok o) -> exists r, o = (Result r, r_success r, Some (r_x r)).
Proof.
  unfold optimize_samples_slsqp. destruct (serial_loop s f bounds maxiter samples c None) as [c1 [[r|]|e]]; try discriminate. cbn [bind]. intros [= <- <-]. eauto.
Qed.
(** coherent information: it never returns *)
Theorem C59_refuted eigvalsh sqrtm s g c n rank a regularized c' r : a_optimizer a = "slsqp"%string -> as_int (a_use_pool a) = 0%Z ->
  optimize_coherent eigvalsh sqrtm s g c n rank a regularized = (c', r) -> exists e, r = Err e.
Proof.
  intros HO HU. unfold optimize_coherent. destruct (update_channel_tensored c n) as [c1 [u|e]]; [|intros [= <- <-]; eauto].
  destruct (optimize_procedure eigvalsh sqrtm s g c1 n rank "coherent"%string a) as [c2 [o|e]] eqn:E; [exfalso|intros [= <- <-]; eauto].
  unfold optimize_procedure in E. destruct (procedure_checks eigvalsh sqrtm g "coherent"%string a) as [[p F]|e]; [|discriminate].
  destruct (p_bounds p (input_dimension c1) rank) as [bounds|e]; [|discriminate].
  destruct (procedure_samples _ p (input_dimension c1) rank a c1) as [c3 [[samples ul]|e]]; [|discriminate].
  destruct (procedure_run s _ bounds a samples c3) as [c4 [o'|e]] eqn:ER; [|discriminate]. unfold procedure_run in ER. rewrite HO, HU in ER. cbn in ER.
  destruct (as_int (a_lipschitz a) =? 0)%Z; [discriminate|]. destruct (serial_result _ _ _ _ _ _ _ _ ER) as (w & ->). discriminate.
Qed.
(** two samples, the first run with a value above -1e10: TypeError *)
Theorem C59_two_samples_partial s f bounds maxiter x0 x1 rest c c1 c2 r0 r1 : slsqp s f bounds maxiter x0 c = (c1, Ok r0) -> slsqp s f bounds maxiter x1 c1 = (c2, Ok r1) ->
  (-10000000000 < r_fun r0)%R -> optimize_samples_slsqp s f bounds maxiter (x0 :: x1 :: rest) c = (c2, Err TypeError).
Proof.
  intros H0 H1 L. unfold optimize_samples_slsqp. cbn [serial_loop]. rewrite H0. cbn [serial_step]. assert (E : Rltb start_val (r_fun r0) = true) by (apply Rltb_iff; exact L).
  rewrite E, H1. reflexivity.
Qed.
(** fidelity: when it returns, optimal_val is scipy's result object and not a number;
    the state is the one found *)
Theorem C59_fidelity_partial eigvalsh sqrtm s g c n a c' o : scipy_ok s -> a_optimizer a = "slsqp"%string -> as_int (a_use_pool a) = 0%Z ->
  optimize_fidelity eigvalsh sqrtm s g c n a = (c', Ok o) -> exists r, o_val o = Result r.
Proof.
  intros Hs HO HU. unfold optimize_fidelity. destruct (update_channel_tensored c n) as [c1 [u|e]]; [|discriminate]. unfold optimize_procedure.
  destruct (procedure_checks eigvalsh sqrtm g "fidelity"%string a) as [[p F]|e]; [|discriminate]. destruct (p_bounds p (input_dimension c1) 1) as [bounds|e]; [|discriminate].
  destruct (procedure_samples _ p (input_dimension c1) 1 a c1) as [c3 [[samples ul]|e]]; [|discriminate].
  destruct (procedure_run s _ bounds a samples c3) as [c4 [o'|e]] eqn:ER; [|discriminate]. unfold procedure_run in ER. rewrite HO, HU in ER. cbn in ER.
  destruct (as_int (a_lipschitz a) =? 0)%Z; [discriminate|]. destruct (serial_result _ _ _ _ _ _ _ _ ER) as (w & ->). cbn [bind].
  unfold procedure_output. cbn. destruct (p_rho p (r_x w) (input_dimension c1) 1) as [rho|e]; [|discriminate]. cbn. intros [= _ <-]. exists w. reflexivity.
Qed.
Print Assumptions C59_refuted.
Print Assumptions C59_two_samples_partial.
Print Assumptions C59_fidelity_partial.

(** ** C60: the param argument *)
Lemma coherent_error eigvalsh sqrtm s g c n rank a regularized c1 u e : update_channel_tensored c n = (c1, Ok u) -> get_paramet g (a_param a) = Err e ->
  optimize_coherent eigvalsh sqrtm s g c n rank a regularized = (c1, Err e) /\ optimize_fidelity eigvalsh sqrtm s g c n a = (c1, Err e).
Proof.
  intros U G. unfold optimize_coherent, optimize_fidelity. rewrite U. unfold optimize_procedure, procedure_checks. rewrite G. split; reflexivity.
Qed.
(** a subclass of ParameterizationABC, as documented, is refused *)
Theorem C60_refuted eigvalsh sqrtm s g c n rank a regularized c1 p : update_channel_tensored c n = (c1, Ok tt) -> a_param a = PClass p ->
  optimize_coherent eigvalsh sqrtm s g c n rank a regularized = (c1, Err TypeError) /\ optimize_fidelity eigvalsh sqrtm s g c n a = (c1, Err TypeError).
Proof. intros U P. apply (coherent_error eigvalsh sqrtm s g c n rank a regularized c1 tt TypeError U). rewrite P. reflexivity. Qed.
Theorem C60_unknown_partial eigvalsh sqrtm s g c n rank a regularized c1 : update_channel_tensored c n = (c1, Ok tt) ->
  a_param a = POther \/ (exists name, a_param a = PName name /\ name <> "overparam"%string /\ name <> "cholesky"%string) ->
  optimize_coherent eigvalsh sqrtm s g c n rank a regularized = (c1, Err TypeError) /\ optimize_fidelity eigvalsh sqrtm s g c n a = (c1, Err TypeError).
Proof.
  intros U P. apply (coherent_error eigvalsh sqrtm s g c n rank a regularized c1 tt TypeError U). destruct P as [->|(name & -> & N1 & N2)]; [reflexivity|]. cbn [get_paramet].
  apply String.eqb_neq in N1, N2. rewrite N1, N2. reflexivity.
Qed.
(** an object of such a class is accepted and used like the built-in ones *)
Definition with_param (a : options) (q : param_arg) : options := Options (a_optimizer a) q (a_lipschitz a) (a_use_pool a) (a_maxiter a) (a_samples a) (a_samples_list a).
Theorem C60_object_partial eigvalsh sqrtm s g c n rank a regularized :
  optimize_coherent eigvalsh sqrtm s g c n rank (with_param a (PObject (OverParam g))) regularized = optimize_coherent eigvalsh sqrtm s g c n rank (with_param a (PName "overparam"%string)) regularized /\
  optimize_coherent eigvalsh sqrtm s g c n rank (with_param a (PObject (CholeskyParam g))) regularized = optimize_coherent eigvalsh sqrtm s g c n rank (with_param a (PName "cholesky"%string)) regularized /\
  optimize_fidelity eigvalsh sqrtm s g c n (with_param a (PObject (OverParam g))) = optimize_fidelity eigvalsh sqrtm s g c n (with_param a (PName "overparam"%string)) /\
  optimize_fidelity eigvalsh sqrtm s g c n (with_param a (PObject (CholeskyParam g))) = optimize_fidelity eigvalsh sqrtm s g c n (with_param a (PName "cholesky"%string)).
Proof. repeat split; reflexivity. Qed.
Print Assumptions C60_refuted.
Print Assumptions C60_unknown_partial.
Print Assumptions C60_object_partial.

(** ** C73: SLSQP from the user's own samples *)
Theorem C73_refuted eigvalsh sqrtm s g c n rank a regularized : a_optimizer a = "slsqp"%string -> a_lipschitz a = PyInt 0 ->
  (exists name, a_param a = PName name) ->
  exists e, snd (optimize_coherent eigvalsh sqrtm s g c n rank a regularized) = Err e /\ snd (optimize_fidelity eigvalsh sqrtm s g c n a) = Err e /\
    (a_param a = PName "overparam"%string -> snd (update_channel_tensored c n) = Ok tt -> e = AssertionError).
Proof.
  intros HO HL (name & HP). unfold optimize_coherent, optimize_fidelity. destruct (update_channel_tensored c n) as [c1 [u|e]]; [|exists e; split; [reflexivity|split; [reflexivity|discriminate]]].
  destruct (get_paramet g (a_param a)) as [p|e] eqn:GP.
  2:{ exists e. unfold optimize_procedure, procedure_checks. rewrite GP. cbn. split; [reflexivity|]. split; [reflexivity|]. intros E. rewrite E in GP. discriminate GP. }
  exists AssertionError. assert (G : forall rank obj F, choose_objective eigvalsh sqrtm obj = Ok F -> exists c2, optimize_procedure eigvalsh sqrtm s g c1 n rank obj a = (c2, Err AssertionError)).
  { intros r obj F HF. unfold optimize_procedure, procedure_checks. rewrite GP, HF, HL, HO. cbn [bind]. unfold assert_.
    destruct (is_int (a_use_pool a)); [|eexists; reflexivity]. cbn [bind]. destruct (num_nonneg (a_use_pool a)); [|eexists; reflexivity]. cbn [bind].
    destruct (match a_samples a with [] => true | _ => a_samples_list a end); [|eexists; reflexivity]. cbn [bind num_nonneg is_int]. destruct (a_samples a); [eexists; reflexivity|]. change (0 <=? 0)%Z with true. cbn [bind].
    assert (PB : exists b, p_bounds p (input_dimension c1) r = Ok b).
    { rewrite HP in GP. cbn [get_paramet] in GP. destruct (String.eqb name "overparam"%string); [injection GP as <-; eexists; reflexivity|]. destruct (String.eqb name "cholesky"%string); [injection GP as <-; eexists; reflexivity|discriminate]. }
    destruct PB as (b & ->). unfold procedure_samples, procedure_run. rewrite HL, HO. cbn [as_int Z.eqb]. eexists. reflexivity. }
  destruct (G rank "coherent"%string _ eq_refl) as (c2 & ->). destruct (G 1 "fidelity"%string _ eq_refl) as (c3 & ->). cbn. auto.
Qed.
Print Assumptions C73_refuted.

(** ** Cases: the identity on two qubits, with the minimisers above *)
Definition one_vec : list R := [1; 0; 0; 0; 0; 0; 0; 0]%R.
Definition one_rng : rng := Rng (fun _ _ _ _ => one_vec) (fun _ _ _ _ => one_vec).
Definition evol : options := Options "diffev"%string (PName "overparam"%string) (PyInt 0) (PyInt 0) 10%Z [one_vec] true.
Definition pool : options := Options "slsqp"%string (PName "overparam"%string) (PyInt 1) (PyInt 2) 10%Z [one_vec] true.
Definition serial : options := Options "slsqp"%string (PName "overparam"%string) (PyInt 1) (PyInt 0) 10%Z [] true.
Lemma one_state : exists rho, over_rho_from_vec one_vec 4 (Some 1) = Ok rho.
Proof.
  destruct (over_density one_vec 4 1) as (rho & E & _); [lia|reflexivity|exists 1%R; split; [left; reflexivity|lra]|]. eauto.
Qed.
Lemma one_objective : exists o rho, chan_init (ident 4) (2, 2) 2 2 [] false = Ok (KrausType o) /\ current_n o = 1 /\ input_dimension (KrausType o) = 4 /\ over_rho_from_vec one_vec 4 (Some 1) = Ok rho /\
  forall eigvalsh sqrtm, eigvalsh_ok eigvalsh -> exists x, (0 <= x)%R /\ coherent_information eigvalsh sqrtm (KrausType o) rho 1 false = (KrausType o, Ok x).
Proof.
  destruct id_chan as (o & HC & H0). destruct one_state as (rho & E). pose proof (kraus_init_n _ _ _ _ _ _ _ H0) as N. exists o, rho. split; [exact HC|]. split; [exact N|]. split; [cbn in H0; injection H0 as <-; reflexivity|]. split; [exact E|].
  intros ev sq OK. destruct (over_result _ _ _ _ E) as (Q & D & _). destruct (id_coherent ev sq o OK H0 rho Q (proj1 D) (proj2 (proj2 D))) as (x & Ex & VX).
  exists x. split; [apply (vn_bounds 4 _ _ D VX)|]. pose proof (coherent_steady ev sq (KrausType o) rho 1 false N) as S1. destruct (coherent_information ev sq (KrausType o) rho 1 false). cbn in *. congruence.
Qed.
Lemma one_sample f c rho y : over_rho_from_vec one_vec 4 (Some 1) = Ok rho -> f c one_vec = (c, Ok y) ->
  initial_guesses_lipschitz f 4 1 (OverParam one_rng) c 1 1000 = (c, Ok ([one_vec], [(- y)%R], true)).
Proof.
  intros E F. unfold initial_guesses_lipschitz. cbn [OverParam p_random p_rho]. change (over_random_vectors _ _ _ _ _) with (Ok one_vec). cbn [bind]. rewrite E. cbn [bind]. rewrite F.
  change (Z.to_nat 1000) with (S 999). cbn [lip_loop l_vecs length]. reflexivity.
Qed.
Lemma pool_two r : (start_val < - r_fun r)%R -> exists m, pool_choose [r; r] = (m, r_success r, Some (r_x r)).
Proof.
  intros H. unfold pool_choose. cbn [fold_left pool_step]. rewrite (proj2 (Rltb_iff _ _) H). cbn [pool_step]. destruct (Rltb (r_fun r) (- r_fun r)); eauto.
Qed.
Example C57_case : exists eigvalsh c, eigvalsh_ok eigvalsh /\ chan_init (ident 4) (2, 2) 2 2 [] false = Ok c /\ scipy_ok lazy_scipy /\
  (exists o, optimize_coherent eigvalsh (fun A => A) lazy_scipy one_rng c 1 1 evol true = (c, Ok o)) /\
  (exists o, optimize_coherent eigvalsh (fun A => A) lazy_scipy one_rng c 1 1 pool false = (c, Ok o)).
Proof.
  destruct eigvalsh_exists as (ev & OK). destruct one_objective as (o & rho & HC & N & D & E & V). destruct (V ev (fun A => A) OK) as (x & X0 & X). exists ev, (KrausType o).
  split; [exact OK|]. split; [exact HC|]. split; [exact lazy_ok|].
  assert (F : obj_coherent ev (fun A => A) 4 1 (OverParam one_rng) 1 (KrausType o) one_vec = (KrausType o, Ok (- x)%R)).
  { unfold obj_coherent. cbn [OverParam p_rho]. rewrite E, X. reflexivity. }
  split; unfold optimize_coherent, update_channel_tensored; rewrite N; change (1 =? 1)%nat with true; cbn iota; unfold optimize_procedure.
  - change (procedure_checks ev (fun A => A) one_rng "coherent"%string evol) with (Ok (OverParam one_rng, obj_coherent ev (fun A => A))). cbn iota. rewrite D. cbn [p_bounds OverParam].
    unfold procedure_samples. change (as_int (a_lipschitz evol) =? 0)%Z with true. cbn iota. unfold procedure_run. change (a_samples evol) with [one_vec]. cbn [String.eqb a_optimizer evol Ascii.eqb Bool.eqb].
    unfold optimize_differential_evol. cbn [diffev lazy_scipy]. rewrite F. cbn [bind r_fun r_x r_success]. unfold procedure_output. cbn [String.eqb Ascii.eqb Bool.eqb bind OverParam p_rho]. rewrite E. cbn [bind]. eexists. reflexivity.
  - change (procedure_checks ev (fun A => A) one_rng "coherent"%string pool) with (Ok (OverParam one_rng, obj_coherent ev (fun A => A))). cbn iota. rewrite D. cbn [p_bounds OverParam].
    unfold procedure_samples. change (as_int (a_lipschitz pool)) with 1%Z. cbn [Z.eqb]. rewrite (one_sample (obj_coherent ev (fun A => A) 4 1 (OverParam one_rng) 1) (KrausType o) rho _ E F). cbn [bind assert_]. unfold procedure_run. change (a_samples pool ++ [one_vec]) with [one_vec; one_vec]. cbn [String.eqb a_optimizer pool Ascii.eqb Bool.eqb a_use_pool a_lipschitz as_int Z.eqb].
    unfold use_multi_processes. cbn [slsqp lazy_scipy mapM bind]. rewrite F. cbn [snd bind]. destruct (pool_two (Run (- x)%R one_vec true)) as (m & ->); [unfold start_val; cbn; lra|]. cbn [bind r_x]. unfold procedure_output. cbn [String.eqb Ascii.eqb Bool.eqb bind OverParam p_rho]. rewrite E. cbn [bind]. eexists. reflexivity.
Qed.
Lemma one_fidelity : exists o, chan_init (ident 4) (2, 2) 2 2 [] false = Ok (KrausType o) /\ current_n o = 1 /\ input_dimension (KrausType o) = 4 /\
  forall sqrtm, sqrtm_ok sqrtm -> obj_fidelity sqrtm 4 (OverParam one_rng) 1 (KrausType o) one_vec = (KrausType o, Ok 1%R).
Proof.
  destruct id_chan as (o & HC & H0). destruct one_state as (rho & E). pose proof (kraus_init_n _ _ _ _ _ _ _ H0) as N. exists o. split; [exact HC|]. split; [exact N|]. split; [cbn in H0; injection H0 as <-; reflexivity|].
  intros sq OK. unfold obj_fidelity. cbn [OverParam p_rho]. rewrite E. destruct (over_result _ _ _ _ E) as (Q & D & _).
  pose proof (fidelity_fixed sq false (ident 4) (2, 2) 2 2 [] o [] 1 OK H0) as F. cbn [after fold_left] in F.
  pose proof (fidelity_steady sq (KrausType o) rho 1 N) as S1. assert (V : snd (fidelity_two_states sq (KrausType o) rho 1) = Ok 1%R).
  { apply F; try assumption; [discriminate|constructor|lia|intros X; discriminate X|reflexivity| |apply id_map]. apply ident_tp. }
  destruct (fidelity_two_states sq (KrausType o) rho 1). cbn in *. congruence.
Qed.
Example C57_fidelity_case : exists sqrtm c o, sqrtm_ok sqrtm /\ chan_init (ident 4) (2, 2) 2 2 [] false = Ok c /\ scipy_ok lazy_scipy /\
  optimize_fidelity (fun _ => []) sqrtm lazy_scipy one_rng c 1 pool = (c, Ok o) /\ o_val o = Float 1.
Proof.
  destruct sqrtm_exists as (sq & OK). destruct one_fidelity as (o & HC & N & D & F). specialize (F sq OK). destruct one_state as (rho & E).
  exists sq, (KrausType o), (Output rho (Float 1) "slsqp"%string true true "fidelity"%string). split; [exact OK|]. split; [exact HC|]. split; [exact lazy_ok|]. split; [|reflexivity].
  unfold optimize_fidelity, update_channel_tensored; rewrite N; change (1 =? 1)%nat with true; cbn iota; unfold optimize_procedure.
  change (procedure_checks (fun _ => []) sq one_rng "fidelity"%string pool) with (Ok (OverParam one_rng, fun (nsize _ : nat) (p : paramet) (n : nat) => obj_fidelity sq nsize p n)). cbn iota. rewrite D. cbn [p_bounds OverParam].
  unfold procedure_samples. change (as_int (a_lipschitz pool)) with 1%Z. cbn [Z.eqb]. rewrite (one_sample (obj_fidelity sq 4 (OverParam one_rng) 1) (KrausType o) rho _ E F). cbn [bind assert_]. unfold procedure_run. change (a_samples pool ++ [one_vec]) with [one_vec; one_vec]. cbn [String.eqb a_optimizer pool Ascii.eqb Bool.eqb a_use_pool a_lipschitz as_int Z.eqb].
  unfold use_multi_processes. cbn [slsqp lazy_scipy mapM bind]. rewrite F. cbn [snd bind]. unfold pool_choose. rewrite pool_nonneg; [|repeat constructor; cbn; lra|unfold start_val; cbn; lra]. cbn [bind r_x r_fun r_success]. unfold procedure_output. cbn [String.eqb Ascii.eqb Bool.eqb bind OverParam p_rho]. rewrite E. reflexivity.
Qed.
(** without the pool: one sample, and the dictionary has scipy's object *)
Example C59_case : exists sqrtm c o, sqrtm_ok sqrtm /\ chan_init (ident 4) (2, 2) 2 2 [] false = Ok c /\ scipy_ok lazy_scipy /\
  optimize_fidelity (fun _ => []) sqrtm lazy_scipy one_rng c 1 serial = (c, Ok o) /\ exists r, o_val o = Result r /\ r_fun r = 1%R.
Proof.
  destruct sqrtm_exists as (sq & OK). destruct one_fidelity as (o & HC & N & D & F). specialize (F sq OK). destruct one_state as (rho & E).
  exists sq, (KrausType o), (Output rho (Result (Run 1 one_vec true)) "slsqp"%string true true "fidelity"%string). split; [exact OK|]. split; [exact HC|]. split; [exact lazy_ok|]. split; [|eexists; split; reflexivity].
  unfold optimize_fidelity, update_channel_tensored; rewrite N; change (1 =? 1)%nat with true; cbn iota; unfold optimize_procedure.
  change (procedure_checks (fun _ => []) sq one_rng "fidelity"%string serial) with (Ok (OverParam one_rng, fun (nsize _ : nat) (p : paramet) (n : nat) => obj_fidelity sq nsize p n)). cbn iota. rewrite D. cbn [p_bounds OverParam].
  unfold procedure_samples. change (as_int (a_lipschitz serial)) with 1%Z. cbn [Z.eqb]. rewrite (one_sample (obj_fidelity sq 4 (OverParam one_rng) 1) (KrausType o) rho _ E F). cbn [bind assert_]. unfold procedure_run. change (a_samples serial ++ [one_vec]) with [one_vec]. cbn [String.eqb a_optimizer serial Ascii.eqb Bool.eqb a_use_pool a_lipschitz as_int Z.eqb].
  unfold optimize_samples_slsqp. cbn [slsqp lazy_scipy serial_loop]. rewrite F. cbn [bind serial_step r_fun]. assert (B : Rltb start_val 1 = true) by (apply Rltb_iff; unfold start_val; lra). rewrite B. cbn [bind r_x r_fun r_success]. unfold procedure_output. cbn [String.eqb Ascii.eqb Bool.eqb bind OverParam p_rho]. rewrite E. reflexivity.
Qed.
Example C60_case : exists c, chan_init (ident 4) (2, 2) 2 2 [] false = Ok c /\ update_channel_tensored c 1 = (c, Ok tt).
Proof. destruct id_chan as (o & HC & H0). exists (KrausType o). split; [exact HC|]. unfold update_channel_tensored. rewrite (kraus_init_n _ _ _ _ _ _ _ H0). reflexivity. Qed.
Example C73_case : let a := Options "slsqp"%string (PName "overparam"%string) (PyInt 0) (PyInt 3) 50%Z [one_vec; one_vec] true in
  a_optimizer a = "slsqp"%string /\ a_lipschitz a = PyInt 0 /\ (exists name, a_param a = PName name) /\ a_samples a <> [].
Proof. cbn. repeat split; [eauto|discriminate]. Qed.
Example C72_case : exists eigvalsh c, eigvalsh_ok eigvalsh /\ scipy_ok lazy_scipy /\ a_param evol = PName "overparam"%string /\
  exists o, optimize_coherent eigvalsh (fun A => A) lazy_scipy one_rng c 1 1 evol true = (c, Ok o).
Proof. destruct C57_case as (ev & c & OK & _ & L & E & _). exists ev, c. auto. Qed.
(** the same run for C56 *)
Example C56_case : exists c f p vecs evals success, steady f c /\ initial_guesses_lipschitz f 4 4 p c 10 5 = (c, Ok (vecs, evals, success)) /\ In mixed4 vecs.
Proof. destruct C74_case as (c & f & p & vecs & evals & success & S & _ & E & _ & _ & _ & I). exists c, f, p, vecs, evals, success. auto. Qed.
