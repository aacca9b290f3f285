(** The optimisation procedure. *)
From Verif Require Import Py Scalar PauliModel PauliSpec KrausModel KrausSpec ChoiModel ChannelModel ParamModel ParamSpec ParamProofs3 ParamProofs4 OptimModel OptimSpec OptimProofs.
From Coq Require Import Reals Lra.
From Coq Require String.
Import String.StringSyntax.
Delimit Scope string_scope with string.
Open Scope nat_scope.

(** the object was set to n uses *)
Definition set_to (n : nat) (c : chan CC) : Prop := match c with KrausType k => current_n k = n | ChoiType _ _ => n = 1 end.

Lemma update_set_to (c : chan CC) n c1 u : update_channel_tensored c n = (c1, Ok u) -> set_to n c1.
Proof.
  destruct c as [k|sp h]; cbn [update_channel_tensored].
  - destruct (Nat.eqb n (current_n k)) eqn:E; [intros [= <- _]; apply Nat.eqb_eq in E; cbn; auto|].
    unfold update_kraus_operators. destruct (kraus_operators_exchange _) as [e|e]; intros [= <- _]; reflexivity.
  - unfold assert_. destruct (Nat.eqb n 1) eqn:E; intros [= <- _]. apply Nat.eqb_eq in E. exact E.
Qed.
Lemma channel_steady c rho n b : set_to n c -> fst (chan_channel c rho n b) = c.
Proof. destruct c as [k|sp h]; cbn [set_to chan_channel]; [|reflexivity]. intros <-. unfold at_n. rewrite Nat.eqb_refl. reflexivity. Qed.
Lemma exchange_steady c rho n : set_to n c -> fst (chan_exchange c rho n) = c.
Proof. destruct c as [k|sp h]; cbn [set_to chan_exchange]; [|reflexivity]. intros <-. unfold at_n. rewrite Nat.eqb_refl. reflexivity. Qed.
Lemma coherent_steady ev sq c rho n reg : set_to n c -> fst (coherent_information ev sq c rho n reg) = c.
Proof.
  intros H. unfold coherent_information. pose proof (channel_steady c rho n false H) as S. destruct (chan_channel c rho n false) as [c1 q]. cbn [fst] in S. subst c1.
  destruct q as [out|e]; [|reflexivity]. destruct c as [k|sp h]; [|reflexivity].
  pose proof (exchange_steady (KrausType k) rho n H) as S. destruct (chan_exchange (KrausType k) rho n) as [c2 w]. exact S.
Qed.
Lemma fidelity_steady sq c rho n : set_to n c -> fst (fidelity_two_states sq c rho n) = c.
Proof.
  intros H. unfold fidelity_two_states. pose proof (channel_steady c rho n false H) as S. destruct (chan_channel c rho n false) as [c1 q]. exact S.
Qed.
(** calls on the object before it was set to n give the same *)
Lemma channel_update (c : chan CC) n c1 u rho b : update_channel_tensored c n = (c1, Ok u) -> chan_channel c rho n b = chan_channel c1 rho n b.
Proof.
  intros H. pose proof (update_set_to _ _ _ _ H) as S. destruct c as [k|sp h]; cbn [update_channel_tensored] in H.
  - destruct (Nat.eqb n (current_n k)) eqn:E; [injection H as <- _; reflexivity|].
    cbn [chan_channel]. unfold at_n at 1. rewrite E. destruct (update_kraus_operators k n) as [k' [w|e]]; [|discriminate]. injection H as <- _.
    cbn [chan_channel set_to] in *. unfold at_n. rewrite S, Nat.eqb_refl. reflexivity.
  - injection H as <- _. reflexivity.
Qed.
Lemma coherent_update ev sq c n c1 u rho reg : update_channel_tensored c n = (c1, Ok u) -> coherent_information ev sq c rho n reg = coherent_information ev sq c1 rho n reg.
Proof. intros H. unfold coherent_information. rewrite (channel_update _ _ _ _ rho false H). reflexivity. Qed.
Lemma fidelity_update sq c n c1 u rho : update_channel_tensored c n = (c1, Ok u) -> fidelity_two_states sq c rho n = fidelity_two_states sq c1 rho n.
Proof. intros H. unfold fidelity_two_states. rewrite (channel_update _ _ _ _ rho false H). reflexivity. Qed.

Lemma obj_coherent_steady ev sq nsize rank p n c : set_to n c -> steady (obj_coherent ev sq nsize rank p n) c.
Proof.
  intros H v. unfold obj_coherent. destruct (p_rho p v nsize rank) as [rho|e]; [|reflexivity]. pose proof (coherent_steady ev sq c rho n false H) as S.
  destruct (coherent_information ev sq c rho n false) as [c' r]. exact S.
Qed.
Lemma obj_fidelity_steady sq nsize p n c : set_to n c -> steady (obj_fidelity sq nsize p n) c.
Proof. intros H v. unfold obj_fidelity. destruct (p_rho p v nsize 1) as [rho|e]; [|reflexivity]. apply fidelity_steady. exact H. Qed.
Lemma choose_steady ev sq name F nsize rank p n c : choose_objective ev sq name = Ok F -> set_to n c -> steady (F nsize rank p n) c.
Proof.
  unfold choose_objective. intros H S. destruct (String.eqb name "coherent") eqn:E1; [injection H as <-; apply obj_coherent_steady; exact S|].
  destruct (String.eqb name "fidelity"); [injection H as <-; apply obj_fidelity_steady; exact S|discriminate].
Qed.

Lemma called_steady f c pts : steady f c -> called f c pts = c.
Proof. intros H. unfold called. induction pts as [|v pts IH]; cbn [fold_left]; [reflexivity|]. rewrite H. exact IH. Qed.
Lemma reports_steady f c m : steady f c -> reports f c m -> fst m = c /\ forall r, snd m = Ok r -> snd (f c (r_x r)) = Ok (r_fun r).
Proof.
  intros H [(pts & E) V]. rewrite (called_steady f c pts H) in E. split; [exact E|]. intros r Hr. destruct (V r Hr) as (pts' & V'). rewrite (called_steady f c pts' H) in V'. exact V'.
Qed.

(** the pool *)
Lemma pool_step_cases st r : pool_step st r = st \/ (pool_step st r = (r_fun r, r_success r, Some (r_x r)) /\ (fst (fst st) < - r_fun r)%R).
Proof.
  destruct st as [[m s] x]. unfold pool_step. destruct (Rltb m (- r_fun r)) eqn:E; [right|left; reflexivity]. split; [reflexivity|]. apply Rltb_iff in E. exact E.
Qed.
Lemma pool_fold_in : forall l st, fold_left pool_step l st = st \/ exists r, In r l /\ fold_left pool_step l st = (r_fun r, r_success r, Some (r_x r)).
Proof.
  induction l as [|r l IH]; intros st; cbn [fold_left]; [left; reflexivity|]. destruct (IH (pool_step st r)) as [E|(r' & Hr & E)].
  - rewrite E. destruct (pool_step_cases st r) as [E2|[E2 _]]; rewrite E2; [left; reflexivity|]. right. exists r. split; [left; reflexivity|reflexivity].
  - right. exists r'. split; [right; exact Hr|exact E].
Qed.
Lemma pool_choose_in l : pool_choose l = (start_val, false, None) \/ exists r, In r l /\ pool_choose l = (r_fun r, r_success r, Some (r_x r)).
Proof. apply pool_fold_in. Qed.
Lemma pool_negative : forall l r0, Forall (fun r => (r_fun r < 0)%R) (r0 :: l) -> forall st, (fst (fst st) < - r_fun r0)%R ->
  fold_left pool_step (r0 :: l) st = let r := last l r0 in (r_fun r, r_success r, Some (r_x r)).
Proof.
  induction l as [|r1 l IH]; intros r0 F st H; cbn [fold_left].
  - destruct st as [[m s] x]. unfold pool_step. cbn in H. apply Rltb_iff in H. rewrite H. reflexivity.
  - inversion F as [|a b F0 F1]; subst. inversion F1 as [|a b F2 F3]; subst.
    assert (E : pool_step st r0 = (r_fun r0, r_success r0, Some (r_x r0))). { destruct st as [[m s] x]. unfold pool_step. cbn in H. apply Rltb_iff in H. rewrite H. reflexivity. }
    rewrite E. specialize (IH r1 F1 (r_fun r0, r_success r0, Some (r_x r0))). cbn [fold_left fst] in IH. rewrite IH by (cbn; lra).
    cbn [last]. destruct l as [|r2 l]; [reflexivity|]. f_equal.
    + f_equal; f_equal; cbn; clear; revert r2; induction l as [|r3 l IH]; intros r2; cbn; auto.
    + f_equal; f_equal; cbn; clear; revert r2; induction l as [|r3 l IH]; intros r2; cbn; auto.
Qed.
Lemma pool_take st r : (fst (fst st) < - r_fun r)%R -> pool_step st r = (r_fun r, r_success r, Some (r_x r)).
Proof. destruct st as [[m s] x]. unfold pool_step. cbn. intros H. apply Rltb_iff in H. rewrite H. reflexivity. Qed.
Lemma pool_keep st r : (- r_fun r <= fst (fst st))%R -> pool_step st r = st.
Proof. destruct st as [[m s] x]. unfold pool_step. cbn. intros H. destruct (Rltb m (- r_fun r)) eqn:E; [|reflexivity]. apply Rltb_iff in E. lra. Qed.
Lemma pool_keep_all st l : Forall (fun r => (- r_fun r <= fst (fst st))%R) l -> fold_left pool_step l st = st.
Proof. induction 1 as [|r l H F IH]; [reflexivity|]. cbn [fold_left]. rewrite pool_keep by exact H. exact IH. Qed.
Lemma pool_after r l : Forall (fun r' => (0 <= r_fun r + r_fun r')%R) l -> fold_left pool_step l (r_fun r, r_success r, Some (r_x r)) = (r_fun r, r_success r, Some (r_x r)).
Proof. intros F. apply pool_keep_all. cbn [fst]. revert F. apply Forall_impl. intros. lra. Qed.
Lemma pool_high l : Forall (fun r => (10000000000 <= r_fun r)%R) l -> pool_choose l = (start_val, false, None).
Proof. intros F. apply pool_keep_all. cbn [fst]. revert F. apply Forall_impl. unfold start_val. intros. lra. Qed.
Lemma pool_taken l r : taken l r -> pool_choose l = (r_fun r, r_success r, Some (r_x r)).
Proof.
  induction 1 as [before r after B H A|before r0 r after B IH H A].
  - unfold pool_choose. rewrite fold_left_app. fold (pool_choose before). rewrite pool_high by exact B. cbn [fold_left]. rewrite pool_take by (unfold start_val; cbn [fst]; lra). apply pool_after, A.
  - unfold pool_choose. rewrite fold_left_app. fold (pool_choose before). rewrite IH. cbn [fold_left]. rewrite pool_take by (cbn [fst]; lra). apply pool_after, A.
Qed.
Lemma taken_more l r r' : taken l r -> (0 <= r_fun r + r_fun r')%R -> taken (l ++ [r']) r.
Proof.
  intros T H. destruct T as [before r after B L A|before r0 r after B L A]; rewrite <- app_assoc; cbn [app].
  - apply taken_first; try assumption. apply Forall_app; split; [exact A|]. constructor; [exact H|constructor].
  - apply (taken_next _ r0); try assumption. apply Forall_app; split; [exact A|]. constructor; [exact H|constructor].
Qed.
Lemma taken_total l : Forall (fun r => (10000000000 <= r_fun r)%R) l \/ exists r, taken l r.
Proof.
  induction l as [|r' l IH] using rev_ind; [left; constructor|]. destruct IH as [F|(r & T)].
  - destruct (Rle_or_lt 10000000000 (r_fun r')) as [H|H].
    + left. apply Forall_app; split; [exact F|]. constructor; [exact H|constructor].
    + right. exists r'. apply taken_first; [exact F|exact H|constructor].
  - right. destruct (Rle_or_lt 0 (r_fun r + r_fun r')) as [H|H].
    + exists r. apply taken_more; assumption.
    + exists r'. apply (taken_next l r); [exact T|exact H|constructor].
Qed.
Lemma pool_nonneg l r0 st : Forall (fun r => (0 <= r_fun r)%R) (r0 :: l) -> (fst (fst st) < - r_fun r0)%R -> 
  fold_left pool_step (r0 :: l) st = (r_fun r0, r_success r0, Some (r_x r0)).
Proof.
  intros F H. inversion F as [|a b F0 F1]; subst. cbn [fold_left].
  assert (E : pool_step st r0 = (r_fun r0, r_success r0, Some (r_x r0))). { destruct st as [[m s] x]. unfold pool_step. cbn in H. apply Rltb_iff in H. rewrite H. reflexivity. }
  rewrite E. clear E. induction F1 as [|r1 l F2 F3 IH]; [reflexivity|]. cbn [fold_left]. unfold pool_step at 2. destruct (Rltb (r_fun r0) (- r_fun r1)) eqn:E2.
  - apply Rltb_iff in E2. lra.
  - apply IH. constructor; assumption.
Qed.

Section Proc.
Variables (ev : marr CC -> list R) (sq : marr CC -> marr CC) (s : scipy) (g : rng).
Hypothesis Hs : scipy_ok s.

Lemma samples_steady f p nsize rank a c c1 r : steady f c -> procedure_samples f p nsize rank a c = (c1, Ok r) -> c1 = c.
Proof.
  intros S. unfold procedure_samples. destruct (_ =? 0)%Z; [intros [= <- _]; reflexivity|].
  destruct (initial_guesses_lipschitz f nsize rank p c (as_int (a_lipschitz a)) 1000) as [c' [[[vecs evals] success]|e]] eqn:E; [|discriminate].
  destruct (sampler_run f p nsize rank c S _ _ _ _ _ _ E) as (-> & _). intros [= <- _]. reflexivity.
Qed.

(** what the optimisers other than the serial one give *)
Lemma run_value f bounds a samples c c1 o : steady f c -> procedure_run s f bounds a samples c = (c1, Ok o) ->
  c1 = c /\
  ((exists r x, o = (Float r, snd (fst o), Some x) /\ snd (f c x) = Ok r) \/ snd o = None \/ exists r, fst (fst o) = Result r /\ a_optimizer a = "slsqp"%string /\ as_int (a_use_pool a) = 0%Z).
Proof.
  intros S. unfold procedure_run. destruct (String.eqb (a_optimizer a) "diffev") eqn:E1.
  - destruct (match samples with [] => _ | _ => _ end) as [init popsize]. unfold optimize_differential_evol.
    destruct (reports_steady f c _ S (proj2 Hs f bounds (a_maxiter a) init popsize c)) as [C V]. destruct (diffev s f bounds (a_maxiter a) init popsize c) as [c' [r|e]]; [|discriminate].
    cbn [fst snd] in C, V. subst c'. intros [= <- <-]. split; [reflexivity|]. left. exists (r_fun r), (r_x r). split; [reflexivity|]. apply V. reflexivity.
  - destruct (String.eqb (a_optimizer a) "slsqp") eqn:E2; [|discriminate]. apply String.eqb_eq in E2. destruct (_ =? 0)%Z; [discriminate|].
    destruct (as_int (a_use_pool a) =? 0)%Z eqn:E3.
    + apply Z.eqb_eq in E3. unfold optimize_samples_slsqp.
      assert (L : forall l st c' r, serial_loop s f bounds (a_maxiter a) l c st = (c', r) -> c' = c).
      { induction l as [|x0 l IH]; intros st c' r; cbn [serial_loop]; [intros [= <- _]; reflexivity|].
        destruct (reports_steady f c _ S (proj1 Hs f bounds (a_maxiter a) x0 c)) as [C _]. destruct (slsqp s f bounds (a_maxiter a) x0 c) as [c2 [w|e]]; cbn [fst] in C; subst c2.
        - destruct (serial_step w st) as [st'|e]; [apply IH|intros [= <- _]; reflexivity].
        - intros [= <- _]. reflexivity. }
      destruct (serial_loop s f bounds (a_maxiter a) samples c None) as [c' r] eqn:El. specialize (L _ _ _ _ El). subst c'. destruct r as [[w|]|e]; [|discriminate|discriminate].
      cbn [bind]. intros [= <- <-]. split; [reflexivity|]. right. right. exists w. auto.
    + intros H. injection H as <- H. split; [reflexivity|]. unfold use_multi_processes in H. apply bind_ok in H. destruct H as (results & M & H).
      apply mapM_ok in M.
      destruct (pool_choose_in results) as [E|(r & Hr & E)]; rewrite E in H; injection H as <-; [right; left; reflexivity|].
      left. exists (r_fun r), (r_x r). split; [reflexivity|]. clear E. induction M as [|x0 y l ys Hy _ IH]; [destruct Hr|].
      destruct Hr as [<-|Hr]; [|apply IH; exact Hr]. destruct (reports_steady f c _ S (proj1 Hs f bounds (a_maxiter a) x0 c)) as [_ V]. apply V. exact Hy.
Qed.

Theorem procedure_value c n rank name a c' o F p : set_to n c -> optimize_procedure ev sq s g c n rank name a = (c', Ok o) ->
  choose_objective ev sq name = Ok F -> get_paramet g (a_param a) = Ok p ->
  c' = c /\ exists x, p_rho p x (input_dimension c) rank = Ok (o_rho o) /\
    ((exists v, snd (F (input_dimension c) rank p n c x) = Ok v /\ o_val o = Float (if String.eqb name "coherent" then v * -1 else v)%R) \/
     (exists r, o_val o = Result r /\ name <> "coherent"%string /\ a_optimizer a = "slsqp"%string /\ as_int (a_use_pool a) = 0%Z)).
Proof.
  intros S H HF Hp. unfold optimize_procedure in H. destruct (procedure_checks ev sq g name a) as [[p0 F0]|e] eqn:Ec; [|discriminate].
  assert (p0 = p /\ F0 = F) as [-> ->].
  { unfold procedure_checks in Ec. rewrite Hp, HF in Ec. cbn [bind] in Ec. repeat (apply bind_ok in Ec; destruct Ec as (? & _ & Ec)). injection Ec as <- <-. auto. }
  destruct (p_bounds p (input_dimension c) rank) as [bounds|e]; [|discriminate].
  pose proof (choose_steady ev sq name F (input_dimension c) rank p n c HF S) as SF.
  destruct (procedure_samples _ p (input_dimension c) rank a c) as [c1 [[samples ul]|e]] eqn:Es; [|discriminate]. apply (samples_steady _ _ _ _ _ _ _ _ SF) in Es. subst c1.
  destruct (procedure_run s _ bounds a samples c) as [c2 [[[val su] ox]|e]] eqn:Er; [|discriminate]. destruct (run_value _ _ _ _ _ _ _ SF Er) as [-> V]. cbn [bind] in H. injection H as <- H.
  split; [reflexivity|]. unfold procedure_output in H. apply bind_ok in H. destruct H as (val' & Hv & H). destruct ox as [x|]; [|discriminate]. apply bind_ok in H. destruct H as (rho & Hr & [= <-]).
  cbn [o_rho o_val]. exists x. split; [exact Hr|]. cbn [fst snd] in V. destruct V as [(r & x' & E & V)|[V|(r & E & V1 & V2)]].
  - injection E as -> ->. left. exists r. split; [exact V|]. destruct (String.eqb name "coherent"); injection Hv as <-; reflexivity.
  - discriminate.
  - subst val. right. exists r. destruct (String.eqb name "coherent") eqn:En; [discriminate|]. injection Hv as <-. apply String.eqb_neq in En. auto.
Qed.
End Proc.

(** ** the densities of the built-in parameterisations *)
Lemma all_zero_dec (vec : list R) : (exists x, In x vec /\ x <> 0%R) \/ (forall x, In x vec -> x = 0%R).
Proof.
  induction vec as [|a vec IH]; [right; intros x []|]. destruct (Req_EM_T a 0) as [->|N]; [|left; exists a; split; [left; reflexivity|exact N]].
  destruct IH as [(x & H & N)|IH]; [left; exists x; split; [right; exact H|exact N]|right; intros x [<-|H]; auto].
Qed.
Lemma over_result vec n r rho : over_rho_from_vec vec n (Some r) = Ok rho -> is_square n rho /\ density n (me rho) /\ rank_at_most n r (me rho).
Proof.
  intros H. destruct (Nat.le_gt_cases r n) as [L|L]; [|rewrite over_errors in H by lia; discriminate].
  destruct (Nat.eq_dec (length vec) (2 * r * n)) as [L2|L2]; [|rewrite over_errors in H by lia; discriminate].
  destruct (all_zero_dec vec) as [N|N]; [|rewrite over_zero in H by assumption; discriminate].
  destruct (over_density vec n r L L2 N) as (rho' & E & R1 & C1 & D & K & _). rewrite H in E. injection E as <-. split; [split; assumption|]. split; assumption.
Qed.
Lemma chol_result vec n r rho : chol_rho_from_vec vec n (Some r) = Ok rho -> is_square n rho /\ density n (me rho) /\ rank_at_most n r (me rho).
Proof.
  intros H. assert (D : (1 <= r /\ r <= n /\ Z.of_nat (length vec) = chol_numb_variables n r) \/ ~ (1 <= r /\ r <= n /\ Z.of_nat (length vec) = chol_numb_variables n r)) by lia.
  destruct D as [(L1 & L2 & L3)|D]; [|rewrite (chol_errors vec n (Some r)) in H by exact D; discriminate].
  destruct (all_zero_dec vec) as [N|N]; [|rewrite (chol_zero vec n (Some r)) in H by assumption; discriminate].
  destruct (chol_density vec n (Some r) L1 L2 L3 N) as (rho' & E & R1 & C1 & D' & K & _). rewrite H in E. injection E as <-. split; [split; assumption|]. split; assumption.
Qed.
Lemma named_result g name p x n r rho : get_paramet g (PName name) = Ok p -> p_rho p x n r = Ok rho -> is_square n rho /\ density n (me rho) /\ rank_at_most n r (me rho).
Proof.
  cbn [get_paramet]. destruct (String.eqb name "overparam"); [intros [= <-]; cbn; apply over_result|].
  destruct (String.eqb name "cholesky"); [intros [= <-]; cbn; apply chol_result|discriminate].
Qed.
