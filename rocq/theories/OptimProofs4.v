(** Starting points, checks and the dictionary of the optimisation (C81, C82). *)
From Verif Require Import Py Scalar PauliModel KrausModel ChoiModel ChannelModel ParamModel OptimModel OptimSpec OptimProofs OptimProofs2.
From Coq Require Import Reals Lra.
From Coq Require String.
Import String.StringSyntax.
Delimit Scope string_scope with string.
Open Scope nat_scope.

Section Start.
Variables (ev : marr CC -> list R) (sq : marr CC -> marr CC) (s : scipy) (g : rng).

Lemma accepted_iff a : accepted a <-> (is_int (a_use_pool a) = true /\ num_nonneg (a_use_pool a) = true /\ match a_samples a with [] => true | _ => a_samples_list a end = true /\
  num_nonneg (a_lipschitz a) = true /\ is_int (a_lipschitz a) = true /\
  (if match a_samples a with [] => String.eqb (a_optimizer a) "slsqp"%string | _ => false end then num_positive (a_lipschitz a) else true) = true).
Proof.
  unfold accepted. split.
  - intros ((z & -> & Hz) & HS & m & -> & Hm & HO). cbn [is_int num_nonneg num_positive]. split; [reflexivity|]. split; [apply Z.leb_le, Hz|]. split; [destruct (a_samples a); [reflexivity|apply HS; discriminate]|].
    split; [apply Z.leb_le, Hm|]. split; [reflexivity|]. destruct (a_samples a); [|reflexivity]. destruct (String.eqb_spec (a_optimizer a) "slsqp"); [|reflexivity]. apply Z.ltb_lt, HO; auto.
  - intros (H1 & H2 & H3 & H4 & H5 & H6). destruct (a_use_pool a) as [z|]; [|discriminate]. destruct (a_lipschitz a) as [m|]; [|discriminate]. cbn in *.
    split; [exists z; split; [reflexivity|apply Z.leb_le, H2]|]. split; [intros N; destruct (a_samples a); [congruence|exact H3]|]. exists m. split; [reflexivity|]. split; [apply Z.leb_le, H4|].
    intros EO ES. rewrite ES, EO in H6. cbn in H6. apply Z.ltb_lt, H6.
Qed.
Lemma checks_pass obj a F p : get_paramet g (a_param a) = Ok p -> choose_objective ev sq obj = Ok F -> accepted a -> procedure_checks ev sq g obj a = Ok (p, F).
Proof.
  intros HP HF HA. apply accepted_iff in HA. destruct HA as (H1 & H2 & H3 & H4 & H5 & H6). unfold procedure_checks. rewrite HP, HF. cbn [bind]. rewrite H1, H2, H3, H4, H5. cbn [assert_ bind].
  destruct (match a_samples a with [] => _ | _ => false end); [rewrite H6|]; reflexivity.
Qed.
Lemma checks_fail obj a F p : get_paramet g (a_param a) = Ok p -> choose_objective ev sq obj = Ok F -> ~ accepted a -> procedure_checks ev sq g obj a = Err AssertionError.
Proof.
  intros HP HF HA. rewrite accepted_iff in HA. unfold procedure_checks. rewrite HP, HF. cbn [bind].
  destruct (is_int (a_use_pool a)); [|reflexivity]. cbn [assert_ bind]. destruct (num_nonneg (a_use_pool a)); [|reflexivity]. cbn [assert_ bind].
  destruct (match a_samples a with [] => true | _ => _ end); [|reflexivity]. cbn [assert_ bind]. destruct (num_nonneg (a_lipschitz a)); [|reflexivity]. cbn [assert_ bind].
  destruct (is_int (a_lipschitz a)); [|reflexivity]. cbn [assert_ bind]. destruct (match a_samples a with [] => _ | _ => false end); [|exfalso; apply HA; auto 10].
  destruct (num_positive (a_lipschitz a)); [exfalso; apply HA; auto 10|reflexivity].
Qed.
Lemma checks_ok obj a F p : choose_objective ev sq obj = Ok F -> procedure_checks ev sq g obj a = Ok (p, F) -> accepted a /\ get_paramet g (a_param a) = Ok p.
Proof.
  intros HF H. unfold procedure_checks in H. rewrite HF in H. apply bind_ok in H. destruct H as (p' & HP & H). cbn [bind] in H.
  assert (AS : forall b r, (do _ <- assert_ b; r) = Ok (p, F) -> b = true /\ r = Ok (p, F)) by (intros [|] r X; [auto|discriminate]).
  apply AS in H. destruct H as (H1 & H). apply AS in H. destruct H as (H2 & H). apply AS in H. destruct H as (H3 & H). apply AS in H. destruct H as (H4 & H). apply AS in H. destruct H as (H5 & H).
  apply bind_ok in H. destruct H as (u & H6 & [= <-]). split; [|exact HP]. apply accepted_iff. do 5 (split; [assumption|]).
  destruct (match a_samples a with [] => _ | _ => false end); [|reflexivity]. destruct (num_positive (a_lipschitz a)); [reflexivity|discriminate].
Qed.
Lemma samples_starts f p nsize rank a c c1 samples ul : steady f c -> accepted a -> procedure_samples f p nsize rank a c = (c1, Ok (samples, ul)) ->
  c1 = c /\ starts f p nsize rank a c samples /\ ul = negb (Z.eqb (as_int (a_lipschitz a)) 0).
Proof.
  intros ST HA H. pose proof (samples_steady _ _ _ _ _ _ _ _ ST H) as E. split; [exact E|]. unfold procedure_samples in H. destruct HA as (_ & _ & m & EM & M0 & _). unfold starts. rewrite EM in *. cbn [as_int] in *.
  destruct (Z.eqb_spec m 0) as [->|N]; [injection H as _ <- <-; auto|].
  destruct (initial_guesses_lipschitz f nsize rank p c m 1000) as [c' [[[vecs evals] success]|e]] eqn:EI; [|discriminate]. cbn [bind] in H. destruct success; [|discriminate]. injection H as _ <- <-.
  split; [|reflexivity]. right. exists m, vecs, evals. split; [reflexivity|]. split; [lia|]. split; [rewrite EI; reflexivity|]. split; [|reflexivity].
  unfold initial_guesses_lipschitz in EI. destruct (do vec <- _; _) as [[vec rho]|]; [|discriminate]. destruct (f c vec) as [c3 [v|]]; [|discriminate].
  destruct (lip_loop _ _ _ _ _ _ _ _ _) as [c4 [st|]]; [|discriminate]. injection EI as _ <- _ E2. apply Z.eqb_eq, E2.
Qed.
Lemma starts_samples f p nsize rank a c samples : starts f p nsize rank a c samples -> exists c1, procedure_samples f p nsize rank a c = (c1, Ok (samples, negb (Z.eqb (as_int (a_lipschitz a)) 0))).
Proof.
  unfold procedure_samples. intros [(E & ->)|(m & vecs & evals & E & M & H & _ & ->)]; rewrite E; cbn [as_int]; [eexists; reflexivity|].
  destruct (Z.eqb_spec m 0); [lia|]. destruct (initial_guesses_lipschitz f nsize rank p c m 1000) as [c' r]. cbn [snd] in H. subst r. eexists. reflexivity.
Qed.
Lemma start_pair f p nsize rank a c samples : starts f p nsize rank a c samples ->
  match samples with [] => if (as_int (a_lipschitz a) =? 0)%Z then (LatinHypercube, 50) else (Population [], 0) | _ => (Population samples, length samples) end =
  (match samples with [] => LatinHypercube | _ => Population samples end, match samples with [] => 50 | _ => length samples end).
Proof.
  destruct samples as [|x l]; [|reflexivity]. intros [(E & _)|(m & vecs & evals & E & M & H & L & ES)]; [rewrite E; reflexivity|].
  symmetry in ES. apply app_eq_nil in ES. destruct ES as [_ ->]. cbn in L. lia.
Qed.

Hypothesis Hs : scipy_ok s.
Theorem procedure_start c n rank name a c' o F : set_to n c -> optimize_procedure ev sq s g c n rank name a = (c', Ok o) ->
  choose_objective ev sq name = Ok F ->
  c' = c /\ exists p bounds samples r, get_paramet g (a_param a) = Ok p /\ p_bounds p (input_dimension c) rank = Ok bounds /\
    starts (F (input_dimension c) rank p n) p (input_dimension c) rank a c samples /\ selected s (F (input_dimension c) rank p n) bounds a samples c r /\
    p_rho p (r_x r) (input_dimension c) rank = Ok (o_rho o) /\ o_success o = r_success r /\
    ((o_val o = Result r /\ name <> "coherent"%string /\ a_optimizer a = "slsqp"%string /\ as_int (a_use_pool a) = 0%Z) \/
     o_val o = Float (if String.eqb name "coherent" then r_fun r * -1 else r_fun r)%R) /\
    o_method o = a_optimizer a /\ o_objective o = name /\ o_lipschitz o = negb (Z.eqb (as_int (a_lipschitz a)) 0).
Proof.
  intros S H HF. unfold optimize_procedure in H. destruct (procedure_checks ev sq g name a) as [[p0 F0]|e] eqn:Ec; [|discriminate].
  assert (F0 = F) as ->. { unfold procedure_checks in Ec. rewrite HF in Ec. repeat (apply bind_ok in Ec; destruct Ec as (? & ? & Ec)). injection Ec as _ <-. congruence. }
  destruct (checks_ok _ _ _ _ HF Ec) as [HA HP]. rename p0 into p.
  destruct (p_bounds p (input_dimension c) rank) as [bounds|e] eqn:HB; [|discriminate].
  pose proof (choose_steady ev sq name F (input_dimension c) rank p n c HF S) as SF.
  destruct (procedure_samples _ p (input_dimension c) rank a c) as [c1 [[samples ul]|e]] eqn:Es; [|discriminate]. destruct (samples_starts _ _ _ _ _ _ _ _ _ SF HA Es) as (-> & HS & EUL). rewrite <- EUL.
  set (f := F (input_dimension c) rank p n) in *.
  assert (OUT : forall val su x, procedure_output name p (input_dimension c) rank a ul (val, su, x) = Ok o ->
     exists x', x = Some x' /\ p_rho p x' (input_dimension c) rank = Ok (o_rho o) /\ o_success o = su /\
       ((exists r, val = Result r /\ o_val o = Result r /\ name <> "coherent"%string) \/ (exists v, val = Float v /\ o_val o = Float (if String.eqb name "coherent" then v * -1 else v)%R)) /\
       o_method o = a_optimizer a /\ o_objective o = name /\ o_lipschitz o = ul).
  { intros val su x E. unfold procedure_output in E. apply bind_ok in E. destruct E as (val' & Hv & E). destruct x as [x|]; [|discriminate]. apply bind_ok in E. destruct E as (rho & Hr & [= <-]).
    exists x. cbn [o_rho o_val o_method o_lipschitz o_success o_objective]. do 3 (split; [reflexivity || assumption|]). split; [|auto].
    destruct val as [v|r]; [right; exists v; split; [reflexivity|]; destruct (String.eqb name "coherent"); injection Hv as <-; reflexivity|].
    left. exists r. destruct (String.eqb_spec name "coherent"); [discriminate|]. injection Hv as <-. auto. }
  unfold procedure_run in H. rewrite (start_pair _ _ _ _ _ _ _ HS) in H.
  destruct (String.eqb_spec (a_optimizer a) "diffev") as [ED|_].
  - unfold optimize_differential_evol in H.
    set (i := match samples with [] => LatinHypercube | _ => _ end) in *. set (q := match samples with [] => 50 | _ => _ end) in *.
    destruct (reports_steady f c _ SF (proj2 Hs f bounds (a_maxiter a) i q c)) as [C _].
    destruct (diffev s f bounds (a_maxiter a) i q c) as [c2 [r|e]] eqn:ER; [|discriminate]. cbn [fst] in C. subst c2. apply pair_equal_spec in H. destruct H as [<- H]. cbn [bind] in H. split; [reflexivity|].
    destruct (OUT _ _ _ H) as (x & [= <-] & O1 & O2 & O3 & O4). exists p, bounds, samples, r. do 3 (split; [assumption|]).
    split; [left; split; [exact ED|]; change (snd (diffev s f bounds (a_maxiter a) i q c) = Ok r); rewrite ER; reflexivity|]. do 2 (split; [assumption|]). split; [|exact O4].
    right. destruct O3 as [(r' & X & _)|(v & [= <-] & E)]; [discriminate|exact E].
  - destruct (String.eqb_spec (a_optimizer a) "slsqp") as [ED|_]; [|discriminate]. destruct (_ =? 0)%Z in H; [discriminate|].
    destruct (Z.eqb_spec (as_int (a_use_pool a)) 0) as [EP|EP].
    + unfold optimize_samples_slsqp in H.
      assert (L : forall l st c' r, serial_loop s f bounds (a_maxiter a) l c st = (c', r) -> c' = c /\ forall o, r = Ok (Some o) -> st = Some o \/ exists x0, In x0 l /\ snd (slsqp s f bounds (a_maxiter a) x0 c) = Ok o).
      { induction l as [|x0 l IH]; intros st c2 r; cbn [serial_loop]; [intros [= <- <-]; split; [reflexivity|intros o' [= ->]; auto]|].
        destruct (reports_steady f c _ SF (proj1 Hs f bounds (a_maxiter a) x0 c)) as [C _]. destruct (slsqp s f bounds (a_maxiter a) x0 c) as [c3 [w|e]] eqn:EW; cbn [fst] in C; subst c3.
        - destruct (serial_step w st) as [st'|e] eqn:ET; [|intros [= <- <-]; split; [reflexivity|discriminate]]. intros HL. destruct (IH _ _ _ HL) as [-> G]. split; [reflexivity|]. intros o' Eo. destruct (G o' Eo) as [->|(x1 & I & V)].
          + right. exists x0. split; [left; reflexivity|]. rewrite EW. cbn [snd]. destruct st; [discriminate|]. cbn in ET. destruct (Rltb start_val (r_fun w)); [congruence|discriminate].
          + right. exists x1. split; [right; exact I|exact V].
        - intros [= <- <-]. split; [reflexivity|discriminate]. }
      destruct (serial_loop s f bounds (a_maxiter a) samples c None) as [c2 r] eqn:El. destruct (L _ _ _ _ El) as [-> G]. destruct r as [[w|]|e]; [|discriminate|discriminate].
      apply pair_equal_spec in H. destruct H as [<- H]. cbn [bind] in H. split; [reflexivity|]. destruct (OUT _ _ _ H) as (x & [= <-] & O1 & O2 & O3 & O4). exists p, bounds, samples, w. do 3 (split; [assumption|]).
      split; [right; split; [exact ED|]; destruct (G w eq_refl) as [X|X]; [discriminate|exact X]|]. do 2 (split; [assumption|]). split; [|exact O4].
      left. destruct O3 as [(r' & [= <-] & E & N)|(v & X & _)]; [auto|discriminate].
    + apply pair_equal_spec in H. destruct H as [<- H]. split; [reflexivity|]. apply bind_ok in H. destruct H as ([[val su] x] & HM & H). unfold use_multi_processes in HM. apply bind_ok in HM. destruct HM as (results & M & HM). apply mapM_ok in M.
      destruct (OUT _ _ _ H) as (x' & -> & O1 & O2 & O3 & O4).
      destruct (pool_choose_in results) as [E|(r & Hr & E)]; rewrite E in HM; [discriminate|]. injection HM as <- <- <-.
      exists p, bounds, samples, r. do 3 (split; [assumption|]). split.
      * right. split; [exact ED|]. clear E HS Es. induction M as [|x0 y l ys Hy _ IH]; [destruct Hr|]. destruct Hr as [<-|Hr]; [exists x0; split; [left; reflexivity|exact Hy]|]. destruct (IH Hr) as (x1 & I & V). exists x1. split; [right; exact I|exact V].
      * do 2 (split; [assumption|]). split; [|exact O4]. right. destruct O3 as [(r' & X & _)|(v & [= <-] & E')]; [discriminate|exact E'].
Qed.
End Start.
