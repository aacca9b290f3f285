(** Where the optimisation starts, what the dictionary says and which options are
    rejected (C81, C82).  Specification: OptimSpec.v. *)
From Verif Require Import Py Scalar PauliModel KrausModel KrausSpec KrausExamples ChoiModel ChoiSpec ChannelModel ChannelSpec ParamModel OptimModel OptimSpec OptimProofs OptimProofs2 OptimProofs3 OptimProofs4 SpectralExists PropsOptim.
From Coq Require Import Reals Lra.
From Coq Require String.
Import String.StringSyntax.
Delimit Scope string_scope with string.
Open Scope nat_scope.

(** ** C81 *)
Theorem C81_coherent eigvalsh sqrtm s g c n rank a regularized c' o : scipy_ok s ->
  optimize_coherent eigvalsh sqrtm s g c n rank a regularized = (c', Ok o) ->
  exists p bounds samples r, let f := obj_coherent eigvalsh sqrtm (input_dimension c') rank p n in
    get_paramet g (a_param a) = Ok p /\ p_bounds p (input_dimension c') rank = Ok bounds /\
    starts f p (input_dimension c') rank a c' samples /\ selected s f bounds a samples c' r /\
    p_rho p (r_x r) (input_dimension c') rank = Ok (o_rho o) /\ o_success o = r_success r /\
    o_val o = Float (if regularized then - r_fun r / INR n else - r_fun r)%R /\
    o_method o = a_optimizer a /\ o_objective o = "coherent"%string /\ o_lipschitz o = negb (Z.eqb (as_int (a_lipschitz a)) 0).
Proof.
  intros Hs. unfold optimize_coherent. destruct (update_channel_tensored c n) as [c1 [u|e]] eqn:EU; [|discriminate]. pose proof (update_set_to _ _ _ _ EU) as ST.
  destruct (optimize_procedure eigvalsh sqrtm s g c1 n rank "coherent"%string a) as [c2 [o1|e]] eqn:EP; [|discriminate]. intros H. injection H as <- H. cbn [bind] in H.
  destruct (procedure_start eigvalsh sqrtm s g Hs c1 n rank "coherent"%string a c2 o1 (obj_coherent eigvalsh sqrtm) ST EP eq_refl) as (-> & p & bounds & samples & r & HP & HB & HS & HR & HO & E1 & E2 & E3 & E4 & E5).
  exists p, bounds, samples, r. cbv zeta. do 4 (split; [assumption|]). change (String.eqb "coherent" "coherent") with true in E2.
  destruct E2 as [(_ & N & _)|E2]; [congruence|]. cbn iota in E2. rewrite E2 in H.
  destruct regularized; [destruct (Nat.eqb n 0); [discriminate|]|]; injection H as <-; cbn [o_rho o_val o_method o_lipschitz o_success o_objective];
    repeat split; try assumption; [|rewrite E2]; f_equal; unfold Rdiv; ring.
Qed.
Theorem C81_fidelity eigvalsh sqrtm s g c n a c' o : scipy_ok s ->
  optimize_fidelity eigvalsh sqrtm s g c n a = (c', Ok o) ->
  exists p bounds samples r, let f := obj_fidelity sqrtm (input_dimension c') p n in
    get_paramet g (a_param a) = Ok p /\ p_bounds p (input_dimension c') 1 = Ok bounds /\
    starts f p (input_dimension c') 1 a c' samples /\ selected s f bounds a samples c' r /\
    p_rho p (r_x r) (input_dimension c') 1 = Ok (o_rho o) /\ o_success o = r_success r /\
    (o_val o = Float (r_fun r) \/ (o_val o = Result r /\ a_optimizer a = "slsqp"%string /\ as_int (a_use_pool a) = 0%Z)) /\
    o_method o = a_optimizer a /\ o_objective o = "fidelity"%string /\ o_lipschitz o = negb (Z.eqb (as_int (a_lipschitz a)) 0).
Proof.
  intros Hs. unfold optimize_fidelity. destruct (update_channel_tensored c n) as [c1 [u|e]] eqn:EU; [|discriminate]. pose proof (update_set_to _ _ _ _ EU) as ST. intros EP.
  destruct (procedure_start eigvalsh sqrtm s g Hs c1 n 1 "fidelity"%string a c' o (fun nsize _ p n => obj_fidelity sqrtm nsize p n) ST EP eq_refl) as (-> & p & bounds & samples & r & HP & HB & HS & HR & HO & E1 & E2 & E3 & E4 & E5).
  exists p, bounds, samples, r. cbv zeta. do 6 (split; [assumption|]). split; [|auto].
  destruct E2 as [(N1 & _ & N2 & N3)|E2]; [right; auto|left; exact E2].
Qed.
Print Assumptions C81_coherent.
Print Assumptions C81_fidelity.

(** ** C82 *)
(** options that are not accepted raise AssertionError, whatever the channel and scipy *)
Theorem C82_rejected eigvalsh sqrtm s g c n rank a regularized p : snd (update_channel_tensored c n) = Ok tt -> get_paramet g (a_param a) = Ok p ->
  ~ accepted a ->
  snd (optimize_coherent eigvalsh sqrtm s g c n rank a regularized) = Err AssertionError /\ snd (optimize_fidelity eigvalsh sqrtm s g c n a) = Err AssertionError.
Proof.
  intros HU HP HA. unfold optimize_coherent, optimize_fidelity. destruct (update_channel_tensored c n) as [c1 u]. cbn in HU. subst u.
  assert (G : forall rank obj F, choose_objective eigvalsh sqrtm obj = Ok F -> optimize_procedure eigvalsh sqrtm s g c1 n rank obj a = (c1, Err AssertionError)).
  { intros r obj F HF. unfold optimize_procedure. rewrite (checks_fail eigvalsh sqrtm g obj a F p HP HF HA). reflexivity. }
  rewrite (G rank "coherent"%string _ eq_refl), (G 1 "fidelity"%string _ eq_refl). split; reflexivity.
Qed.
(** with accepted options: a sampler that does not find enough samples raises
    AssertionError *)
Theorem C82_too_few eigvalsh sqrtm s g c n rank a regularized c1 p bounds m vecs evals : update_channel_tensored c n = (c1, Ok tt) -> get_paramet g (a_param a) = Ok p ->
  accepted a -> a_lipschitz a = PyInt m -> m <> 0%Z ->
  p_bounds p (input_dimension c1) rank = Ok bounds ->
  snd (initial_guesses_lipschitz (obj_coherent eigvalsh sqrtm (input_dimension c1) rank p n) (input_dimension c1) rank p c1 m 1000) = Ok (vecs, evals, false) ->
  snd (optimize_coherent eigvalsh sqrtm s g c n rank a regularized) = Err AssertionError.
Proof.
  intros HU HP HA HM M0 HB HL. unfold optimize_coherent. rewrite HU. unfold optimize_procedure. rewrite (checks_pass eigvalsh sqrtm g "coherent"%string a (obj_coherent eigvalsh sqrtm) p HP eq_refl HA), HB.
  unfold procedure_samples. rewrite HM. cbn [as_int]. rewrite (proj2 (Z.eqb_neq _ _) M0). destruct (initial_guesses_lipschitz _ _ _ _ _ _ _) as [c2 r]. cbn [snd] in HL. subst r. reflexivity.
Qed.
(** an unknown optimizer raises TypeError, once the starting points are there *)
Theorem C82_unknown eigvalsh sqrtm s g c n rank a regularized c1 p bounds : update_channel_tensored c n = (c1, Ok tt) -> get_paramet g (a_param a) = Ok p ->
  accepted a -> a_optimizer a <> "diffev"%string -> a_optimizer a <> "slsqp"%string -> p_bounds p (input_dimension c1) rank = Ok bounds ->
  (exists samples, starts (obj_coherent eigvalsh sqrtm (input_dimension c1) rank p n) p (input_dimension c1) rank a c1 samples) ->
  snd (optimize_coherent eigvalsh sqrtm s g c n rank a regularized) = Err TypeError.
Proof.
  intros HU HP HA N1 N2 HB (samples & HS). unfold optimize_coherent. rewrite HU. unfold optimize_procedure. rewrite (checks_pass eigvalsh sqrtm g "coherent"%string a (obj_coherent eigvalsh sqrtm) p HP eq_refl HA), HB.
  destruct (starts_samples _ _ _ _ _ _ _ HS) as (c2 & ->). unfold procedure_run. rewrite (proj2 (String.eqb_neq _ _) N1), (proj2 (String.eqb_neq _ _) N2). reflexivity.
Qed.
(** and differential evolution returns, when the sampler and scipy do *)
Theorem C82_returns eigvalsh sqrtm s g c n rank a c1 p bounds samples r rho : scipy_ok s -> update_channel_tensored c n = (c1, Ok tt) -> get_paramet g (a_param a) = Ok p ->
  accepted a -> a_optimizer a = "diffev"%string -> p_bounds p (input_dimension c1) rank = Ok bounds ->
  starts (obj_coherent eigvalsh sqrtm (input_dimension c1) rank p n) p (input_dimension c1) rank a c1 samples ->
  selected s (obj_coherent eigvalsh sqrtm (input_dimension c1) rank p n) bounds a samples c1 r -> p_rho p (r_x r) (input_dimension c1) rank = Ok rho ->
  exists o, optimize_coherent eigvalsh sqrtm s g c n rank a false = (c1, Ok o) /\ o_rho o = rho /\ o_val o = Float (- r_fun r)%R.
Proof.
  intros Hs HU HP HA HD HB HS HR HO. unfold optimize_coherent. rewrite HU. unfold optimize_procedure. rewrite (checks_pass eigvalsh sqrtm g "coherent"%string a (obj_coherent eigvalsh sqrtm) p HP eq_refl HA), HB.
  pose proof (obj_coherent_steady eigvalsh sqrtm (input_dimension c1) rank p n c1 (update_set_to _ _ _ _ HU)) as ST.
  destruct (starts_samples _ _ _ _ _ _ _ HS) as (c2 & ES). rewrite ES. apply (samples_steady _ _ _ _ _ _ _ _ ST) in ES. subst c2.
  destruct HR as [(_ & HR)|(HD' & _)]; [|rewrite HD in HD'; discriminate]. unfold procedure_run. rewrite HD. cbn [String.eqb Ascii.eqb Bool.eqb].
  rewrite (start_pair _ _ _ _ _ _ _ HS). unfold optimize_differential_evol.
  set (i := match samples with [] => LatinHypercube | _ => _ end) in *. set (q := match samples with [] => 50 | _ => _ end) in *.
  destruct (reports_steady _ c1 _ ST (proj2 Hs (obj_coherent eigvalsh sqrtm (input_dimension c1) rank p n) bounds (a_maxiter a) i q c1)) as [C _].
  destruct (diffev s _ bounds (a_maxiter a) i q c1) as [c2 r2]. cbn [fst snd] in C, HR. subst c2 r2. cbn [bind]. unfold procedure_output. cbn [String.eqb Ascii.eqb Bool.eqb bind]. rewrite HO. cbn [bind].
  eexists. split; [reflexivity|]. cbn [o_rho o_val]. split; [reflexivity|]. f_equal. ring.
Qed.
(** the same for optimize_fidelity *)
Theorem C82_too_few_fidelity eigvalsh sqrtm s g c n a c1 p bounds m vecs evals : update_channel_tensored c n = (c1, Ok tt) -> get_paramet g (a_param a) = Ok p ->
  accepted a -> a_lipschitz a = PyInt m -> m <> 0%Z ->
  p_bounds p (input_dimension c1) 1 = Ok bounds ->
  snd (initial_guesses_lipschitz (obj_fidelity sqrtm (input_dimension c1) p n) (input_dimension c1) 1 p c1 m 1000) = Ok (vecs, evals, false) ->
  snd (optimize_fidelity eigvalsh sqrtm s g c n a) = Err AssertionError.
Proof.
  intros HU HP HA HM M0 HB HL. unfold optimize_fidelity. rewrite HU. unfold optimize_procedure. rewrite (checks_pass eigvalsh sqrtm g "fidelity"%string a _ p HP eq_refl HA), HB.
  unfold procedure_samples. rewrite HM. cbn [as_int]. rewrite (proj2 (Z.eqb_neq _ _) M0). destruct (initial_guesses_lipschitz _ _ _ _ _ _ _) as [c2 r]. cbn [snd] in HL. subst r. reflexivity.
Qed.
Theorem C82_unknown_fidelity eigvalsh sqrtm s g c n a c1 p bounds : update_channel_tensored c n = (c1, Ok tt) -> get_paramet g (a_param a) = Ok p ->
  accepted a -> a_optimizer a <> "diffev"%string -> a_optimizer a <> "slsqp"%string -> p_bounds p (input_dimension c1) 1 = Ok bounds ->
  (exists samples, starts (obj_fidelity sqrtm (input_dimension c1) p n) p (input_dimension c1) 1 a c1 samples) ->
  snd (optimize_fidelity eigvalsh sqrtm s g c n a) = Err TypeError.
Proof.
  intros HU HP HA N1 N2 HB (samples & HS). unfold optimize_fidelity. rewrite HU. unfold optimize_procedure. rewrite (checks_pass eigvalsh sqrtm g "fidelity"%string a _ p HP eq_refl HA), HB.
  destruct (starts_samples _ _ _ _ _ _ _ HS) as (c2 & ->). unfold procedure_run. rewrite (proj2 (String.eqb_neq _ _) N1), (proj2 (String.eqb_neq _ _) N2). reflexivity.
Qed.
Theorem C82_returns_fidelity eigvalsh sqrtm s g c n a c1 p bounds samples r rho : scipy_ok s -> update_channel_tensored c n = (c1, Ok tt) -> get_paramet g (a_param a) = Ok p ->
  accepted a -> a_optimizer a = "diffev"%string -> p_bounds p (input_dimension c1) 1 = Ok bounds ->
  starts (obj_fidelity sqrtm (input_dimension c1) p n) p (input_dimension c1) 1 a c1 samples ->
  selected s (obj_fidelity sqrtm (input_dimension c1) p n) bounds a samples c1 r -> p_rho p (r_x r) (input_dimension c1) 1 = Ok rho ->
  exists o, optimize_fidelity eigvalsh sqrtm s g c n a = (c1, Ok o) /\ o_rho o = rho /\ o_val o = Float (r_fun r).
Proof.
  intros Hs HU HP HA HD HB HS HR HO. unfold optimize_fidelity. rewrite HU. unfold optimize_procedure. rewrite (checks_pass eigvalsh sqrtm g "fidelity"%string a _ p HP eq_refl HA), HB.
  pose proof (obj_fidelity_steady sqrtm (input_dimension c1) p n c1 (update_set_to _ _ _ _ HU)) as ST.
  destruct (starts_samples _ _ _ _ _ _ _ HS) as (c2 & ES). rewrite ES. apply (samples_steady _ _ _ _ _ _ _ _ ST) in ES. subst c2.
  destruct HR as [(_ & HR)|(HD' & _)]; [|rewrite HD in HD'; discriminate]. unfold procedure_run. rewrite HD. cbn [String.eqb Ascii.eqb Bool.eqb].
  rewrite (start_pair _ _ _ _ _ _ _ HS). unfold optimize_differential_evol.
  set (i := match samples with [] => LatinHypercube | _ => _ end) in *. set (q := match samples with [] => 50 | _ => _ end) in *.
  destruct (reports_steady _ c1 _ ST (proj2 Hs (obj_fidelity sqrtm (input_dimension c1) p n) bounds (a_maxiter a) i q c1)) as [C _].
  destruct (diffev s _ bounds (a_maxiter a) i q c1) as [c2 r2]. cbn [fst snd] in C, HR. subst c2 r2. cbn [bind]. unfold procedure_output. cbn [String.eqb Ascii.eqb Bool.eqb bind]. rewrite HO. cbn [bind].
  eexists. split; [reflexivity|]. split; reflexivity.
Qed.
Print Assumptions C82_rejected.
Print Assumptions C82_too_few.
Print Assumptions C82_unknown.
Print Assumptions C82_returns.
Print Assumptions C82_too_few_fidelity.
Print Assumptions C82_unknown_fidelity.
Print Assumptions C82_returns_fidelity.
Example C81_case : exists eigvalsh c, eigvalsh_ok eigvalsh /\ scipy_ok lazy_scipy /\
  (exists o, optimize_coherent eigvalsh (fun A => A) lazy_scipy one_rng c 1 1 evol true = (c, Ok o)) /\
  (exists o, optimize_coherent eigvalsh (fun A => A) lazy_scipy one_rng c 1 1 pool false = (c, Ok o)).
Proof. destruct C57_case as (ev & c & OK & _ & L & E & F). exists ev, c. auto. Qed.
(** accepted: the options of the cases; not accepted: SLSQP without samples, a negative pool *)
Example C82_case : accepted evol /\ accepted pool /\
  ~ accepted (Options "slsqp"%string (PName "overparam"%string) (PyInt 0) (PyInt 0) 50%Z [] true) /\
  ~ accepted (Options "diffev"%string (PName "overparam"%string) (PyInt 0) (PyInt (-1)) 50%Z [] true) /\
  accepted (Options "bfgs"%string (PName "overparam"%string) (PyInt 0) (PyInt 0) 50%Z [] true).
Proof.
  unfold accepted. cbn. repeat split; try (eexists; repeat split; try lia; discriminate); try discriminate; try auto.
  - intros (_ & _ & m & [= <-] & _ & H). specialize (H eq_refl eq_refl). lia.
  - intros ((z & [= <-] & H) & _). lia.
Qed.

(** ** C83: minimising with the coherent objective, the callback stops exactly at states
    whose coherent information exceeds 1e-8 *)
Theorem C83_callback eigvalsh sqrtm nsize rank p n c vec rho x : p_rho p vec nsize rank = Ok rho ->
  snd (coherent_information eigvalsh sqrtm c rho n false) = Ok x ->
  exists v, snd (obj_coherent eigvalsh sqrtm nsize rank p n c vec) = Ok v /\ (positive_coherent_info_callback v = true <-> (/ 10 ^ 8 < x)%R).
Proof.
  intros HP HX. unfold obj_coherent. rewrite HP. destruct (coherent_information eigvalsh sqrtm c rho n false) as [c' r]. cbn [snd] in *. subst r. cbn [bind].
  exists (- x)%R. split; [reflexivity|]. unfold positive_coherent_info_callback. rewrite Rltb_iff. replace (/ 10 ^ 8)%R with (/ 100000000)%R by (f_equal; lra). lra.
Qed.
Print Assumptions C83_callback.
Example C83_case : exists eigvalsh c rho x, eigvalsh_ok eigvalsh /\ p_rho (OverParam one_rng) one_vec 4 1 = Ok rho /\ snd (coherent_information eigvalsh (fun A => A) c rho 1 false) = Ok x.
Proof.
  destruct eigvalsh_exists as (ev & OK). destruct one_objective as (o & rho & HC & N & D & E & V). destruct (V ev (fun A => A) OK) as (x & X0 & X).
  exists ev, (KrausType o), rho, x. split; [exact OK|]. split; [exact E|]. rewrite X. reflexivity.
Qed.
