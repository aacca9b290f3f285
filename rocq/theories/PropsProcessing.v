(** Properties of the coherent information under processing (C99, C100).
    Specification: ProcessingSpec.v, EntropySpec.v, ChoiSpec.v, KrausSpec.v.  Model: ChannelModel.v,
    KrausModel.v.  eigvalsh_ok says what numpy.linalg.eigvalsh is assumed to return on Hermitian
    matrices; SpectralExists.v shows that it can be met. *)
From Verif Require Import Py Scalar PauliModel PauliSpec EncoderProofs EighExists KrausModel KrausSpec KrausProofs KrausProofs2 KrausProofs4 KrausProofs5 KrausProofs6 KrausProofs8 KrausProofs9 KrausProofs12
  ChoiModel ChannelModel ChannelSpec ChoiSpec SpectralExists EntropySpec EntropyProofs CohProofs CohProofs2 CohProofs3 CohProofs4 KrausExamples ProcessingSpec Processing Processing2.
From Coq Require Import Reals Lra.
Open Scope nat_scope.
Add Ring CCring46 : (s_rt CC).

(** ** C99 *)
Section C99.
Variables (eigvalsh : marr CC -> list R) (sqrtm : marr CC -> marr CC).
Definition information (c : chan CC) (rho : marr CC) (n : nat) (reg : bool) (r : R) : Prop :=
  snd (coherent_information eigvalsh sqrtm c rho n reg) = Ok (if reg then r / INR n else r)%R.
Theorem C99_processing spA spC (a c : kraus_arg CC) nqA nqC dinA doutA dinC doutC orA orC oA oC pA pC n rho reg : eigvalsh_ok eigvalsh ->
  kraus_init spA a nqA dinA doutA orA = Ok oA -> arg_matrices a <> [] -> spA = true \/ orA = [] -> Forall (fun m => 1 <= m) pA -> clean spA pA n ->
  kraus_init spC c nqC dinC doutC orC = Ok oC -> arg_matrices c <> [] -> spC = true \/ orC = [] -> Forall (fun m => 1 <= m) pC -> clean spC pC n -> 1 <= n ->
  let D := dinA ^ fst nqA in let O := doutA ^ snd nqA in let E := doutC ^ snd nqC in
  dinC ^ fst nqC = D -> trace_preserving D (arg_matrices a) -> processed O E (arg_matrices a) (arg_matrices c) ->
  is_square (D ^ n) rho -> density (D ^ n) (me rho) ->
  exists r s, information (after (KrausType oA) pA) rho n reg r /\ information (after (KrausType oC) pC) rho n reg s /\
    (s <= r + (INR (O ^ n) + INR (Nat.min (length (arg_matrices c) ^ n) (D ^ n * E ^ n))) * slack)%R.
Proof.
  intros OK IA NA RA PA CA IC NC RC PC CC0 Hn D O E ED TP PR SQ DR.
  pose proof (fits0 spA a nqA dinA doutA orA oA IA NA) as FA. fold D O in FA. pose proof (fits0 spC c nqC dinC doutC orC oC IC NC) as FC. rewrite ED in FC. fold E in FC.
  pose proof (processed_tp O E D _ _ FA FC PR TP) as TC. destruct (processed_cross O E D _ _ FA FC PR) as (m & Fm & Tm & SC).
  destruct (value_near eigvalsh sqrtm OK spA a nqA dinA doutA orA oA IA NA RA TP pA n rho reg PA Hn CA (conj SQ DR)) as (r & t & E1 & T & B1).
  rewrite <- ED in TC, SQ, DR. destruct (value_near eigvalsh sqrtm OK spC c nqC dinC doutC orC oC IC NC RC TC pC n rho reg PC Hn CC0 (conj SQ DR)) as (s & u & E2 & U & B2). rewrite ED in TC, SQ, DR.
  exists r, s. split; [exact E1|]. split; [exact E2|]. fold O in T. fold E in U. 
  pose proof (processing_power E O D m (arg_matrices a) (arg_matrices c) n (me rho) t u Fm FA FC Tm TP SC DR T U) as K.
  fold O in B1. fold E in B2. rewrite ED in B2. cbv beta in B1, B2. lra.
Qed.
(** b + a: first a, then b *)
Theorem C99_sum spA spB (a b : kraus_arg CC) nqA nqB dinA doutA dinB doutB orA orB cA cB pA pB pC n rho reg : eigvalsh_ok eigvalsh ->
  chan_init a nqA dinA doutA orA spA = Ok cA -> arg_matrices a <> [] -> spA = true \/ orA = [] -> Forall (fun m => 1 <= m) pA -> clean spA pA n ->
  chan_init b nqB dinB doutB orB spB = Ok cB -> arg_matrices b <> [] -> Forall (fun m => 1 <= m) pB ->
  Forall (fun m => 1 <= m) pC -> clean (spB || spA) pC n -> 1 <= n ->
  let D := dinA ^ fst nqA in let O := doutA ^ snd nqA in let E := doutB ^ snd nqB in
  dinB ^ fst nqB = O -> trace_preserving D (arg_matrices a) -> trace_preserving O (arg_matrices b) -> is_square (D ^ n) rho -> density (D ^ n) (me rho) ->
  exists c r s, chan_add (after cB pB) (after cA pA) = Ok c /\ information (after cA pA) rho n reg r /\ information (after c pC) rho n reg s /\
    (s <= r + (INR (O ^ n) + INR (Nat.min ((length (arg_matrices b) * length (arg_matrices a)) ^ n) (D ^ n * E ^ n))) * slack)%R.
Proof.
  intros OK IA NA RA PA CA IB NB PB PC CC0 Hn D O E ED TA TB SQ DR.
  destruct (add_history b nqB dinB doutB orB spB cB a nqA dinA doutA orA spA cA pB pA NB NA IB IA PB PA) as [-> _].
  destruct (parts b a nqB nqA dinB doutB dinA doutA orB orA spB spA cB cA NB NA IB IA) as (kb & ka & -> & -> & FB & FA & LB & LA & B1 & B2 & A1 & A2 & B0 & A0 & QB & QA & IBe & IAe & OB & OA & SB & SA).
  cbn [chan_add]. destruct (serial_spec (kraus_ops kb) (kraus_ops ka)) as [S1 _]; [rewrite LB; exact NB|rewrite LA; exact NA|].
  destruct (S1 ltac:(unfold O in ED; congruence)) as (ops & EO & SO & T0 & T1 & T2). rewrite EO. cbn [bind]. rewrite LB, LA in SO. rewrite QA, QB, IAe, OB, SB, SA.
  assert (NO : arg_matrices (OpArray ops) <> []). { cbn [arg_matrices]. apply (same_nonempty _ _ (same_ops_sym _ _ SO)). apply prod_nonempty; assumption. }
  rewrite ED in FB. fold O in FA. fold E in FB. fold D in FA. assert (FP : fits E D (prod_ops (arg_matrices b) (arg_matrices a))) by (apply (fits_prod E O D); assumption).
  assert (FO : fits E D (slices ops)) by (apply (same_ops_fits _ _ (prod_ops (arg_matrices b) (arg_matrices a))); [apply same_ops_sym, SO|exact FP]).
  assert (TP : trace_preserving D (slices ops)). { apply (tp_same E _ (prod_ops (arg_matrices b) (arg_matrices a))); [exact FP|apply same_ops_sym, SO|]. apply (tp_prod E O D); assumption. }
  destruct (proj2 (chan_init_iff (OpArray ops) (fst nqA, snd nqB) dinA doutB [] (spB || spA) NO)) as (c & EC).
  { cbn [fst snd arg_matrices]. split; [exact FO|apply tp_nearly, TP]. }
  destruct (chan_init_made _ _ _ _ _ _ _ EC) as (k & -> & EK). cbn [arg_matrices] in EK.
  destruct (chan_init_made _ _ _ _ _ _ _ IA) as (ka' & Eka & EKA). injection Eka as <-.
  assert (RA' : spA = true \/ (if spA then [] else orA) = []) by (destruct spA; [left; reflexivity|destruct RA as [RA|RA]; [discriminate|right; exact RA]]).
  assert (RC' : spB || spA = true \/ (if spB || spA then [] else @nil nat) = []) by (right; destruct (spB || spA); reflexivity).
  assert (PR : processed O E (arg_matrices a) (arg_matrices (OpArray ops))).
  { exists (arg_matrices b). split; [exact FB|]. split; [exact TB|]. intros rho0 x y Hx Hy. cbn [arg_matrices].
    transitivity (channel_map (prod_ops (arg_matrices b) (arg_matrices a)) rho0 x y); [|apply (channel_prod E O D); assumption].
    symmetry. exact (channel_map_same E D _ _ _ _ FP (same_ops_sym _ _ SO) (eqm_refl _ _ _) x y Hx Hy). }
  destruct (C99_processing spA (spB || spA) a (OpArray ops) nqA (fst nqA, snd nqB) dinA doutA dinA doutB _ _ ka k pA pC n rho reg OK EKA NA RA' PA CA EK NO RC' PC CC0 Hn eq_refl TA PR SQ DR) as (r & s & H1 & H2 & H3).
  exists (KrausType k), r, s. split; [exact EC|]. split; [exact H1|]. split; [exact H2|]. cbn [fst snd arg_matrices] in H3. fold O E D in H3. rewrite slices_len, T0, B0, A0 in H3. exact H3.
Qed.
(** processing that can be undone changes nothing *)
Theorem C99_undone spA spC (a c : kraus_arg CC) nqA nqC dinA doutA dinC doutC orA orC oA oC pA pC n rho reg : eigvalsh_ok eigvalsh ->
  kraus_init spA a nqA dinA doutA orA = Ok oA -> arg_matrices a <> [] -> spA = true \/ orA = [] -> Forall (fun m => 1 <= m) pA -> clean spA pA n ->
  kraus_init spC c nqC dinC doutC orC = Ok oC -> arg_matrices c <> [] -> spC = true \/ orC = [] -> Forall (fun m => 1 <= m) pC -> clean spC pC n -> 1 <= n ->
  let D := dinA ^ fst nqA in let O := doutA ^ snd nqA in let E := doutC ^ snd nqC in
  dinC ^ fst nqC = D -> trace_preserving D (arg_matrices a) ->
  processed O E (arg_matrices a) (arg_matrices c) -> processed E O (arg_matrices c) (arg_matrices a) ->
  is_square (D ^ n) rho -> density (D ^ n) (me rho) ->
  exists r s, information (after (KrausType oA) pA) rho n reg r /\ information (after (KrausType oC) pC) rho n reg s /\
    (- (INR (E ^ n) + INR (Nat.min (length (arg_matrices a) ^ n) (D ^ n * O ^ n))) * slack <= s - r <= (INR (O ^ n) + INR (Nat.min (length (arg_matrices c) ^ n) (D ^ n * E ^ n))) * slack)%R.
Proof.
  intros OK IA NA RA PA CA IC NC RC PC CC0 Hn D O E ED TP PR PR' SQ DR.
  destruct (C99_processing spA spC a c nqA nqC dinA doutA dinC doutC orA orC oA oC pA pC n rho reg OK IA NA RA PA CA IC NC RC PC CC0 Hn ED TP PR SQ DR) as (r & s & H1 & H2 & H3). fold O E D in H3.
  pose proof (fits0 spA a nqA dinA doutA orA oA IA NA) as FA. fold D O in FA. pose proof (fits0 spC c nqC dinC doutC orC oC IC NC) as FC. rewrite ED in FC. fold E in FC.
  pose proof (processed_tp O E D _ _ FA FC PR TP) as TC. rewrite <- ED in TC, SQ, DR.
  destruct (C99_processing spC spA c a nqC nqA dinC doutC dinA doutA orC orA oC oA pC pA n rho reg OK IC NC RC PC CC0 IA NA RA PA CA Hn (eq_sym ED) TC PR' SQ DR) as (s' & r' & G1 & G2 & G3). fold O E in G3. rewrite ED in G3.
  exists r, s. split; [exact H1|]. split; [exact H2|].
  assert (J : forall x y, Ok (if reg then x / INR n else x)%R = Ok (if reg then y / INR n else y)%R -> x = y).
  { intros x y J. injection J as J. destruct reg; [|exact J]. assert (INR n <> 0)%R by (apply not_0_INR; lia). apply (f_equal (fun z => z * INR n)%R) in J. unfold Rdiv in J. rewrite !Rmult_assoc, !Rinv_l, !Rmult_1_r in J by assumption. exact J. }
  assert (s' = s) by (apply J; rewrite <- G1; exact H2). assert (r' = r) by (apply J; rewrite <- G2; exact H1). subst s' r'. lra.
Qed.
(** ** C100 *)
Theorem C100_negative sp (a : kraus_arg CC) nq din dout orthogonal o0 past n rho reg : eigvalsh_ok eigvalsh ->
  kraus_init sp a nq din dout orthogonal = Ok o0 -> arg_matrices a <> [] -> sp = true \/ orthogonal = [] -> Forall (fun m => 1 <= m) past -> 1 <= n -> clean sp past n ->
  let D := din ^ fst nq in let O := dout ^ snd nq in let N := length (arg_matrices a) in
  trace_preserving D (arg_matrices a) -> environment_imitates O (arg_matrices a) -> is_square (D ^ n) rho -> density (D ^ n) (me rho) ->
  exists r, information (after (KrausType o0) past) rho n reg r /\ (r <= INR (Nat.min (N ^ n) (D ^ n * O ^ n)) * slack)%R.
Proof.
  intros OK I0 NE OR HP Hn CL D O N TP IM SQ DR. pose proof (fits0 sp a nq din dout orthogonal o0 I0 NE) as F. fold D O in F.
  destruct (value_near eigvalsh sqrtm OK sp a nq din dout orthogonal o0 I0 NE OR TP past n rho reg HP Hn CL (conj SQ DR)) as (r & t & E & T & B).
  exists r. split; [exact E|]. pose proof (imitated_neg O D _ n _ t F TP IM DR T) as K. fold O D N in B. cbv beta in B. lra.
Qed.
Theorem C100_positive sp (a : kraus_arg CC) nq din dout orthogonal o0 past n rho reg : eigvalsh_ok eigvalsh ->
  kraus_init sp a nq din dout orthogonal = Ok o0 -> arg_matrices a <> [] -> sp = true \/ orthogonal = [] -> Forall (fun m => 1 <= m) past -> 1 <= n -> clean sp past n ->
  let D := din ^ fst nq in let O := dout ^ snd nq in
  trace_preserving D (arg_matrices a) -> output_imitates O (arg_matrices a) -> is_square (D ^ n) rho -> density (D ^ n) (me rho) ->
  exists r, information (after (KrausType o0) past) rho n reg r /\ (- (INR (O ^ n) * slack) <= r)%R.
Proof.
  intros OK I0 NE OR HP Hn CL D O TP IM SQ DR. pose proof (fits0 sp a nq din dout orthogonal o0 I0 NE) as F. fold D O in F.
  destruct (value_near eigvalsh sqrtm OK sp a nq din dout orthogonal o0 I0 NE OR TP past n rho reg HP Hn CL (conj SQ DR)) as (r & t & E & T & B).
  exists r. split; [exact E|]. pose proof (imitates_pos O D _ n _ t F TP IM DR T) as K. fold O in B. lra.
Qed.
End C99.
Print Assumptions C99_processing.
Print Assumptions C99_sum.
Print Assumptions C99_undone.
Print Assumptions C100_negative.
Print Assumptions C100_positive.
(** two uses of the channel that changes nothing, followed by the one that resets its qubit *)
Definition id_ops : kraus_arg CC := OpList (keep 2).
Lemma id_chan : exists c, chan_init id_ops (1, 1) 2 2 [] false = Ok c.
Proof. apply (chan_init_iff id_ops (1, 1) 2 2 [] false); [discriminate|]. split; [apply (keep_fits 2)|apply tp_nearly, (keep_tp 2)]. Qed.
Lemma plus_state : state 2 plus. Proof. split; [split; reflexivity|exact plus_density]. Qed.
Example C99_case : exists eigvalsh cA cB c r s, eigvalsh_ok eigvalsh /\ chan_init id_ops (1, 1) 2 2 [] false = Ok cA /\ chan_init reset_ops (1, 1) 2 2 [] true = Ok cB /\
  chan_add (after cB [1]) (after cA [3; 1]) = Ok c /\
  information eigvalsh (fun A => A) (after cA [3; 1]) (tens_all [plus; plus]) 2 true r /\ information eigvalsh (fun A => A) (after c [2]) (tens_all [plus; plus]) 2 true s /\ (s <= r + 8 * slack)%R.
Proof.
  destruct eigvalsh_exists as (ev & OK). destruct id_chan as (cA & HA). destruct (reset_chan true) as (cB & HB).
  destruct (state_all 2 [plus; plus]) as [SQ DR]; [repeat constructor; apply plus_state|].
  destruct (C99_sum ev (fun A => A) false true id_ops reset_ops (1, 1) (1, 1) 2 2 2 2 [] [] cA cB [3; 1] [1] [2] 2 (tens_all [plus; plus]) true OK HA) as (c & r & s & H1 & H2 & H3 & H4);
    try first [discriminate|exact HB|right; reflexivity|repeat constructor; fail|lia|reflexivity|exact (keep_tp 2)|exact reset_tp|exact SQ|exact DR]; try (intros H; discriminate); try (intros _ H; discriminate H).
  exists ev, cA, cB, c, r, s. repeat (split; [assumption|]). replace (8 * slack)%R with ((INR 4 + INR 4) * slack)%R by (cbn; lra). exact H4.
Qed.
Example C100_case : environment_imitates 2 (arg_matrices reset_ops) /\ trace_preserving (K := CC) 2 (arg_matrices reset_ops) /\
  output_imitates 2 (arg_matrices id_ops) /\ trace_preserving (K := CC) 2 (arg_matrices id_ops).
Proof.
  split; [|split; [exact reset_tp|split; [|exact (keep_tp 2)]]].
  - exists (arg_matrices reset_ops). split; [repeat constructor|]. split; [exact reset_tp|]. intros rho i j Hi Hj.
    destruct i as [|[|i]]; [| |lia]; destruct j as [|[|j]]; try lia; destruct (rho 0 0) as [a0 a1] eqn:E0; destruct (rho 1 1) as [b0 b1] eqn:E1; apply CC_eq; cbn; rewrite ?E0, ?E1; cbn; ring.
  - exists [unit_mat 1 2 0 0; unit_mat 1 2 0 1]. split; [repeat constructor|]. split.
    + intros i j Hi Hj. destruct i as [|[|i]]; [| |lia]; destruct j as [|[|j]]; try lia; apply CC_eq; cbn; ring.
    + intros rho i j Hi Hj. cbn in Hi, Hj. destruct i as [|i]; [|lia]. destruct j as [|j]; [|lia]. apply CC_eq; cbn; ring.
Qed.
