(** Channels that map the identity to the identity (C108 to C110).
    Specification: UnitalSpec.v, KrausSpec.v, EntropySpec.v.  Model: ChannelModel.v, KrausModel.v. *)
From Verif Require Import KrausProofs3 Py Scalar PauliModel PauliSpec EncoderProofs EighExists KrausModel KrausSpec KrausProofs KrausProofs2 KrausProofs5 KrausProofs6 KrausProofs8 KrausProofs12
  ChoiModel ChannelModel ChannelSpec ChoiSpec ChoiProofs2 SpectralExists EntropySpec EntropyProofs CohProofs CohProofs2 KrausExamples PropsKraus PropsChoi UnitalSpec UnitalProofs2.
From Coq Require Import Reals Lra.
Open Scope nat_scope.
Add Ring CCring52 : (s_rt CC).

(** ** C108 *)
Theorem C108_identity sp (a : kraus_arg CC) nq din dout orthogonal o0 past n :
  kraus_init sp a nq din dout orthogonal = Ok o0 -> arg_matrices a <> [] -> Forall (fun m => 1 <= m) past -> 1 <= n -> clean sp past n -> 0 < din ->
  let D := (din ^ fst nq) ^ n in let D' := (dout ^ snd nq) ^ n in
  exists out, snd (chan_channel (after (KrausType o0) past) (MA D D eye) n false) = Ok out /\ is_square D' out /\
    (eqm D' D' (me out) eye <-> unital (dout ^ snd nq) (arg_matrices a)).
Proof.
  intros H NE HP Hn CL Hd D D'. destruct (C31_channel sp a nq din dout orthogonal o0 past n (MA D D eye) H NE HP Hn CL) as (out & E & SQ & M & _); [split; reflexivity|].
  exists out. split; [exact E|]. split; [exact SQ|]. pose proof (KrausProofs12.fits0 sp a nq din dout orthogonal o0 H NE) as F.
  assert (Hd' : 0 < din ^ fst nq) by (pose proof (Nat.pow_nonzero din (fst nq)); lia).
  rewrite <- (unital_power (dout ^ snd nq) (din ^ fst nq) (arg_matrices a) n F Hd' Hn). cbn [me] in M. split; intros X i j Hi Hj.
  - rewrite <- (M i j Hi Hj). apply X; assumption.
  - rewrite (M i j Hi Hj). apply X; assumption.
Qed.
Print Assumptions C108_identity.

(** ** C109 *)
Theorem C109_entropy eigvalsh sp (a : kraus_arg CC) nq din dout orthogonal o0 past n rho : eigvalsh_ok eigvalsh ->
  kraus_init sp a nq din dout orthogonal = Ok o0 -> arg_matrices a <> [] -> Forall (fun m => 1 <= m) past -> 1 <= n -> clean sp past n -> 0 < din ->
  let D := (din ^ fst nq) ^ n in dout ^ snd nq = din ^ fst nq ->
  trace_preserving (din ^ fst nq) (arg_matrices a) -> unital (dout ^ snd nq) (arg_matrices a) -> is_square D rho -> density D (me rho) ->
  exists out x y, snd (chan_channel (after (KrausType o0) past) rho n false) = Ok out /\
    entropy eigvalsh [rho] = Ok x /\ entropy eigvalsh [out] = Ok y /\ (x <= y + INR D * slack)%R /\
    forall s t, von_neumann D (me rho) s -> von_neumann D (me out) t -> (s <= t)%R.
Proof.
  intros OK H NE HP Hn CL Hd D ED TP U SQ DR.
  destruct (C31_channel sp a nq din dout orthogonal o0 past n rho H NE HP Hn CL SQ) as (out & E & SQ' & M & _ & _ & T). destruct (T TP) as [_ DO]. specialize (DO DR). rewrite ED in SQ', M, DO. fold D in SQ', M, DO.
  pose proof (KrausProofs12.fits0 sp a nq din dout orthogonal o0 H NE) as F. rewrite ED in F, U.
  assert (Hd' : 0 < din ^ fst nq) by (pose proof (Nat.pow_nonzero din (fst nq)); lia).
  pose proof (fits_power _ _ _ n F) as Fn. pose proof (tp_power _ _ _ n F TP) as Tn. fold D in Fn, Tn.
  assert (Un : unital D (power_ops (arg_matrices a) n)).
  { intros i j Hi Hj. rewrite <- (unital_map D D _ Fn). apply (unital_power (din ^ fst nq) (din ^ fst nq) (arg_matrices a) n F Hd' Hn); assumption. }
  assert (X : forall s t, von_neumann D (me rho) s -> von_neumann D (me out) t -> (s <= t)%R).
  { intros s t V W. apply (unital_entropy D (power_ops (arg_matrices a) n) (me rho) s t Fn Tn Un DR V). revert W. apply von_ext. exact M. }
  destruct (C69_density eigvalsh D rho OK SQ DR) as (x & Ex & Vx & _). destruct (C69_density eigvalsh D out OK SQ' DO) as (y & Ey & Vy & _).
  exists out, x, y. split; [exact E|]. split; [exact Ex|]. split; [exact Ey|]. split; [|exact X].
  destruct (von_exists _ _ (proj1 DR)) as (s & Vs). destruct (von_exists _ _ (proj1 DO)) as (t & Vt).
  pose proof (vn_von D _ _ _ DR Vx Vs). pose proof (vn_von D _ _ _ DO Vy Vt). specialize (X s t Vs Vt). lra.
Qed.
Print Assumptions C109_entropy.
Theorem C109_exactly sp (a : kraus_arg CC) nq din dout orthogonal o0 past n :
  kraus_init sp a nq din dout orthogonal = Ok o0 -> arg_matrices a <> [] -> Forall (fun m => 1 <= m) past -> 1 <= n -> clean sp past n -> 0 < din ->
  let D := (din ^ fst nq) ^ n in dout ^ snd nq = din ^ fst nq -> trace_preserving (din ^ fst nq) (arg_matrices a) ->
  (unital (dout ^ snd nq) (arg_matrices a) <->
   forall rho out s t, is_square D rho -> density D (me rho) -> snd (chan_channel (after (KrausType o0) past) rho n false) = Ok out ->
     von_neumann D (me rho) s -> von_neumann D (me out) t -> (s <= t)%R).
Proof.
  intros H NE HP Hn CL Hd D ED TP. split.
  - intros U rho out s t SQ DR E V W. destruct eigvalsh_exists as (ev & OK).
    destruct (C109_entropy ev sp a nq din dout orthogonal o0 past n rho OK H NE HP Hn CL Hd ED TP U SQ DR) as (out' & x & y & E' & _ & _ & _ & X).
    rewrite E in E'. injection E' as <-. exact (X s t V W).
  - intros X. pose proof (KrausProofs12.fits0 sp a nq din dout orthogonal o0 H NE) as F. rewrite ED in F |- *.
    assert (Hd' : 0 < din ^ fst nq) by (pose proof (Nat.pow_nonzero din (fst nq)); lia). assert (HD : 0 < D) by (pose proof (Nat.pow_nonzero (din ^ fst nq) n); unfold D; lia).
    pose proof (fits_power _ _ _ n F) as Fn. pose proof (tp_power _ _ _ n F TP) as Tn. fold D in Fn, Tn.
    apply (unital_power (din ^ fst nq) (din ^ fst nq) (arg_matrices a) n F Hd' Hn).
    assert (Un : unital D (power_ops (arg_matrices a) n)).
    { apply unital_only; try assumption. intros rho s t DR V W.
      destruct (C31_channel sp a nq din dout orthogonal o0 past n (MA D D rho) H NE HP Hn CL) as (out & E & SQ' & M & _); [split; reflexivity|]. rewrite ED in M. fold D in M. cbn [me] in M.
      apply (X (MA D D rho) out s t); [split; reflexivity|exact DR|exact E|exact V|]. revert W. apply von_ext. intros i j Hi Hj. symmetry. apply M; assumption. }
    intros i j Hi Hj. rewrite (unital_map D D _ Fn). apply Un; assumption.
Qed.
Print Assumptions C109_exactly.

(** ** C110: README.md, L31-L42; [flip_list a b] are the operators a I and b X *)
Definition flip_list (a b : R) : kraus_arg CC :=
  OpList [MA 2 2 (fun i j => ((if Nat.eqb i j then a else 0%R, 0%R) : CC)); MA 2 2 (fun i j => ((if Nat.eqb i j then 0%R else b, 0%R) : CC))].
Theorem C110_refuted p orthogonal sp : (0 <= p <= 1)%R -> (/ 100000 <= 2 * p * (1 - p))%R ->
  chan_init (flip_list (1 - p) p) (1, 1) 2 2 orthogonal sp = Err AssertionError.
Proof.
  intros Hp Hq. assert (F : fits 2 2 (arg_matrices (flip_list (1 - p) p))) by repeat constructor. assert (NE : arg_matrices (flip_list (1 - p) p) <> []) by discriminate.
  destruct (chan_init (flip_list (1 - p) p) (1, 1) 2 2 orthogonal sp) as [c|e] eqn:E.
  - exfalso. destruct (proj1 (chan_init_iff (flip_list (1 - p) p) (1, 1) 2 2 orthogonal sp NE) (ex_intro _ c E)) as [_ T]. specialize (T 0 0 ltac:(cbn; lia) ltac:(cbn; lia)).
    match type of T with (Cmod ?z < _)%R => assert (Z : z = ((- (2 * p * (1 - p)))%R, 0%R) :> CC) end.
    { unfold ksum, adj, mm, eye. cbn. apply pair_equal_spec; split; cbn; ring. }
    rewrite Z in T. pose proof (Cmod_sq ((- (2 * p * (1 - p)))%R, 0%R)) as Q. cbn [fst snd] in Q. match type of T with (Cmod ?z < _)%R => assert (0 <= Cmod z)%R by apply sqrt_pos end. set (y := (2 * p * (1 - p))%R) in *. set (m := Cmod _) in *. nra.
  - unfold chan_init in E. destruct (kraus_init sp (flip_list (1 - p) p) (1, 1) 2 2 (if sp then [] else orthogonal)) as [k|e'] eqn:EK.
    + cbn [bind] in E. unfold assert_ in E. destruct (is_trace_perserving k); [discriminate|]. cbn [bind] in E. injection E as <-. reflexivity.
    + exfalso. assert (KI : exists k, kraus_init sp (flip_list (1 - p) p) (1, 1) 2 2 (if sp then [] else orthogonal) = Ok k).
      { eexists. apply kraus_init_ok. eexists. split; [reflexivity|]. split; [exact F|reflexivity]. }
      destruct KI as (k & KI). congruence.
Qed.
Lemma Bool_same {A} (b : bool) (x : A) : (if b then x else x) = x. Proof. destruct b; reflexivity. Qed.
Theorem C110_square_roots_partial p sp : (0 <= p <= 1)%R ->
  exists o, chan_init (flip_list (sqrt (1 - p)) (sqrt p)) (1, 1) 2 2 [] sp = Ok (KrausType o) /\
  (forall rho past, is_square 2 rho -> Forall (fun m => 1 <= m) past -> clean sp past 1 ->
     exists out, snd (chan_channel (after (KrausType o) past) rho 1 false) = Ok out /\ is_square 2 out /\
     forall i j, i < 2 -> j < 2 -> me out i j = sadd (smul (((1 - p)%R, 0%R) : CC) (me rho i j)) (smul ((p, 0%R) : CC) (me rho (1 - i)%nat (1 - j)%nat))) /\
  forall n past, 1 <= n -> Forall (fun m => 1 <= m) past -> clean sp past n ->
     exists out, snd (chan_channel (after (KrausType o) past) (MA (2 ^ n) (2 ^ n) eye) n false) = Ok out /\ is_square (2 ^ n) out /\ eqm (2 ^ n) (2 ^ n) (me out) eye.
Proof.
  intros Hp. pose proof (sqrt_sqrt p ltac:(lra)) as Q1. pose proof (sqrt_sqrt (1 - p) ltac:(lra)) as Q2. set (u := sqrt (1 - p)) in *. set (v := sqrt p) in *.
  assert (F : fits 2 2 (arg_matrices (flip_list u v))) by repeat constructor. assert (NE : arg_matrices (flip_list u v) <> []) by discriminate.
  assert (TP : trace_preserving 2 (arg_matrices (flip_list u v))).
  { intros i j Hi Hj. destruct i as [|[|i]]; [| |lia]; (destruct j as [|[|j]]; [| |lia]); unfold ksum, adj, mm, eye; cbn; apply pair_equal_spec; split; cbn; nra. }
  assert (U : unital 2 (arg_matrices (flip_list u v))).
  { intros i j Hi Hj. destruct i as [|[|i]]; [| |lia]; (destruct j as [|[|j]]; [| |lia]); unfold ksum, adj, mm, eye; cbn; apply pair_equal_spec; split; cbn; nra. }
  destruct (proj2 (chan_init_iff (flip_list u v) (1, 1) 2 2 [] sp NE) (conj F (C42_exact _ _ TP))) as (c & E). destruct (chan_init_made _ _ _ _ _ _ _ E) as (o & -> & KI). rewrite Bool_same in KI.
  exists o. split; [exact E|]. split.
  - intros rho past SQ HP CL. destruct (C31_channel sp (flip_list u v) (1, 1) 2 2 [] o past 1 rho KI NE HP (le_n 1) CL SQ) as (out & EO & SO & M & _).
    exists out. split; [exact EO|]. split; [exact SO|]. intros i j Hi Hj. rewrite (M i j Hi Hj).
    rewrite (channel_map_same 2 2 (power_ops (arg_matrices (flip_list u v)) 1) (arg_matrices (flip_list u v)) (me rho) (me rho)); [|exact (fits_power 2 2 _ 1 F)| | apply eqm_refl|exact Hi|exact Hj].
    + replace p with (v * v)%R by exact Q1. replace (1 - v * v)%R with (u * u)%R by (rewrite Q1, Q2; reflexivity).
      destruct i as [|[|i]]; [| |lia]; (destruct j as [|[|j]]; [| |lia]); unfold channel_map, ksum, adj, mm; cbn; apply pair_equal_spec; split; cbn; ring.
    + apply same_ops_sym, power_ops_1.
  - intros n past Hn HP CL. destruct (C108_identity sp (flip_list u v) (1, 1) 2 2 [] o past n KI NE HP Hn CL ltac:(lia)) as (out & EO & SO & I).
    exists out. split; [exact EO|]. split; [exact SO|]. apply I, U.
Qed.
Print Assumptions C110_refuted.
Print Assumptions C110_square_roots_partial.
Example C110_case : (0 <= 1 / 4 <= 1)%R /\ (/ 100000 <= 2 * (1 / 4) * (1 - 1 / 4))%R.
Proof. split; lra. Qed.
Lemma flip34 : trace_preserving 2 (arg_matrices (flip_list (3 / 5) (4 / 5))) /\ unital 2 (arg_matrices (flip_list (3 / 5) (4 / 5))).
Proof. split; intros i j Hi Hj; destruct i as [|[|i]]; try lia; destruct j as [|[|j]]; try lia; unfold ksum, adj, mm, eye; cbn; apply pair_equal_spec; split; cbn; lra. Qed.
(** both sides of C108's "exactly when" are met: a bit flip with chance 16/25 is unital, the reset channel is not *)
Example C108_case : (exists o, kraus_init false (flip_list (3 / 5) (4 / 5)) (1, 1) 2 2 [] = Ok o) /\ unital 2 (arg_matrices (flip_list (3 / 5) (4 / 5))) /\
  (exists o, kraus_init (K := CC) true reset_ops (1, 1) 2 2 [] = Ok o) /\ ~ unital 2 (arg_matrices (reset_ops (K := CC))).
Proof.
  split; [eexists; apply kraus_init_ok; eexists; split; [reflexivity|]; split; [repeat constructor|reflexivity]|]. split; [apply flip34|]. split; [apply reset_init|].
  intros U. specialize (U 1 1 ltac:(lia) ltac:(lia)). unfold ksum, adj, mm, eye in U. cbn in U. apply (f_equal fst) in U. cbn in U. lra.
Qed.
Example C109_case : exists eigvalsh o, eigvalsh_ok eigvalsh /\ kraus_init false (flip_list (3 / 5) (4 / 5)) (1, 1) 2 2 [] = Ok o /\
  trace_preserving 2 (arg_matrices (flip_list (3 / 5) (4 / 5))) /\ unital 2 (arg_matrices (flip_list (3 / 5) (4 / 5))) /\ is_square 2 plus /\ density 2 (me plus) /\
  exists out x y, snd (chan_channel (KrausType o) plus 1 false) = Ok out /\ entropy eigvalsh [plus] = Ok x /\ entropy eigvalsh [out] = Ok y /\ (x <= y + 2 * slack)%R.
Proof.
  destruct eigvalsh_exists as (ev & OK). assert (H : exists o, kraus_init false (flip_list (3 / 5) (4 / 5)) (1, 1) 2 2 [] = Ok o) by (eexists; apply kraus_init_ok; eexists; split; [reflexivity|]; split; [repeat constructor|reflexivity]).
  destruct H as (o & H). destruct flip34 as [T U]. destruct C69_case as (_ & D & _). exists ev, o. split; [exact OK|]. split; [exact H|]. split; [exact T|]. split; [exact U|]. split; [split; reflexivity|]. split; [exact D|].
  destruct (C109_entropy ev false _ (1, 1) 2 2 [] o [] 1 plus OK H ltac:(discriminate) ltac:(constructor) (le_n 1) ltac:(intros E; discriminate) ltac:(lia) eq_refl T U ltac:(split; reflexivity) D) as (out & x & y & E1 & E2 & E3 & L & _).
  exists out, x, y. repeat split; auto. 
Qed.
