(** Properties of the coherent information (C84-C86).
    Specification: EntropySpec.v, ChoiSpec.v, KrausSpec.v.  Model: ChannelModel.v, KrausModel.v.
    eigvalsh_ok says what numpy.linalg.eigvalsh is assumed to return on Hermitian matrices;
    SpectralExists.v shows that it can be met. *)
From Verif Require Import Py Scalar PauliModel PauliSpec EncoderProofs EighExists KrausModel KrausSpec KrausProofs KrausProofs2
  ChoiModel ChannelModel ChannelSpec ChoiSpec SpectralExists EntropySpec EntropyProofs CohProofs CohProofs2 CohProofs3 CohProofs4 KrausExamples.
From Coq Require Import Reals Lra.
Open Scope nat_scope.
Add Ring CCring35 : (s_rt CC).

(** ** C84 *)
Theorem C84_bounds eigvalsh sqrtm sp (a : kraus_arg CC) nq din dout orthogonal o0 past n rho reg : eigvalsh_ok eigvalsh ->
  kraus_init sp a nq din dout orthogonal = Ok o0 -> arg_matrices a <> [] -> sp = true \/ orthogonal = [] -> Forall (fun m => 1 <= m) past -> 1 <= n -> clean sp past n ->
  let D := (din ^ fst nq) ^ n in let D' := (dout ^ snd nq) ^ n in let N := length (arg_matrices a) ^ n in
  trace_preserving (din ^ fst nq) (arg_matrices a) -> is_square D rho -> density D (me rho) ->
  exists r s, snd (coherent_information eigvalsh sqrtm (after (KrausType o0) past) rho n reg) = Ok (if reg then r / INR n else r)%R /\
    von_neumann D (me rho) s /\ (0 <= s <= log2 (INR D))%R /\
    (- s - INR D' * slack <= r <= s + INR (Nat.min N (D * D')) * slack)%R.
Proof.
  intros OK I0 NE OR HP Hn CL D D' N TP SQ DR.
  destruct (coherent_bounds eigvalsh sqrtm OK sp a nq din dout orthogonal o0 past n I0 NE OR HP Hn CL rho reg TP SQ DR) as (r & s & E & V & B).
  exists r, s. split; [exact E|]. split; [exact V|]. split; [exact (von_bounds D (me rho) s DR V)|exact B].
Qed.
Theorem C84_pure eigvalsh sqrtm sp (a : kraus_arg CC) nq din dout orthogonal o0 past n rho v reg : eigvalsh_ok eigvalsh ->
  kraus_init sp a nq din dout orthogonal = Ok o0 -> arg_matrices a <> [] -> sp = true \/ orthogonal = [] -> Forall (fun m => 1 <= m) past -> 1 <= n -> clean sp past n ->
  let D := (din ^ fst nq) ^ n in is_square D rho -> eqm D D (me rho) (pure v) ->
  snd (coherent_information eigvalsh sqrtm (after (KrausType o0) past) rho n reg) = Ok 0%R.
Proof. intros OK I0 NE OR HP Hn CL D. exact (coherent_pure eigvalsh sqrtm OK sp a nq din dout orthogonal o0 past n I0 NE OR HP Hn CL rho v reg). Qed.
Theorem C84_isometry eigvalsh sqrtm sp (a : kraus_arg CC) nq din dout orthogonal o0 past n A rho reg : eigvalsh_ok eigvalsh ->
  kraus_init sp a nq din dout orthogonal = Ok o0 -> arg_matrices a = [A] -> sp = true \/ orthogonal = [] -> Forall (fun m => 1 <= m) past -> 1 <= n -> clean sp past n ->
  let D := (din ^ fst nq) ^ n in trace_preserving (din ^ fst nq) [A] -> is_square D rho -> density D (me rho) ->
  exists s, vn_entropy D (me rho) s /\ snd (coherent_information eigvalsh sqrtm (after (KrausType o0) past) rho n reg) = Ok (if reg then s / INR n else s)%R.
Proof. exact (coherent_single eigvalsh sqrtm sp a nq din dout orthogonal o0 past n A rho reg). Qed.
Print Assumptions C84_bounds.
Print Assumptions C84_pure.
Print Assumptions C84_isometry.
Example C84_case : exists eigvalsh o0, eigvalsh_ok eigvalsh /\ kraus_init false reset_ops (1, 1) 2 2 [] = Ok o0 /\ trace_preserving (K := CC) 2 (arg_matrices reset_ops) /\
  is_square 2 plus /\ density 2 (me plus) /\ snd (coherent_information eigvalsh (fun A => A) (after (KrausType o0) [3; 2]) plus 1 true) = Ok 0%R.
Proof.
  destruct eigvalsh_exists as (ev & OK). destruct (reset_init (K := CC) false) as (o0 & H0). exists ev, o0. split; [exact OK|]. split; [exact H0|]. split; [exact reset_tp|].
  assert (SQ : is_square 2 plus) by (split; reflexivity). split; [exact SQ|]. split; [exact plus_density|].
  apply (C84_pure ev (fun A => A) false reset_ops (1, 1) 2 2 [] o0 [3; 2] 1 plus (fun _ => ((sqrt (/ 2), 0)%R : CC)) true OK H0);
    [discriminate|right; reflexivity|repeat constructor|lia|intros H; discriminate|exact SQ|].
  intros i j _ _. unfold pure, plus. cbn [me]. assert (S : (sqrt (/ 2) * sqrt (/ 2) = / 2)%R) by (apply sqrt_sqrt; lra). apply CC_eq; cbn; rewrite ?S; lra.
Qed.

(** ** C85 *)
Section C85.
Variables (spA spB : bool) (a b : kraus_arg CC) (nqA nqB : nat * nat) (dinA doutA dinB doutB : nat) (orA orB : list nat) (oA oB : kraus CC) (pA pB : list nat) (n : nat).
Definition two_descriptions : Prop :=
  kraus_init spA a nqA dinA doutA orA = Ok oA /\ kraus_init spB b nqB dinB doutB orB = Ok oB /\ arg_matrices a <> [] /\ arg_matrices b <> [] /\
  Forall (fun m => 1 <= m) pA /\ Forall (fun m => 1 <= m) pB /\ 1 <= n /\ clean spA pA n /\ clean spB pB n /\
  dinA ^ fst nqA = dinB ^ fst nqB /\ doutA ^ snd nqA = doutB ^ snd nqB /\
  same_channel (doutA ^ snd nqA) (arg_matrices a) (arg_matrices b).
Theorem C85_channel rho (adjoint : bool) : two_descriptions ->
  is_square (if adjoint then (doutA ^ snd nqA) ^ n else (dinA ^ fst nqA) ^ n) rho ->
  exists x y, snd (chan_channel (after (KrausType oA) pA) rho n adjoint) = Ok x /\ snd (chan_channel (after (KrausType oB) pB) rho n adjoint) = Ok y /\ same_mat x y.
Proof.
  intros (IA & IB & NA & NB & PA & PB & Hn & CA & CB & ED & EO & SC) SQ.
  exact (same_result spA spB a b nqA nqB dinA doutA dinB doutB orA orB oA oB pA pB n IA IB NA NB PA PB Hn CA CB ED EO SC rho adjoint SQ).
Qed.
Theorem C85_coherent_information eigA sqA eigB sqB rho reg : two_descriptions -> eigvalsh_ok eigA -> eigvalsh_ok eigB ->
  spA = true \/ orA = [] -> spB = true \/ orB = [] -> let D := (dinA ^ fst nqA) ^ n in is_square D rho -> hermitian D (me rho) -> psd D (me rho) ->
  exists r, snd (coherent_information eigA sqA (after (KrausType oA) pA) rho n reg) = Ok r /\ snd (coherent_information eigB sqB (after (KrausType oB) pB) rho n reg) = Ok r.
Proof.
  intros (IA & IB & NA & NB & PA & PB & Hn & CA & CB & ED & EO & SC).
  exact (same_information spA spB a b nqA nqB dinA doutA dinB doutB orA orB oA oB pA pB n IA IB NA NB PA PB Hn CA CB ED EO SC eigA sqA eigB sqB rho reg).
Qed.
End C85.
Print Assumptions C85_channel.
Print Assumptions C85_coherent_information.
(** the reset channel with its two operators mixed by a real orthogonal matrix *)
Definition mixed_reset : kraus_arg CC :=
  OpList [MA 2 2 (fun i j => if Nat.eqb i 0 then (if Nat.eqb j 0 then ((3 / 5, 0)%R : CC) else ((4 / 5, 0)%R : CC)) else s0);
          MA 2 2 (fun i j => if Nat.eqb i 0 then (if Nat.eqb j 0 then ((4 / 5, 0)%R : CC) else ((- (3 / 5), 0)%R : CC)) else s0)].
Lemma mixed_same : same_channel 2 (arg_matrices reset_ops) (arg_matrices mixed_reset).
Proof.
  intros rho i j Hi Hj. unfold channel_map. cbn [reset_ops mixed_reset arg_matrices map]. rewrite !ksum_cons, !ksum_nil. unfold mm, adj, unit_mat. cbn [mr mc me bsum].
  destruct i as [|[|i]]; [| |lia]; destruct j as [|[|j]]; try lia; apply CC_eq; cbn; field.
Qed.
Example C85_case : exists oA oB, two_descriptions false true reset_ops mixed_reset (1, 1) (1, 1) 2 2 2 2 [] [] oA oB [3; 2] [2] 2.
Proof.
  destruct (reset_init (K := CC) false) as (oA & HA). exists oA. assert (HB : exists oB, kraus_init true mixed_reset (1, 1) 2 2 [] = Ok oB) by (eexists; reflexivity). destruct HB as (oB & HB). exists oB.
  unfold two_descriptions. split; [exact HA|]. split; [exact HB|]. split; [discriminate|]. split; [discriminate|]. split; [repeat constructor|]. split; [repeat constructor|]. split; [lia|].
  split; [intros H; discriminate|]. split; [intros _ H; discriminate|]. split; [reflexivity|]. split; [reflexivity|]. exact mixed_same.
Qed.

(** ** C86 *)
Theorem C86_product eigvalsh sqrtm sp (a : kraus_arg CC) nq din dout orthogonal o0 past rhos reg : eigvalsh_ok eigvalsh ->
  kraus_init sp a nq din dout orthogonal = Ok o0 -> arg_matrices a <> [] -> sp = true \/ orthogonal = [] -> Forall (fun m => 1 <= m) past ->
  let n := length rhos in let D := din ^ fst nq in let D' := dout ^ snd nq in
  let loss k := (INR (Nat.min (length (arg_matrices a) ^ k) (D ^ k * D' ^ k)) * slack)%R in
  1 <= n -> clean sp past n -> trace_preserving D (arg_matrices a) -> Forall (fun rho => is_square D rho /\ density D (me rho)) rhos ->
  exists r rs, snd (coherent_information eigvalsh sqrtm (after (KrausType o0) past) (tens_all rhos) n reg) = Ok (if reg then r / INR n else r)%R /\
    Forall2 (fun rho x => snd (coherent_information eigvalsh sqrtm (KrausType o0) rho 1 false) = Ok x) rhos rs /\
    (- (INR (D' ^ n)%nat * slack + INR n * loss 1%nat) <= r - fold_right Rplus 0 rs <= loss n + INR n * (INR D' * slack))%R.
Proof. intros OK I0 NE OR HP n D D' loss Hn CL TP S. exact (coherent_product eigvalsh sqrtm OK sp a nq din dout orthogonal o0 past I0 NE OR HP TP rhos reg Hn CL S). Qed.
Print Assumptions C86_product.
Example C86_case : exists eigvalsh o0, eigvalsh_ok eigvalsh /\ kraus_init true reset_ops (1, 1) 2 2 [] = Ok o0 /\
  exists r, snd (coherent_information eigvalsh (fun A => A) (after (KrausType o0) [4]) (tens_all [plus; plus; plus]) 3 true) = Ok (r / INR 3)%R /\ (- / 1000000 <= r <= / 1000000)%R.
Proof.
  destruct eigvalsh_exists as (ev & OK). destruct (reset_init (K := CC) true) as (o0 & H0). exists ev, o0. split; [exact OK|]. split; [exact H0|].
  assert (SQ : is_square 2 plus) by (split; reflexivity).
  destruct (C86_product ev (fun A => A) true reset_ops (1, 1) 2 2 [] o0 [4] [plus; plus; plus] true OK H0) as (r & rs & E & F & B);
    [discriminate|left; reflexivity|constructor; [lia|constructor]|cbn; lia|intros _ H; discriminate|exact reset_tp|constructor; [split; [exact SQ|exact plus_density]|constructor; [split; [exact SQ|exact plus_density]|constructor; [split; [exact SQ|exact plus_density]|constructor]]]|].
  exists r. split; [exact E|].
  assert (Z : snd (coherent_information ev (fun A => A) (KrausType o0) plus 1 false) = Ok 0%R).
  { apply (C84_pure ev (fun A => A) true reset_ops (1, 1) 2 2 [] o0 [] 1 plus (fun _ => ((sqrt (/ 2), 0)%R : CC)) false OK H0);
      [discriminate|left; reflexivity|constructor|lia|intros _ _; constructor|exact SQ|].
    intros i j _ _. unfold pure, plus. cbn [me]. assert (S : (sqrt (/ 2) * sqrt (/ 2) = / 2)%R) by (apply sqrt_sqrt; lra). apply CC_eq; cbn; rewrite ?S; lra. }
  assert (R0 : fold_right Rplus 0%R rs = 0%R).
  { clear -F Z. assert (G : forall l, Forall (fun x => x = plus) l -> forall rs, Forall2 (fun rho x => snd (coherent_information ev (fun A => A) (KrausType o0) rho 1 false) = Ok x) l rs -> fold_right Rplus 0%R rs = 0%R).
    { intros l H. induction H as [|x l -> H IH]; intros rs' F'; inversion F' as [|? y ? ys E1 E2]; subst; [reflexivity|]. cbn. rewrite (IH _ E2). rewrite Z in E1. injection E1 as <-. lra. }
    apply (G [plus; plus; plus]); [repeat constructor|exact F]. }
  rewrite R0 in B. unfold slack in B. cbn in B. lra.
Qed.
