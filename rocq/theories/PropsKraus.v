(** Properties of Kraus channels (C28-C43, C49).  Specification: KrausSpec.v, ChannelSpec.v.
    Model: KrausModel.v, ChannelModel.v.  Everywhere [past] is an arbitrary history of
    earlier arguments n, all at least 1, and [clean] only restricts sparse channels: n = 1
    may not be asked for after a larger n (C29_stale_partial says what happens then). *)
From Verif Require Import Py Scalar PauliModel PauliSpec KrausModel KrausSpec KrausProofs KrausProofs2 KrausProofs3 KrausProofs4 KrausProofs5 KrausProofs6 KrausProofs7
  KrausProofs8 KrausProofs9 KrausProofs10 KrausProofs11 KrausProofs12 ChoiModel ChannelModel ChannelSpec KrausExamples.
From Coq Require Import Reals Lra.
Open Scope nat_scope.

(** ** C28 *)
Theorem C28_dense_history (K : StarRing) (a : kraus_arg K) nq din dout orthogonal o0 past n :
  kraus_init false a nq din dout orthogonal = Ok o0 -> arg_matrices a <> [] -> Forall (fun m => 1 <= m) past -> 1 <= n ->
  let o := run_updates o0 (past ++ [n]) in
  snd (update_kraus_operators (run_updates o0 past) n) = Ok tt /\ current_n o = n /\
  same_ops (slices (nth_ops o)) (power_ops (arg_matrices a) n) /\
  exchange_tensor (power_ops (arg_matrices a) n) (nth_exch o) ((din ^ fst nq) ^ n).
Proof. intros H NE HP Hn. destruct (history_updates false a nq din dout orthogonal o0 past n H NE HP Hn) as (A & B & C & D & _); [discriminate|]. auto. Qed.
Print Assumptions C28_dense_history.
Example C28_case : exists o0 : kraus GI, kraus_init false reset_ops (1, 1) 2 2 [] = Ok o0 /\ Forall (fun m => 1 <= m) [3; 1; 2] /\
  t0 (nth_ops (run_updates o0 [3; 1; 2])) = 4 /\ entries (slice0 (nth_ops (run_updates o0 [3; 1; 2])) 1) = [[(0, 0); (1, 0); (0, 0); (0, 0)]; [(0, 0); (0, 0); (0, 0); (0, 0)]; [(0, 0); (0, 0); (0, 0); (0, 0)]; [(0, 0); (0, 0); (0, 0); (0, 0)]]%Z.
Proof. eexists. split; [reflexivity|]. split; [repeat constructor|]. split; vm_compute; reflexivity. Qed.

(** ** C29: exact behaviour of the sparse class *)
Theorem C29_sparse_history_partial (K : StarRing) (a : kraus_arg K) nq din dout orthogonal o0 past n :
  kraus_init true a nq din dout orthogonal = Ok o0 -> arg_matrices a <> [] -> Forall (fun m => 1 <= m) past -> 1 <= n ->
  (n = 1 -> ~ went_up past) ->
  let o := run_updates o0 (past ++ [n]) in
  snd (update_kraus_operators (run_updates o0 past) n) = Ok tt /\ current_n o = n /\
  same_ops (slices (nth_ops o)) (power_ops (arg_matrices a) n) /\
  exchange_tensor (power_ops (arg_matrices a) n) (nth_exch o) ((din ^ fst nq) ^ n) /\ nth_conj o = ctrans (nth_ops o).
Proof.
  intros H NE HP Hn C. destruct (history_updates true a nq din dout orthogonal o0 past n H NE HP Hn) as (A & B & D & E & F); [|auto 6].
  intros _ N1. rewrite Forall_forall in *. intros m Hm. specialize (HP m Hm). destruct (Nat.eq_dec m 1); [assumption|]. exfalso. apply (C N1). exists m. split; [exact Hm|lia].
Qed.
Theorem C29_stale_partial (K : StarRing) (a : kraus_arg K) nq din dout orthogonal o0 past :
  kraus_init true a nq din dout orthogonal = Ok o0 -> arg_matrices a <> [] -> Forall (fun m => 1 <= m) past -> 2 <= dout ^ snd nq -> went_up past ->
  snd (update_kraus_operators (run_updates o0 past) 1) = Err ValueError.
Proof. exact (sparse_stale a nq din dout orthogonal o0 past). Qed.
Theorem C29_stale_channel_partial (K : StarRing) (a : kraus_arg K) nq din dout orthogonal o0 past rho :
  kraus_init true a nq din dout orthogonal = Ok o0 -> arg_matrices a <> [] -> Forall (fun m => 1 <= m) past -> 2 <= dout ^ snd nq -> 2 <= din ^ fst nq -> went_up past ->
  is_square (din ^ fst nq) rho -> snd (chan_channel (after (KrausType o0) past) rho 1 false) = Err ValueError.
Proof. exact (sparse_stale_channel a nq din dout orthogonal o0 past rho). Qed.
(** whereas the dense class computes the channel *)
Theorem C29_refuted : exists (o d : kraus GI) rho, kraus_init true reset_ops (1, 1) 2 2 [] = Ok o /\ kraus_init false reset_ops (1, 1) 2 2 [] = Ok d /\ is_square 2 rho /\
  snd (chan_channel (after (KrausType o) [2]) rho 1 false) = Err ValueError /\
  (exists out, snd (chan_channel (after (KrausType d) [2]) rho 1 false) = Ok out) /\ (exists out, snd (chan_channel (KrausType o) rho 1 false) = Ok out).
Proof.
  destruct (kraus_init true (reset_ops (K := GI)) (1, 1) 2 2 []) as [o|] eqn:Eo; [|discriminate Eo]. destruct (kraus_init false (reset_ops (K := GI)) (1, 1) 2 2 []) as [d|] eqn:Ed; [|discriminate Ed].
  exists o, d, (diag_mat (K := GI) [(1, 0); (2, 0)]%Z). split; [reflexivity|]. split; [reflexivity|]. split; [split; reflexivity|]. split.
  - apply (sparse_stale_channel reset_ops (1, 1) 2 2 [] o [2] _ Eo); [discriminate|repeat constructor|cbn; lia|cbn; lia|exists 2; split; [left; reflexivity|lia]|split; reflexivity].
  - split.
    + destruct (channel_run false reset_ops (1, 1) 2 2 [] d [2] 1 (diag_mat (K := GI) [(1, 0); (2, 0)]%Z) Ed) as (out & H & _); [discriminate|repeat constructor|lia|discriminate|split; reflexivity|]. exists out. exact H.
    + destruct (channel_run true reset_ops (1, 1) 2 2 [] o [] 1 (diag_mat (K := GI) [(1, 0); (2, 0)]%Z) Eo) as (out & H & _); [discriminate|constructor|lia|intros _ _; constructor|split; reflexivity|]. exists out. exact H.
Qed.
Print Assumptions C29_sparse_history_partial.
Print Assumptions C29_stale_partial.
Print Assumptions C29_stale_channel_partial.
Print Assumptions C29_refuted.
Example C29_case : exists o0 : kraus GI, kraus_init true reset_ops (1, 1) 2 2 [] = Ok o0 /\ 2 <= 2 ^ 1 /\ went_up [1; 3; 2] /\ ~ went_up [1; 1] /\
  snd (update_kraus_operators (run_updates o0 [1; 3; 2]) 1) = Err ValueError /\ snd (update_kraus_operators (run_updates o0 [1; 3]) 2) = Ok tt.
Proof.
  eexists. split; [reflexivity|]. split; [cbn; lia|]. split; [exists 3; split; [right; left; reflexivity|lia]|]. split; [intros (m & [<-|[<-|[]]] & H); lia|]. split; vm_compute; reflexivity.
Qed.

(** ** C30: the answer to any call is the one a new object would give *)
Theorem C30_history_independent eigvalsh sqrtm (a : kraus_arg CC) nq din dout orthogonal o0 xs x :
  kraus_init false a nq din dout orthogonal = Ok o0 -> arg_matrices a <> [] -> Forall (fun y => Forall (fun m => 1 <= m) (asks y)) (xs ++ [x]) ->
  snd (perform eigvalsh sqrtm (performed eigvalsh sqrtm (KrausType o0) xs) x) = snd (perform eigvalsh sqrtm (KrausType o0) x).
Proof. intros H NE HP. apply (answers eigvalsh sqrtm false a nq din dout orthogonal o0 xs x H NE HP). discriminate. Qed.
Theorem C30_sparse eigvalsh sqrtm (a : kraus_arg CC) nq din dout o0 xs x :
  kraus_init true a nq din dout [] = Ok o0 -> arg_matrices a <> [] -> Forall (fun y => Forall (fun m => 1 <= m) (asks y)) (xs ++ [x]) ->
  (In 1 (asks x) -> ~ went_up (flat_map asks xs)) ->
  snd (perform eigvalsh sqrtm (performed eigvalsh sqrtm (KrausType o0) xs) x) = snd (perform eigvalsh sqrtm (KrausType o0) x).
Proof.
  intros H NE HP W. apply (answers eigvalsh sqrtm true a nq din dout [] o0 xs x H NE HP). intros n Hn _ N1. subst n. specialize (W Hn). apply Forall_app in HP. destruct HP as [HP _].
  apply Forall_flat_map in HP. rewrite Forall_forall in *. intros m Hm. specialize (HP m Hm). destruct (Nat.eq_dec m 1); [assumption|]. exfalso. apply W. exists m. split; [exact Hm|lia].
Qed.
Print Assumptions C30_history_independent.
Print Assumptions C30_sparse.
Example C30_case : exists o0 : kraus CC, kraus_init false reset_ops (1, 1) 2 2 [] = Ok o0 /\
  Forall (fun y => Forall (fun m => 1 <= m) (asks y)) ([Channel (MA 4 4 eye) 2 false; CoherentInformation (MA 8 8 eye) 3 true; Exchange (MA 2 2 eye) 1] ++ [FidelityTwoStates (MA 4 4 eye) 2]).
Proof. eexists. split; [reflexivity|]. repeat constructor. Qed.

(** ** C31 *)
Theorem C31_channel sp (a : kraus_arg CC) nq din dout orthogonal o0 past n rho :
  kraus_init sp a nq din dout orthogonal = Ok o0 -> arg_matrices a <> [] -> Forall (fun m => 1 <= m) past -> 1 <= n -> clean sp past n ->
  let D := (din ^ fst nq) ^ n in let D' := (dout ^ snd nq) ^ n in is_square D rho ->
  exists out, snd (chan_channel (after (KrausType o0) past) rho n false) = Ok out /\ is_square D' out /\
    eqm D' D' (me out) (channel_map (power_ops (arg_matrices a) n) (me rho)) /\
    (psd D (me rho) -> psd D' (me out)) /\ (hermitian D (me rho) -> hermitian D' (me out)) /\
    (trace_preserving (din ^ fst nq) (arg_matrices a) -> tr D' (me out) = tr D (me rho) /\ (density D (me rho) -> density D' (me out))).
Proof. exact (c31 sp a nq din dout orthogonal o0 past n rho). Qed.
Theorem C31_wrong_shape (K : StarRing) sp (a : kraus_arg K) nq din dout orthogonal o0 past n rho :
  kraus_init sp a nq din dout orthogonal = Ok o0 -> arg_matrices a <> [] -> Forall (fun m => 1 <= m) past -> 1 <= n -> clean sp past n ->
  ~ is_square ((din ^ fst nq) ^ n) rho -> snd (chan_channel (after (KrausType o0) past) rho n false) = Err ValueError.
Proof. exact (channel_run_err sp a nq din dout orthogonal o0 past n rho). Qed.
Print Assumptions C31_channel.
Print Assumptions C31_wrong_shape.
Example C31_case : (exists o0 : kraus CC, kraus_init true reset_ops (1, 1) 2 2 [] = Ok o0) /\ trace_preserving (K := CC) 2 (arg_matrices reset_ops) /\ clean true [1; 3; 2] 2.
Proof. split; [apply reset_init|]. split; [apply reset_tp|]. intros _ H. discriminate. Qed.
Example C31_case_value : exists o0 : kraus GI, kraus_init true reset_ops (1, 1) 2 2 [] = Ok o0 /\
  match snd (chan_channel (after (KrausType o0) [1; 3]) (diag_mat (K := GI) [(1, 0); (2, 0); (3, 0); (4, 0)]%Z) 2 false) with
  | Ok out => entries out = [[(10, 0); (0, 0); (0, 0); (0, 0)]; [(0, 0); (0, 0); (0, 0); (0, 0)]; [(0, 0); (0, 0); (0, 0); (0, 0)]; [(0, 0); (0, 0); (0, 0); (0, 0)]]%Z
  | Err _ => False end.
Proof. eexists. split; [reflexivity|vm_compute; reflexivity]. Qed.

(** ** C32 *)
Theorem C32_adjoint (K : StarRing) sp (a : kraus_arg K) nq din dout orthogonal o0 past n :
  kraus_init sp a nq din dout orthogonal = Ok o0 -> arg_matrices a <> [] -> Forall (fun m => 1 <= m) past -> 1 <= n -> clean sp past n ->
  let D := (din ^ fst nq) ^ n in let D' := (dout ^ snd nq) ^ n in
  forall rho X, is_square D rho -> is_square D' X -> exists N A,
    snd (chan_channel (after (KrausType o0) past) rho n false) = Ok N /\ snd (chan_channel (after (KrausType o0) past) X n true) = Ok A /\
    is_square D' N /\ is_square D A /\ tr D' (mm D' (me X) (me N)) = tr D (mm D (me A) (me rho)).
Proof. exact (c32_dual (K := K) sp a nq din dout orthogonal o0 past n). Qed.
Theorem C32_unital (K : StarRing) sp (a : kraus_arg K) nq din dout orthogonal o0 past n :
  kraus_init sp a nq din dout orthogonal = Ok o0 -> arg_matrices a <> [] -> Forall (fun m => 1 <= m) past -> 1 <= n -> clean sp past n ->
  let D := (din ^ fst nq) ^ n in let D' := (dout ^ snd nq) ^ n in
  exists A, snd (chan_channel (after (KrausType o0) past) (MA D' D' eye) n true) = Ok A /\ is_square D A /\
    (eqm D D (me A) eye <-> trace_preserving D (power_ops (arg_matrices a) n)) /\ (trace_preserving (din ^ fst nq) (arg_matrices a) -> eqm D D (me A) eye).
Proof. exact (c32_unital (K := K) sp a nq din dout orthogonal o0 past n). Qed.
Print Assumptions C32_adjoint.
Print Assumptions C32_unital.
Example C32_case : exists o0 : kraus GI, kraus_init false reset_ops (1, 1) 2 2 [] = Ok o0 /\
  match snd (chan_channel (after (KrausType o0) [2]) (MA 2 2 (fun i j => (Z.of_nat (i + 1), Z.of_nat j) : GI)) 1 true) with
  | Ok A => entries A = [[(1, 0); (0, 0)]; [(0, 0); (1, 0)]]%Z | Err _ => False end.
Proof. eexists. split; [reflexivity|vm_compute; reflexivity]. Qed.

(** ** C33 *)
Theorem C33_factorwise (K : StarRing) sp (a : kraus_arg K) nq din dout orthogonal o0 past n :
  kraus_init sp a nq din dout orthogonal = Ok o0 -> arg_matrices a <> [] -> Forall (fun m => 1 <= m) past -> 1 <= n -> clean sp past n ->
  forall rhos, length rhos = n -> Forall (is_square (din ^ fst nq)) rhos ->
  exists outs out, Forall2 (fun rho x => snd (chan_channel (KrausType o0) rho 1 false) = Ok x) rhos outs /\
    snd (chan_channel (after (KrausType o0) past) (tens_all rhos) n false) = Ok out /\ same_mat out (tens_all outs).
Proof. exact (c33 (K := K) sp a nq din dout orthogonal o0 past n). Qed.
Print Assumptions C33_factorwise.
Example C33_case : exists o0 : kraus GI, kraus_init true reset_ops (1, 1) 2 2 [] = Ok o0 /\
  match snd (chan_channel (KrausType o0) (tens_all [diag_mat (K := GI) [(1, 0); (2, 0)]; diag_mat (K := GI) [(5, 0); (7, 0)]]%Z) 2 false) with
  | Ok out => me out 0 0 = (36, 0)%Z | Err _ => False end.
Proof. eexists. split; [reflexivity|vm_compute; reflexivity]. Qed.

(** ** C34 *)
Theorem C34_batch (K : StarRing) (a : kraus_arg K) nq din dout orthogonal o0 past n (rho : ten3 K) (adjoint : bool) :
  kraus_init false a nq din dout orthogonal = Ok o0 -> arg_matrices a <> [] -> Forall (fun m => 1 <= m) past -> 1 <= n ->
  let d := if adjoint then (dout ^ snd nq) ^ n else (din ^ fst nq) ^ n in
  (t1 rho = d /\ t2 rho = d ->
   exists out, snd (chan_channel_batch (after (KrausType o0) past) rho n adjoint) = Ok out /\ t0 out = t0 rho /\
     forall l, l < t0 rho -> snd (chan_channel (after (KrausType o0) past) (slice0 rho l) n adjoint) = Ok (slice0 out l)) /\
  (~ (t1 rho = d /\ t2 rho = d) -> snd (chan_channel_batch (after (KrausType o0) past) rho n adjoint) = Err ValueError).
Proof. exact (batch_run a nq din dout orthogonal o0 past n rho adjoint). Qed.
Print Assumptions C34_batch.
Example C34_case : exists o0 : kraus GI, kraus_init false reset_ops (1, 1) 2 2 [] = Ok o0 /\
  match snd (chan_channel_batch (KrausType o0) (T3 3 2 2 (fun l i j => (Z.of_nat (l + i), 0%Z) : GI)) 1 false) with
  | Ok out => entries (slice0 out 2) = [[(5, 0); (0, 0)]; [(0, 0); (0, 0)]]%Z | Err _ => False end.
Proof. eexists. split; [reflexivity|vm_compute; reflexivity]. Qed.

(** ** C35 *)
Theorem C35_exchange sp (a : kraus_arg CC) nq din dout orthogonal o0 past n rho :
  kraus_init sp a nq din dout orthogonal = Ok o0 -> arg_matrices a <> [] -> sp = true \/ orthogonal = [] -> Forall (fun m => 1 <= m) past -> 1 <= n -> clean sp past n ->
  let D := (din ^ fst nq) ^ n in let N := length (arg_matrices a) ^ n in is_square D rho ->
  exists W, snd (chan_exchange (after (KrausType o0) past) rho n) = Ok [W] /\ is_square N W /\
    eqm N N (me W) (exchange_entry (power_ops (arg_matrices a) n) (me rho)) /\
    (psd D (me rho) -> psd N (me W)) /\ (hermitian D (me rho) -> hermitian N (me W)) /\
    (trace_preserving (din ^ fst nq) (arg_matrices a) -> tr N (me W) = tr D (me rho) /\ (density D (me rho) -> density N (me W))).
Proof. exact (c35 sp a nq din dout orthogonal o0 past n rho). Qed.
Print Assumptions C35_exchange.
Example C35_case : exists o0 : kraus GI, kraus_init false reset_ops (1, 1) 2 2 [] = Ok o0 /\
  match snd (chan_exchange (KrausType o0) (MA 2 2 (fun i j => (Z.of_nat (i + 1), Z.of_nat j) : GI)) 1) with
  | Ok [W] => entries W = [[(1, 0); (1, 1)]; [(2, 0); (2, 1)]]%Z | _ => False end.
Proof. eexists. split; [reflexivity|vm_compute; reflexivity]. Qed.

(** ** C36 *)
Theorem C36_adjoint (K : StarRing) sp (a : kraus_arg K) nq din dout orthogonal o0 past n :
  kraus_init sp a nq din dout orthogonal = Ok o0 -> arg_matrices a <> [] -> Forall (fun m => 1 <= m) past -> 1 <= n -> clean sp past n -> sp = true \/ orthogonal = [] ->
  let D := (din ^ fst nq) ^ n in let N := length (arg_matrices a) ^ n in
  forall rho A, is_square D rho -> is_square N A -> exists W B, snd (chan_exchange (after (KrausType o0) past) rho n) = Ok [W] /\
    snd (chan_exchange_adjoint (after (KrausType o0) past) A n) = Ok B /\ is_square D B /\ tr N (mm N (me A) (me W)) = tr D (mm D (me B) (me rho)).
Proof. exact (c36_dual (K := K) sp a nq din dout orthogonal o0 past n). Qed.
Theorem C36_unital (K : StarRing) sp (a : kraus_arg K) nq din dout orthogonal o0 past n :
  kraus_init sp a nq din dout orthogonal = Ok o0 -> arg_matrices a <> [] -> Forall (fun m => 1 <= m) past -> 1 <= n -> clean sp past n ->
  let D := (din ^ fst nq) ^ n in let N := length (arg_matrices a) ^ n in trace_preserving (din ^ fst nq) (arg_matrices a) ->
  exists B, snd (chan_exchange_adjoint (after (KrausType o0) past) (MA N N eye) n) = Ok B /\ is_square D B /\ eqm D D (me B) eye.
Proof. exact (c36_unital (K := K) sp a nq din dout orthogonal o0 past n). Qed.
Print Assumptions C36_adjoint.
Print Assumptions C36_unital.
Example C36_case : exists o0 : kraus GI, kraus_init true reset_ops (1, 1) 2 2 [] = Ok o0 /\
  match snd (chan_exchange_adjoint (KrausType o0) (MA 2 2 (fun i j => (Z.of_nat (i + 1), Z.of_nat j) : GI)) 1) with
  | Ok B => entries B = [[(1, 0); (1, 1)]; [(2, 0); (2, 1)]]%Z | _ => False end.
Proof. eexists. split; [reflexivity|vm_compute; reflexivity]. Qed.

(** ** C37: [diagonal_blocks W 0 bs] are the blocks that the documented indices cut out *)
Theorem C37_refuted : exists (o0 : kraus GI) rho W, kraus_init false measure3 (1, 1) 3 3 [1] = Ok o0 /\ is_square 3 rho /\ is_square 3 W /\
  eqm 3 3 (me W) (exchange_entry (arg_matrices measure3) (me rho)) /\
  exists Ws, snd (chan_exchange (KrausType o0) rho 1) = Ok Ws /\ ~ Forall2 same_mat Ws (diagonal_blocks W 0 [1]) /\
    ksum (map (fun B => tr (mr B) (me B)) Ws) <> tr 3 (me rho).
Proof.
  destruct (kraus_init false (measure3 (K := GI)) (1, 1) 3 3 [1]) as [o0|] eqn:E0; [|discriminate E0].
  set (rho := diag_mat (K := GI) [(1, 0); (2, 0); (3, 0)]%Z). exists o0, rho, rho.
  assert (Q : is_square 3 rho) by (split; reflexivity). split; [reflexivity|]. split; [exact Q|]. split; [exact Q|].
  assert (V : eqm 3 3 (me rho) (exchange_entry (arg_matrices measure3) (me rho))).
  { intros i j Hi Hj. destruct i as [|[|[|i]]]; [| | |exfalso; lia]; destruct j as [|[|[|j]]]; [| | |exfalso; lia| | | |exfalso; lia| | | |exfalso; lia]; reflexivity. }
  split; [exact V|].
  destruct (blocks_run measure3 (1, 1) 3 3 [1] o0 [] 1 rho E0) as (Ws & EW & HW); [discriminate|discriminate|constructor|lia|exact Q|]. exists Ws. split; [exact EW|].
  specialize (HW rho Q). change (power_ops (arg_matrices measure3) 1) with (arg_matrices (measure3 (K := GI))) in HW || idtac.
  assert (V1 : eqm 3 3 (me rho) (exchange_entry (power_ops (arg_matrices measure3) 1) (me rho))).
  { intros i j Hi Hj. destruct i as [|[|[|i]]]; [| | |exfalso; lia]; destruct j as [|[|[|j]]]; [| | |exfalso; lia| | | |exfalso; lia| | | |exfalso; lia]; vm_compute; reflexivity. }
  specialize (HW V1). inversion HW as [|W1 ? l1 ? S1 H1]; subst. inversion H1 as [|W2 ? l2 ? S2 H2]; subst. inversion H2; subst.
  destruct S1 as (A1 & B1 & C1). destruct S2 as (A2 & B2 & C2). cbn in A1, A2. split.
  - intros H. inversion H as [|? ? ? ? _ H3]; subst. inversion H3 as [|? ? ? ? (E & _) _]; subst. cbn in E. congruence.
  - cbn [map]. rewrite A1, A2. cbn in B1, B2. rewrite A1, B1 in C1. rewrite A2, B2 in C2. unfold tr. cbn [bsum]. rewrite (C1 0 0), (C2 0 0) by lia. vm_compute. discriminate.
Qed.
(** one index, half of the operators on each side: the documented blocks *)
Theorem C37_halves_partial (K : StarRing) (a : kraus_arg K) nq din dout b o0 past n rho :
  kraus_init false a nq din dout [b] = Ok o0 -> arg_matrices a <> [] -> 2 * b = length (arg_matrices a) ->
  Forall (fun m => 1 <= m) past -> 1 <= n -> is_square ((din ^ fst nq) ^ n) rho ->
  exists Ws, snd (chan_exchange (after (KrausType o0) past) rho n) = Ok Ws /\
    forall W, is_square (length (arg_matrices a) ^ n) W -> eqm (mr W) (mc W) (me W) (exchange_entry (power_ops (arg_matrices a) n) (me rho)) ->
    Forall2 same_mat Ws (diagonal_blocks W 0 [b * length (arg_matrices a) ^ (n - 1)]).
Proof. exact (one_boundary a nq din dout b o0 past n rho). Qed.
(** what is returned for any indices *)
Theorem C37_returned_partial (K : StarRing) (a : kraus_arg K) nq din dout orthogonal o0 past n rho :
  kraus_init false a nq din dout orthogonal = Ok o0 -> arg_matrices a <> [] -> orthogonal <> [] ->
  Forall (fun m => 1 <= m) past -> 1 <= n -> is_square ((din ^ fst nq) ^ n) rho ->
  let N := length (arg_matrices a) ^ n in let M := length (arg_matrices a) ^ (n - 1) in
  exists Ws, snd (chan_exchange (after (KrausType o0) past) rho n) = Ok Ws /\
    forall W, is_square N W -> eqm N N (me W) (exchange_entry (power_ops (arg_matrices a) n) (me rho)) ->
    Forall2 same_mat Ws (code_blocks W M 0 orthogonal ++ [block W (last_start N (list_sum orthogonal * M)) N]).
Proof. exact (blocks_run a nq din dout orthogonal o0 past n rho). Qed.
Print Assumptions C37_refuted.
Print Assumptions C37_halves_partial.
Print Assumptions C37_returned_partial.
Example C37_case : exists o0 : kraus GI, kraus_init false reset_ops (1, 1) 2 2 [1] = Ok o0 /\ 2 * 1 = length (arg_matrices (K := GI) reset_ops) /\
  match snd (chan_exchange (KrausType o0) (diag_mat (K := GI) [(1, 0); (2, 0); (3, 0); (4, 0)]%Z) 2) with
  | Ok Ws => map entries Ws = [[[(1, 0); (0, 0)]; [(0, 0); (2, 0)]]; [[(3, 0); (0, 0)]; [(0, 0); (4, 0)]]]%Z | _ => False end.
Proof. eexists. split; [reflexivity|]. split; [reflexivity|vm_compute; reflexivity]. Qed.

(** ** C38 *)
Theorem C38_composition opA opB nqA nqB dinA doutA dinB doutB orA orB spA spB cA cB : arg_matrices opA <> [] -> arg_matrices opB <> [] ->
  chan_init opA nqA dinA doutA orA spA = Ok cA -> chan_init opB nqB dinB doutB orB spB = Ok cB ->
  forall c, chan_add cA cB = Ok c -> forall rho, is_square (dinB ^ fst nqB) rho ->
  exists mid out out', snd (chan_channel cB rho 1 false) = Ok mid /\ snd (chan_channel cA mid 1 false) = Ok out /\
    snd (chan_channel c rho 1 false) = Ok out' /\ same_mat out' out.
Proof. exact (add_spec opA opB nqA nqB dinA doutA dinB doutB orA orB spA spB cA cB). Qed.
Theorem C38_accepted opA opB nqA nqB dinA doutA dinB doutB orA orB spA spB cA cB : arg_matrices opA <> [] -> arg_matrices opB <> [] ->
  chan_init opA nqA dinA doutA orA spA = Ok cA -> chan_init opB nqB dinB doutB orB spB = Ok cB ->
  dinA ^ fst nqA = doutB ^ snd nqB -> trace_preserving (dinA ^ fst nqA) (arg_matrices opA) -> trace_preserving (dinB ^ fst nqB) (arg_matrices opB) ->
  exists k, chan_add cA cB = Ok (KrausType k) /\ numb_kraus k = length (arg_matrices opA) * length (arg_matrices opB) /\
    same_ops (slices (kraus_ops k)) (prod_ops (arg_matrices opA) (arg_matrices opB)) /\
    trace_preserving (dinB ^ fst nqB) (slices (kraus_ops k)) /\ input_dim k = dinB ^ fst nqB /\ output_dim k = doutA ^ snd nqA.
Proof. exact (add_ok opA opB nqA nqB dinA doutA dinB doutB orA orB spA spB cA cB). Qed.
Theorem C38_mismatch opA opB nqA nqB dinA doutA dinB doutB orA orB spA spB cA cB : arg_matrices opA <> [] -> arg_matrices opB <> [] ->
  chan_init opA nqA dinA doutA orA spA = Ok cA -> chan_init opB nqB dinB doutB orB spB = Ok cB ->
  dinA ^ fst nqA <> doutB ^ snd nqB -> chan_add cA cB = Err TypeError.
Proof. exact (add_mismatch opA opB nqA nqB dinA doutA dinB doutB orA orB spA spB cA cB). Qed.
(** + and * do not depend on earlier calls on the operands *)
Theorem C38_history opA nqA dinA doutA orA spA cA opB nqB dinB doutB orB spB cB pA pB : arg_matrices opA <> [] -> arg_matrices opB <> [] ->
  chan_init opA nqA dinA doutA orA spA = Ok cA -> chan_init opB nqB dinB doutB orB spB = Ok cB ->
  Forall (fun m => 1 <= m) pA -> Forall (fun m => 1 <= m) pB ->
  chan_add (after cA pA) (after cB pB) = chan_add cA cB /\ chan_mul (after cA pA) (after cB pB) = chan_mul cA cB.
Proof. exact (add_history opA nqA dinA doutA orA spA cA opB nqB dinB doutB orB spB cB pA pB). Qed.
Print Assumptions C38_composition.
Print Assumptions C38_accepted.
Print Assumptions C38_mismatch.
Print Assumptions C38_history.
Example C38_case : exists cA cB, chan_init reset_ops (1, 1) 2 2 [] false = Ok cA /\ chan_init (ident (2 ^ fst (1, 1))) (1, 1) 2 2 [] true = Ok cB /\
  2 ^ fst (1, 1) = 2 ^ snd (1, 1) /\ trace_preserving (K := CC) (2 ^ fst (1, 1)) (arg_matrices reset_ops) /\ trace_preserving (K := CC) (2 ^ fst (1, 1)) (arg_matrices (ident (2 ^ fst (1, 1)))).
Proof.
  destruct (reset_chan false) as (cA & EA). destruct (ident_chan (1, 1) 2 2 [] true eq_refl) as (cB & EB). exists cA, cB.
  split; [exact EA|]. split; [exact EB|]. split; [reflexivity|]. split; [exact reset_tp|apply ident_tp].
Qed.
Example C38_case_mismatch : exists cA cB, chan_init reset_ops (1, 1) 2 2 [] false = Ok cA /\ chan_init (ident (2 ^ fst (2, 2))) (2, 2) 2 2 [] false = Ok cB /\ 2 ^ fst (1, 1) <> 2 ^ snd (2, 2).
Proof.
  destruct (reset_chan false) as (cA & EA). destruct (ident_chan (2, 2) 2 2 [] false eq_refl) as (cB & EB). exists cA, cB. split; [exact EA|]. split; [exact EB|]. cbn. lia.
Qed.

(** ** C39: exact condition for the Kraus objects' own + *)
Theorem C39_kraus_add_partial (K : StarRing) sp opA nqA dinA doutA orA a opB nqB dinB doutB orB (b : kraus K) : arg_matrices opA <> [] -> arg_matrices opB <> [] ->
  kraus_init sp opA nqA dinA doutA orA = Ok a -> kraus_init sp opB nqB dinB doutB orB = Ok b ->
  (dinA ^ fst nqA <> doutB ^ snd nqB -> kraus_add a b = Err TypeError) /\
  (dinA ^ fst nqA = doutB ^ snd nqB -> dinB ^ fst nqA = dinB ^ fst nqB -> doutA ^ snd nqB = doutA ^ snd nqA ->
     exists k, kraus_add a b = Ok k /\ same_ops (slices (kraus_ops k)) (prod_ops (arg_matrices opA) (arg_matrices opB))) /\
  (dinA ^ fst nqA = doutB ^ snd nqB -> ~ (dinB ^ fst nqA = dinB ^ fst nqB /\ doutA ^ snd nqB = doutA ^ snd nqA) -> kraus_add a b = Err AssertionError).
Proof. exact (kraus_add_iff sp opA nqA dinA doutA orA a opB nqB dinB doutB orB b). Qed.
Theorem C39_class_partial (K : StarRing) opA nqA dinA doutA orA a opB nqB dinB doutB orB (b : kraus K) : arg_matrices opA <> [] -> arg_matrices opB <> [] ->
  kraus_init true opA nqA dinA doutA orA = Ok a -> kraus_init false opB nqB dinB doutB orB = Ok b -> kraus_add a b = Err AssertionError.
Proof. exact (kraus_add_class opA nqA dinA doutA orA a opB nqB dinB doutB orB b). Qed.
(** an encoder from one to two qubits after a one-qubit channel *)
Theorem C39_refuted : exists a b : kraus GI, kraus_init false (OpList [MA 4 2 (fun i j => if Nat.eqb i (3 * j) then s1 else s0)]) (1, 2) 2 2 [] = Ok a /\
  kraus_init false reset_ops (1, 1) 2 2 [] = Ok b /\ input_dim a = output_dim b /\ kraus_add a b = Err AssertionError.
Proof. eexists. eexists. split; [reflexivity|]. split; [reflexivity|]. split; reflexivity. Qed.
Print Assumptions C39_kraus_add_partial.
Print Assumptions C39_class_partial.
Print Assumptions C39_refuted.
Example C39_case : exists a b : kraus GI, kraus_init false measure3 (1, 1) 3 3 [] = Ok a /\ kraus_init false (OpList [MA 3 2 (fun i j => if Nat.eqb i (j + 1) then s1 else s0)]) (1, 1) 2 3 [] = Ok b /\
  3 ^ fst (1, 1) = 3 ^ snd (1, 1) /\ 2 ^ fst (1, 1) = 2 ^ fst (1, 1) /\ exists k, kraus_add a b = Ok k.
Proof.
  destruct (kraus_init false (measure3 (K := GI)) (1, 1) 3 3 []) as [a|] eqn:EA; [|discriminate EA].
  destruct (kraus_init false (OpList [MA 3 2 (fun i j => if Nat.eqb i (j + 1) then s1 else (s0 : GI))]) (1, 1) 2 3 []) as [b|] eqn:EB; [|discriminate EB].
  exists a, b. split; [reflexivity|]. split; [reflexivity|]. split; [reflexivity|]. split; [reflexivity|].
  pose proof (fun h1 h2 => kraus_add_iff _ _ _ _ _ _ _ _ _ _ _ _ _ h1 h2 EA EB) as G. destruct G as (_ & H & _); [discriminate|discriminate|]. destruct H as (k & H & _); try reflexivity. eauto.
Qed.

(** ** C40 *)
Theorem C40_product opA opB nqA nqB dinA doutA dinB doutB orA orB spA spB cA cB : arg_matrices opA <> [] -> arg_matrices opB <> [] ->
  chan_init opA nqA dinA doutA orA spA = Ok cA -> chan_init opB nqB dinB doutB orB spB = Ok cB ->
  forall c, chan_mul cA cB = Ok c -> forall rho sigma, is_square (dinA ^ fst nqA) rho -> is_square (dinB ^ fst nqB) sigma ->
  exists x y out, snd (chan_channel cA rho 1 false) = Ok x /\ snd (chan_channel cB sigma 1 false) = Ok y /\
    snd (chan_channel c (tens rho sigma) 1 false) = Ok out /\ same_mat out (tens x y).
Proof. exact (mul_spec opA opB nqA nqB dinA doutA dinB doutB orA orB spA spB cA cB). Qed.
Theorem C40_associative (a b c : kraus CC) bc ab l r : slices (kraus_ops a) <> [] -> slices (kraus_ops b) <> [] -> slices (kraus_ops c) <> [] ->
  chan_mul (KrausType b) (KrausType c) = Ok bc -> chan_mul (KrausType a) bc = Ok l -> chan_mul (KrausType a) (KrausType b) = Ok ab -> chan_mul ab (KrausType c) = Ok r ->
  exists kl kr, l = KrausType kl /\ r = KrausType kr /\ same_ops (slices (kraus_ops kl)) (slices (kraus_ops kr)) /\
   forall rho, is_square (dim_in a * (dim_in b * dim_in c)) rho -> exists x y, snd (chan_channel l rho 1 false) = Ok x /\ snd (chan_channel r rho 1 false) = Ok y /\ same_mat x y.
Proof. exact (mul_associative a b c bc ab l r). Qed.
Theorem C40_operators (K : StarRing) (a b c : ten3 K) : same_ops (slices (parallel_concatenate a b)) (tens_ops (slices a) (slices b)) /\
  same_ops (slices (parallel_concatenate a (parallel_concatenate b c))) (slices (parallel_concatenate (parallel_concatenate a b) c)).
Proof. split; [apply slices_kron|apply kron_assoc]. Qed.
Print Assumptions C40_product.
Print Assumptions C40_associative.
Print Assumptions C40_operators.
Example C40_case : exists cA cB c, chan_init (ident (2 ^ fst (1, 1))) (1, 1) 2 2 [] true = Ok cA /\ chan_init reset_ops (1, 1) 2 2 [] false = Ok cB /\ chan_mul cA cB = Ok c.
Proof.
  destruct (reset_chan false) as (cB & EB). destruct (ident_chan (1, 1) 2 2 [] true eq_refl) as (cA & EA).
  destruct (mul_ok (ident (2 ^ fst (1, 1))) reset_ops (1, 1) (1, 1) 2 2 2 2 [] [] true false cA cB ltac:(discriminate) ltac:(discriminate) EA EB (ident_tp _) reset_tp ltac:(cbn; lia)) as [H _].
  destruct H as (k & H & _); [cbn; lia|]. exists cA, cB. eauto.
Qed.

(** ** C41: exact condition for AnalyticQChan's *; trace preservation of the product *)
Theorem C41_mul opA opB nqA nqB dinA doutA dinB doutB orA orB spA spB cA cB : arg_matrices opA <> [] -> arg_matrices opB <> [] ->
  chan_init opA nqA dinA doutA orA spA = Ok cA -> chan_init opB nqB dinB doutB orB spB = Ok cB ->
  trace_preserving (dinA ^ fst nqA) (arg_matrices opA) -> trace_preserving (dinB ^ fst nqB) (arg_matrices opB) -> 0 < dinB ^ fst nqB ->
  (dinA * dinB = dinA ^ fst nqA * dinB ^ fst nqB /\ doutA * doutB = doutA ^ snd nqA * doutB ^ snd nqB ->
   exists k, chan_mul cA cB = Ok (KrausType k) /\ numb_kraus k = length (arg_matrices opA) * length (arg_matrices opB) /\
    same_ops (slices (kraus_ops k)) (tens_ops (arg_matrices opA) (arg_matrices opB)) /\
    trace_preserving (dinA ^ fst nqA * dinB ^ fst nqB) (slices (kraus_ops k))) /\
  (~ (dinA * dinB = dinA ^ fst nqA * dinB ^ fst nqB /\ doutA * doutB = doutA ^ snd nqA * doutB ^ snd nqB) -> chan_mul cA cB = Err AssertionError).
Proof. exact (mul_ok opA opB nqA nqB dinA doutA dinB doutB orA orB spA spB cA cB). Qed.
Theorem C41_refuted : exists cA cB, chan_init (ident (2 ^ fst (2, 2))) (2, 2) 2 2 [] false = Ok cA /\ chan_init reset_ops (1, 1) 2 2 [] false = Ok cB /\
  chan_mul cA cB = Err AssertionError.
Proof.
  destruct (reset_chan false) as (cB & EB). destruct (ident_chan (2, 2) 2 2 [] false eq_refl) as (cA & EA). exists cA, cB. split; [exact EA|]. split; [exact EB|].
  refine (proj2 (mul_ok (ident (2 ^ fst (2, 2))) reset_ops (2, 2) (1, 1) 2 2 2 2 [] [] false false cA cB ltac:(discriminate) ltac:(discriminate) EA EB (ident_tp _) reset_tp ltac:(cbn; lia)) _).
  cbn. lia.
Qed.
Print Assumptions C41_mul.
Print Assumptions C41_refuted.
Example C41_case : exists cA cB, chan_init (ident (2 ^ fst (1, 1))) (1, 1) 2 2 [] false = Ok cA /\ chan_init reset_ops (1, 1) 2 2 [] false = Ok cB /\ exists c, chan_mul cA cB = Ok c.
Proof.
  destruct (reset_chan false) as (cB & EB). destruct (ident_chan (1, 1) 2 2 [] false eq_refl) as (cA & EA). exists cA, cB. split; [exact EA|]. split; [exact EB|].
  destruct (mul_ok (ident (2 ^ fst (1, 1))) reset_ops (1, 1) (1, 1) 2 2 2 2 [] [] false false cA cB ltac:(discriminate) ltac:(discriminate) EA EB (ident_tp _) reset_tp ltac:(cbn; lia)) as [H _].
  destruct H as (k & H & _); [cbn; lia|]. eauto.
Qed.

(** ** C42 *)
Theorem C42_check (k : kraus CC) : is_trace_perserving k = true <-> nearly_tp (t2 (kraus_ops k)) (slices (kraus_ops k)).
Proof. exact (tp_check_iff k). Qed.
Theorem C42_constructor op nq din dout orthogonal sp : arg_matrices op <> [] ->
  (exists c, chan_init op nq din dout orthogonal sp = Ok c) <->
  fits (dout ^ snd nq) (din ^ fst nq) (arg_matrices op) /\ nearly_tp (din ^ fst nq) (arg_matrices op).
Proof. exact (chan_init_iff op nq din dout orthogonal sp). Qed.
Theorem C42_exact d ops : trace_preserving d ops -> nearly_tp d ops.
Proof. exact (tp_nearly d ops). Qed.
Print Assumptions C42_exact.
Print Assumptions C42_check.
Print Assumptions C42_constructor.
Example C42_case : exists c, chan_init reset_ops (1, 1) 2 2 [] true = Ok c. Proof. exact (reset_chan true). Qed.

(** ** C43 *)
(** [plus] is |+><+| *)
Theorem C43_refuted : density 2 (me plus) /\ exists o s, kraus_init false (ident 2) (1, 1) 2 2 [] = Ok o /\ kraus_init true (ident 2) (1, 1) 2 2 [] = Ok s /\
  ensemble (entanglement_fidelity (arg_matrices (ident 2))) [1%R] [plus] = 1%R /\
  kraus_fidelity o [1%R] [plus] = Ok 4%R /\ kraus_fidelity s [1%R] [plus] = Ok (/ 2)%R.
Proof. exact plus_fidelity. Qed.
Theorem C43_dense_partial a nq din dout orthogonal o0 probs states : kraus_init false a nq din dout orthogonal = Ok o0 -> arg_matrices a <> [] ->
  length probs = length states -> Forall (is_square (din ^ fst nq)) states ->
  kraus_fidelity o0 probs states = Ok (ensemble (all_entries_fidelity (arg_matrices a)) probs states).
Proof. exact (fidelity_dense a nq din dout orthogonal o0 probs states). Qed.
Theorem C43_sparse_partial a nq din dout orthogonal o0 probs states : kraus_init true a nq din dout orthogonal = Ok o0 -> arg_matrices a <> [] ->
  length probs = length states -> Forall (is_square (din ^ fst nq)) states ->
  kraus_fidelity o0 probs states = Ok (ensemble (diagonal_fidelity (arg_matrices a) (dout ^ snd nq)) probs states).
Proof. exact (fidelity_sparse a nq din dout orthogonal o0 probs states). Qed.
(** the documented value when every K_i rho is diagonal *)
Theorem C43_diagonal_partial a nq din dout orthogonal o0 probs states : kraus_init false a nq din dout orthogonal = Ok o0 -> arg_matrices a <> [] ->
  length probs = length states -> Forall (is_square (din ^ fst nq)) states -> din ^ fst nq = dout ^ snd nq ->
  Forall (fun s => Forall (fun A => diagonal (din ^ fst nq) (din ^ fst nq) (mm (din ^ fst nq) (me A) (me s))) (arg_matrices a)) states ->
  kraus_fidelity o0 probs states = Ok (ensemble (entanglement_fidelity (arg_matrices a)) probs states).
Proof. exact (fidelity_diagonal a nq din dout orthogonal o0 probs states). Qed.
Print Assumptions C43_refuted.
Print Assumptions C43_dense_partial.
Print Assumptions C43_sparse_partial.
Print Assumptions C43_diagonal_partial.
Example C43_case : exists o0 : kraus CC, kraus_init false (ident 2) (1, 1) 2 2 [] = Ok o0 /\
  Forall (fun s => Forall (fun A => diagonal 2 2 (mm 2 (me A) (me s))) (arg_matrices (ident 2))) [diag_mat (K := CC) [(/ 2, 0)%R; (/ 2, 0)%R]].
Proof.
  eexists. split; [reflexivity|]. repeat constructor. intros i j Hi Hj N. destruct i as [|[|i]]; [| |exfalso; lia]; destruct j as [|[|j]]; try lia; apply injective_projections; cbn; ring.
Qed.
