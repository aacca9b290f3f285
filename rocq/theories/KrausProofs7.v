(** entropy_exchange with orthogonal_kraus. *)
From Verif Require Import Py Scalar PauliModel PauliSpec KrausModel KrausSpec KrausProofs KrausProofs2 KrausProofs3 KrausProofs4 KrausProofs5 KrausProofs6 ChoiModel ChannelModel ChannelSpec.
Open Scope nat_scope.

Section B.
Context {K : StarRing}.
Add Ring Kr9 : (s_rt K).
Implicit Types (o : kraus K) (t : ten3 K).

Lemma block_value t rho W a b : is_square (t2 t) rho -> exchange_matrix (exch3 t) rho = Ok W ->
  exists B, exchange_matrix (slice_block (exch3 t) a b) rho = Ok B /\ same_mat B (block W a (Nat.min b (t0 t))).
Proof.
  intros [R1 R2]. unfold exchange_matrix. cbn [slice_block exch3 swap12 u0 u1 u2 u3 ctrans t0 t2]. rewrite R1, R2, !Nat.eqb_refl. cbn [andb].
  intros E. injection E as <-. eexists. split; [reflexivity|]. split; [reflexivity|]. split; [reflexivity|]. intros i j _ _. reflexivity.
Qed.
Lemma from_value t rho W N count : is_square (t2 t) rho -> exchange_matrix (exch3 t) rho = Ok W -> t0 t = N ->
  exists B, exchange_matrix (slice_from (exch3 t) (Z.of_nat N - Z.of_nat count)) rho = Ok B /\ same_mat B (block W (last_start N count) N).
Proof.
  intros [R1 R2]. unfold exchange_matrix. cbn [slice_from exch3 swap12 u0 u1 u2 u3 ctrans t0 t2]. rewrite R1, R2, !Nat.eqb_refl. cbn [andb].
  intros E EN. injection E as <-. eexists. split; [reflexivity|]. rewrite EN.
  assert (S : (if (Z.of_nat N - Z.of_nat count <? 0)%Z then Z.to_nat (Z.max 0 (Z.of_nat N + (Z.of_nat N - Z.of_nat count))) else Z.to_nat (Z.of_nat N - Z.of_nat count)) = last_start N count).
  { unfold last_start. destruct (Z.ltb_spec (Z.of_nat N - Z.of_nat count) 0); destruct (Nat.leb_spec count N); lia. }
  unfold block, same_mat. cbn [mr mc me ue slice_from exch3 swap12 u0 u1 u2 u3 ctrans t0]. rewrite EN, S. split; [reflexivity|]. split; [reflexivity|]. intros i j _ _. reflexivity.
Qed.
Lemma blocks_loop t rho W nk n bs : is_square (t2 t) rho -> exchange_matrix (exch3 t) rho = Ok W -> t0 t = mr W -> forall acc count,
  exists out, foldM (fun (s : list (marr K) * nat) i => let '(output, count) := s in
                     let split := (i * nk ^ (n - 1))%nat in
                     do W <- exchange_matrix (slice_block (exch3 t) count split) rho;
                     Ok (output ++ [W], (count + split)%nat)) bs (acc, count) = Ok (acc ++ out, count + list_sum bs * nk ^ (n - 1))
  /\ Forall2 same_mat out (code_blocks W (nk ^ (n - 1)) count bs).
Proof.
  intros R E EN. induction bs as [|b bs IH]; intros acc count.
  - exists []. rewrite app_nil_r, Nat.add_0_r. split; [reflexivity|constructor].
  - cbn [foldM]. destruct (block_value t rho W count (b * nk ^ (n - 1)) R E) as (B & EB & SB). rewrite EB. cbn [bind].
    destruct (IH (acc ++ [B]) (count + b * nk ^ (n - 1))) as (out & EO & SO). exists (B :: out). split.
    + etransitivity; [exact EO|]. do 2 f_equal; [rewrite <- app_assoc; reflexivity|]. cbn [list_sum fold_right]. change (fold_right Nat.add 0 bs) with (list_sum bs). lia.
    + cbn [code_blocks]. constructor; [|exact SO]. rewrite <- EN. exact SB.
Qed.
Theorem blocks_run a nq din dout orthogonal o0 past n rho :
  kraus_init false a nq din dout orthogonal = Ok o0 -> arg_matrices a <> [] -> orthogonal <> [] ->
  Forall (fun m => 1 <= m) past -> 1 <= n -> is_square ((din ^ fst nq) ^ n) rho ->
  let N := length (arg_matrices a) ^ n in let M := length (arg_matrices a) ^ (n - 1) in
  exists Ws, snd (chan_exchange (after (KrausType o0) past) rho n) = Ok Ws /\
    forall W, is_square N W -> eqm N N (me W) (exchange_entry (power_ops (arg_matrices a) n) (me rho)) ->
    Forall2 same_mat Ws (code_blocks W M 0 orthogonal ++ [block W (last_start N (list_sum orthogonal * M)) N]).
Proof.
  intros H NE OR HP Hn SQ N M. destruct (made _ _ _ _ _ _ _ H NE) as (S & SP & SL & F & E0 & E1 & E2 & EN & EO).
  assert (CL : clean (sparse o0) past n) by (intros X; congruence).
  destruct (at_canon o0 past n HP Hn S CL) as (o & E & AT). rewrite E. cbn [chan_exchange]. rewrite AT. cbn [snd].
  destruct (power3_dims (kraus_ops o0) n Hn) as (D0 & D1 & D2). rewrite E0 in D0. fold N in D0.
  assert (SQ2 : is_square (t2 (power3 (kraus_ops o0) n)) rho) by (rewrite D2, E2; exact SQ).
  destruct (exchange_value (power3 (kraus_ops o0) n) rho SQ2) as (W & EW & QW & V). rewrite D0 in QW, V.
  unfold entropy_exchange. cbn [canon sparse orth nth_exch numb_kraus]. rewrite SP, EO, EN.
  assert (OO : (false || Nat.eqb (length orthogonal) 0)%bool = false) by (destruct orthogonal; [contradiction|reflexivity]). rewrite OO.
  destruct (blocks_loop (power3 (kraus_ops o0) n) rho W (length (arg_matrices a)) n orthogonal SQ2 EW ltac:(rewrite D0; destruct QW; congruence) [] 0) as (out & EL & SOUT).
  match goal with |- context[foldM ?f ?l ?s] => change (foldM f l s) with (foldM f orthogonal s); replace (foldM f orthogonal s) with (Ok ([] ++ out, 0 + list_sum orthogonal * length (arg_matrices a) ^ (n - 1))) by (symmetry; exact EL) end.
  cbn [bind app]. fold N M. rewrite Nat.add_0_l.
  destruct (from_value (power3 (kraus_ops o0) n) rho W N (list_sum orthogonal * M) SQ2 EW D0) as (B & EB & SB). rewrite EB. cbn [bind].
  exists (out ++ [B]). split; [reflexivity|]. intros W' QW' EW'.
  assert (SW : forall i j, i < N -> j < N -> me W i j = me W' i j).
  { intros i j Hi Hj. rewrite V by assumption. rewrite EW' by assumption. rewrite <- SL.
    apply (exchange_entry_same ((dout ^ snd nq) ^ n) ((din ^ fst nq) ^ n)); [|apply slices_power, Hn|apply eqm_refl|rewrite slices_len, D0; assumption..].
    pose proof (fits_slices (power3 (kraus_ops o0) n)) as FS. rewrite D1, D2, E1, E2 in FS. exact FS. }
  assert (SBl : forall a b, b <= N -> same_mat (block W a b) (block W' a b)).
  { intros x y Hy. split; [reflexivity|]. split; [reflexivity|]. intros i j Hi Hj. cbn [block mr mc me] in *. apply SW; lia. }
  apply Forall2_app.
  - fold M in SOUT. destruct QW as [Q1 _], QW' as [Q1' _]. revert SOUT. generalize 0. revert out EL. intros out _. revert out.
    induction orthogonal as [|b bs IH] in |- *; intros out k SO; [exact SO|]. cbn [code_blocks] in *.
    inversion SO as [|B1 B2 o1 o2 SB1 SO1]; subst. constructor; [|apply IH, SO1].
    eapply same_mat_trans; [exact SB1|]. rewrite Q1, Q1'. apply SBl. lia.
  - constructor; [|constructor]. eapply same_mat_trans; [exact SB|]. apply SBl. lia.
Qed.

(** ** one boundary *)
Theorem one_boundary a nq din dout b o0 past n rho :
  kraus_init false a nq din dout [b] = Ok o0 -> arg_matrices a <> [] -> 2 * b = length (arg_matrices a) ->
  Forall (fun m => 1 <= m) past -> 1 <= n -> is_square ((din ^ fst nq) ^ n) rho ->
  exists Ws, snd (chan_exchange (after (KrausType o0) past) rho n) = Ok Ws /\
    forall W, is_square (length (arg_matrices a) ^ n) W -> eqm (mr W) (mc W) (me W) (exchange_entry (power_ops (arg_matrices a) n) (me rho)) ->
    Forall2 same_mat Ws (diagonal_blocks W 0 [b * length (arg_matrices a) ^ (n - 1)]).
Proof.
  intros H NE B HP Hn SQ. destruct (blocks_run a nq din dout [b] o0 past n rho H NE ltac:(discriminate) HP Hn SQ) as (Ws & E & G). exists Ws. split; [exact E|].
  intros W QW EW. pose proof QW as [Q1 Q2]. rewrite Q1, Q2 in EW. specialize (G W QW EW). cbn [code_blocks list_sum fold_right app] in G. rewrite Nat.add_0_r in G.
  assert (P : length (arg_matrices a) ^ n = 2 * (b * length (arg_matrices a) ^ (n - 1))).
  { destruct n as [|n]; [lia|]. cbn [Nat.pow]. rewrite <- B at 1. cbn [Nat.sub]. rewrite Nat.sub_0_r. lia. }
  cbn [diagonal_blocks]. rewrite Q1 in *. unfold last_start in G. revert G. rewrite P. intros G.
  rewrite Nat.min_l in G by lia. rewrite (proj2 (Nat.leb_le _ _)) in G by lia.
  replace (2 * (b * length (arg_matrices a) ^ (n - 1)) - b * length (arg_matrices a) ^ (n - 1)) with (b * length (arg_matrices a) ^ (n - 1)) in G by lia. exact G.
Qed.
End B.
