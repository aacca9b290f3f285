(** The sampler and the pool when every draw is the same, used to show that the
    optimisation of the effective channel can return. *)
From Verif Require Import Py Scalar PauliModel KrausModel KrausSpec ChoiModel ChannelModel ParamModel OptimModel OptimSpec OptimProofs OptimProofs2.
From Coq Require Import Reals Lra.
Open Scope nat_scope.

Lemma dist_self r c (A : array CC) : entry_dist r c A A = 0%R.
Proof.
  unfold entry_dist. assert (Z : forall (l : list nat) (g : nat -> R), (forall i, g i = 0%R) -> reals_sum (map g l) = 0%R).
  { intros l g H. induction l as [|x l IH]; [reflexivity|]. cbn [map]. unfold reals_sum in *. cbn [fold_right]. rewrite H, IH. ring. }
  apply Z. intros i. apply Z. intros j. unfold Cmod, ssub. destruct (A i j) as [x y]. cbn. replace ((x + - x) * (x + - x) + (y + - y) * (y + - y))%R with 0%R by ring. apply sqrt_0.
Qed.
Lemma repeat_snoc {A} (x : A) n : repeat x n ++ [x] = repeat x (S n).
Proof. induction n as [|n IH]; [reflexivity|]. cbn [repeat List.app] in *. rewrite IH. reflexivity. Qed.
Lemma min_repeat x n : fold_left Rmin (repeat x n) x = x.
Proof. induction n as [|n IH]; [reflexivity|]. cbn. rewrite Rmin_left by lra. exact IH. Qed.
Lemma max_repeat x n : fold_left Rmax (repeat x n) x = x.
Proof. induction n as [|n IH]; [reflexivity|]. cbn. rewrite Rmax_left by lra. exact IH. Qed.

Section Same.
Variables (f : objective) (p : paramet) (nsize rank : nat) (c : chan CC) (v : list R) (rho : marr CC) (y : R).
Hypothesis HR : forall k, p_random p k nsize rank = Ok v.
Hypothesis HQ : p_rho p v nsize rank = Ok rho.
Hypothesis HF : f c v = (c, Ok y).
Let st (j : nat) : lip := Lip (repeat v j) (repeat rho j) (repeat (- y)%R j) (- y)%R.

Lemma same_body k j : 1 <= j -> lip_body f p nsize rank k c (st j) = (c, Ok (st (S j))).
Proof.
  intros Hj. unfold lip_body. rewrite HR. cbn [bind]. rewrite HQ. cbn [bind st l_evals l_rhos l_vecs l_max].
  assert (M : mapM (fun q => do d <- l1_dist rho (snd q); Ok (fst q + d)%R) (combine (repeat (- y)%R j) (repeat rho j)) = Ok (repeat (- y)%R j)).
  { clear Hj st. induction j as [|j IH]; [reflexivity|]. cbn [repeat combine mapM]. rewrite IH. cbn [fst snd]. rewrite l1_dist_ok by reflexivity. cbn [bind]. rewrite dist_self. do 2 f_equal. ring. }
  rewrite M. cbn [bind]. destruct j as [|j]; [lia|]. cbn [repeat np_min bind]. rewrite min_repeat.
  rewrite (proj2 (Rleb_iff (- y) (- y))) by lra. rewrite HF. cbn [bind List.app]. rewrite !repeat_snoc. cbn [np_max bind]. rewrite max_repeat. reflexivity.
Qed.
Lemma same_loop ns t : forall k j, 1 <= j -> j <= ns -> ns <= j + t -> lip_loop f p nsize rank (Z.of_nat ns) t k c (st j) = (c, Ok (st ns)).
Proof.
  induction t as [|t IH]; intros k j H1 H2 H3; [replace j with ns by lia; reflexivity|]. cbn [lip_loop]. cbn [l_vecs st]. rewrite repeat_length.
  destruct (Z.ltb_spec (Z.of_nat j) (Z.of_nat ns)) as [L|L]; [|replace j with ns by lia; reflexivity].
  rewrite (same_body k j H1). apply IH; lia.
Qed.
Lemma same_samples ns nt : 1 <= ns -> ns <= S nt ->
  initial_guesses_lipschitz f nsize rank p c (Z.of_nat ns) (Z.of_nat nt) = (c, Ok (repeat v ns, repeat (- y)%R ns, true)).
Proof.
  intros H1 H2. unfold initial_guesses_lipschitz. rewrite HR. cbn [bind]. rewrite HQ. cbn [bind]. rewrite HF.
  change (Lip [v] [rho] [(- y)%R] (- y)%R) with (st 1). rewrite (same_loop ns) by lia. cbn [bind st l_vecs l_evals]. rewrite repeat_length, Z.eqb_refl. reflexivity.
Qed.
End Same.

Lemma pool_same r n : 1 <= n -> (r_fun r < 10000000000)%R -> exists m, pool_choose (repeat r n) = (m, r_success r, Some (r_x r)).
Proof.
  intros Hn L. destruct (pool_choose_in (repeat r n)) as [E|(r' & Hr & E)].
  - exfalso. destruct n as [|n]; [lia|]. unfold pool_choose in E. cbn [repeat fold_left] in E. unfold pool_step at 2 in E.
    assert (B : Rltb start_val (- r_fun r) = true) by (apply Rltb_iff; unfold start_val; lra). rewrite B in E.
    assert (G : forall l st, snd st <> None -> snd (fold_left pool_step l st) <> None).
    { induction l as [|a l IH]; intros [[q1 q2] q3] H; [exact H|]. cbn [fold_left]. apply IH. unfold pool_step. destruct (Rltb q1 (- r_fun a)); [discriminate|exact H]. }
    apply (G (repeat r n) (r_fun r, r_success r, Some (r_x r))); [discriminate|]. rewrite E. reflexivity.
  - apply repeat_spec in Hr. subst r'. eauto.
Qed.
