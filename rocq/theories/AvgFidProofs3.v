(** An upper bound for the objective when the operators are orthogonal. *)
From Verif Require Import Py Scalar CodesModel PauliModel PauliSpec EncoderProofs KrausModel KrausSpec KrausProofs KrausProofs2 Spectral SpectralProofs ChoiModel ChoiSpec ChoiProofs ChoiProofs2 ChannelModel FindModel AvgFidModel AvgFidSpec AvgFidProofs AvgFidProofs2.
From Coq Require Import Reals Lra.
Open Scope nat_scope.
Open Scope K_scope.
Add Ring CCring27 : (s_rt CC).

Section Bessel.
Variable d : nat.
Definition dotp (u v : nat -> CC) : CC := bsum d (fun i => (u i)^* * v i).
Lemma dotp_conj u v : (dotp u v)^* = dotp v u.
Proof. unfold dotp. rewrite bsum_conj. apply bsum_ext; intros i _. rewrite sconj_mul, sconj_conj. ring. Qed.
Lemma dotp_pos u : exists x, (0 <= x)%R /\ dotp u u = (x, 0%R).
Proof.
  destruct (nonneg_bsum d (fun i => (u i)^* * u i)) as (x & Hx & E); [|exists x; split; [exact Hx|exact E]].
  intros i _. exists (Cmod (u i) ^ 2)%R. split; [apply pow2_ge_0|]. rewrite <- Cmod_sq_rc. ring.
Qed.
(** the combination of the vectors ws with the coefficients <w, v> *)
Definition comb (ws : list (nat -> CC)) (v : nat -> CC) : nat -> CC := fun i => ksum (map (fun w => dotp w v * w i) ws).
Lemma dotp_comb u ws v : dotp u (comb ws v) = ksum (map (fun w => dotp w v * dotp u w) ws).
Proof.
  unfold dotp at 1, comb. rewrite (bsum_ext d _ (fun i => ksum (map (fun w => (u i)^* * (dotp w v * w i)) ws))) by (intros; symmetry; apply ksum_mul_l).
  rewrite bsum_ksum_map. f_equal. apply map_ext. intros w. unfold dotp at 3. rewrite <- bsum_mul_l. apply bsum_ext. intros; ring.
Qed.
Definition S1 (ws : list (nat -> CC)) (v : nat -> CC) : R := reals_sum (map (fun w => (Cmod (dotp w v) ^ 2)%R) ws).
Lemma S1_comb ws v : dotp v (comb ws v) = (S1 ws v, 0%R).
Proof.
  rewrite dotp_comb. unfold S1. rewrite <- sum_reals. f_equal. apply map_ext. intros w. rewrite <- Cmod_sq_rc. f_equal. symmetry. apply dotp_conj.
Qed.
Lemma S1_pos ws v : (0 <= S1 ws v)%R.
Proof. unfold S1. induction ws as [|w ws IH]; unfold reals_sum in *; cbn; [lra|]. pose proof (pow2_ge_0 (Cmod (dotp w v))). cbn in *. lra. Qed.
Lemma comb_orth w ws v : Forall (fun w' => dotp w w' = 0) ws -> dotp w (comb ws v) = 0.
Proof. intros H. rewrite dotp_comb. induction H as [|x ws Hx H IH]; [reflexivity|]. cbn [map]. rewrite ksum_cons, Hx, IH. ring. Qed.
Lemma dotp_add a u v : dotp (fun i => a * u i + v i) (fun i => a * u i + v i) = (a * a^* ) * dotp u u + a^* * dotp u v + a * dotp v u + dotp v v.
Proof.
  unfold dotp. rewrite <- !bsum_mul_l, <- !bsum_add. apply bsum_ext; intros i _. rewrite sconj_add, sconj_mul. ring.
Qed.
Lemma comb_norm ws v c : ForallOrdPairs (fun w w' => dotp w w' = 0) ws -> Forall (fun w => (fst (dotp w w) <= c)%R) ws ->
  (fst (dotp (comb ws v) (comb ws v)) <= c * S1 ws v)%R.
Proof.
  intros O. induction O as [|w ws Hw O IH]; intros Hc.
  - unfold S1, reals_sum, dotp, comb. cbn [map fold_right]. rewrite (bsum_ext d _ (fun _ => 0)); [rewrite bsum_0; cbn; lra|]. intros i _. rewrite ksum_nil. ring.
  - inversion Hc as [|? ? H1 H2]; subst. specialize (IH H2).
    assert (E : dotp (comb (w :: ws) v) (comb (w :: ws) v) = (((Cmod (dotp w v) ^ 2)%R, 0%R) : CC) * dotp w w + dotp (comb ws v) (comb ws v)).
    { transitivity (dotp (fun i => dotp w v * w i + comb ws v i) (fun i => dotp w v * w i + comb ws v i)); [reflexivity|]. rewrite dotp_add, Cmod_sq_rc.
      rewrite <- (dotp_conj w (comb ws v)), (comb_orth w ws v Hw), sconj_0. ring. }
    rewrite E. destruct (dotp_pos w) as (x & Hx & Ew). rewrite Ew in *. cbn [fst] in H1. unfold S1 in *. cbn [map]. unfold reals_sum in *. cbn [fold_right]. pose proof (pow2_ge_0 (Cmod (dotp w v))) as Q.
    set (m := (Cmod (dotp w v) ^ 2)%R) in *. cbn in IH |- *. nra.
Qed.
(** Bessel's inequality, scaled *)
Theorem bessel ws v c : (0 < c)%R -> ForallOrdPairs (fun w w' => dotp w w' = 0) ws -> Forall (fun w => (fst (dotp w w) <= c)%R) ws ->
  (S1 ws v <= c * fst (dotp v v))%R.
Proof.
  intros Hc O Hw. pose proof (comb_norm ws v c O Hw) as Nm. set (r := comb ws v) in *.
  destruct (dotp_pos (fun i => (((- c)%R, 0%R) : CC) * v i + r i)) as (x & Hx & E). rewrite dotp_add in E. unfold r in E at 1 2. rewrite <- (dotp_conj v (comb ws v)), S1_comb in E. fold r in E.
  apply (f_equal fst) in E. destruct (dotp_pos v) as (y & Hy & Ey). rewrite Ey in *. cbn in E, Nm |- *. nra.
Qed.
End Bessel.

(** a sum of quadratic forms over orthogonal vectors *)
Theorem psd_bound d X ws c t : (0 < c)%R -> psd d X -> tr d X = (t, 0%R) ->
  ForallOrdPairs (fun w w' => dotp d w w' = 0) ws -> Forall (fun w => (fst (dotp d w w) <= c)%R) ws ->
  (fst (ksum (map (fun w => quad d X w) ws)) <= c * t)%R.
Proof.
  intros Hc P T O Hw. destruct (spectral d X (psd_hermitian _ _ P)) as (V & e & ED). pose proof (psd_eig _ _ _ _ ED P) as Pe.
  assert (Q : forall w, quad d X w = bsum d (fun s => rc (e s) * (((Cmod (dotp d w (fun i => V i s)) ^ 2)%R, 0%R) : CC))).
  { intros w. unfold quad. rewrite (bsum_ext d _ (fun i => bsum d (fun s => rc (e s) * ((w i)^* * V i s) * bsum d (fun j => (V j s)^* * w j)))).
    - rewrite bsum_swap. apply bsum_ext; intros s _. rewrite <- Cmod_sq_rc, dotp_conj. unfold dotp at 1. rewrite bsum_mul_r, bsum_mul_l. fold (dotp d (fun i => V i s) w). ring.
    - intros i Hi. rewrite (bsum_ext d _ (fun j => bsum d (fun s => rc (e s) * ((w i)^* * V i s) * ((V j s)^* * w j)))).
      + rewrite bsum_swap. apply bsum_ext; intros s _. rewrite bsum_mul_l. reflexivity.
      + intros j Hj. rewrite (entry_form _ _ _ _ ED) by assumption. rewrite <- bsum_mul_l, <- bsum_mul_r. apply bsum_ext; intros s _. ring. }
  assert (E1 : ksum (map (fun w => quad d X w) ws) = bsum d (fun s => ((e s * S1 d ws (fun i => V i s))%R, 0%R) : CC)).
  { rewrite (map_ext _ _ Q). rewrite <- bsum_ksum_map. apply bsum_ext; intros s _. rewrite ksum_mul_l. unfold S1. rewrite sum_reals. apply CC_eq; cbn; ring. }
  assert (E2 : tr d X = bsum d (fun s => ((e s * fst (dotp d (fun i => V i s) (fun i => V i s)))%R, 0%R) : CC)).
  { unfold tr. rewrite (bsum_ext d _ (fun i => bsum d (fun s => V i s * rc (e s) * (V i s)^* ))) by (intros i Hi; apply (entry_form _ _ _ _ ED); assumption).
    rewrite bsum_swap. apply bsum_ext; intros s _. destruct (dotp_pos d (fun i => V i s)) as (y & Hy & Ey). rewrite Ey. cbn [fst].
    transitivity (rc (e s) * dotp d (fun i => V i s) (fun i => V i s)); [|rewrite Ey; apply CC_eq; cbn; ring].
    unfold dotp. rewrite <- bsum_mul_l. apply bsum_ext; intros i _. ring. }
  rewrite E1. rewrite T in E2. apply (f_equal fst) in E2. cbn [fst] in E2. rewrite E2. clear -Hc O Hw Pe.
  assert (G : forall m, m <= d -> (fst (bsum m (fun s => ((e s * S1 d ws (fun i => V i s))%R, 0%R) : CC)) <=
    c * fst (bsum m (fun s => ((e s * fst (dotp d (fun i => V i s) (fun i => V i s)))%R, 0%R) : CC)))%R); [|apply G; lia].
  induction m as [|m IH]; intros Hm; [cbn; lra|]. cbn [bsum]. specialize (IH ltac:(lia)). specialize (Pe m ltac:(lia)).
  pose proof (bessel d ws (fun i => V i m) c Hc O Hw) as B. cbn in IH, B |- *. nra.
Qed.

(** the objective as a sum of quadratic forms; [vec D A] lists the entries of A by rows *)
Definition vec (D : nat) (A : marr CC) : nat -> CC := fun p => me A (p / D)%nat (p mod D)%nat.
Lemma vec_dot N D (A B : marr CC) : (0 < D)%nat -> dotp (N * D) (vec D A) (vec D B) = tr D (mm N (adj (me A)) (me B)).
Proof.
  intros HD. unfold dotp, tr, mm, adj. rewrite bsum_blocks, bsum_swap. apply bsum_ext; intros a Ha. apply bsum_ext; intros i Hi. unfold vec.
  destruct (divmod_l D i a Ha) as [-> ->]. reflexivity.
Qed.
Lemma value_quad kraus N D d C X : fits N D kraus -> real_matrices kraus ->
  (forall i a j b, (i < N)%nat -> (a < D)%nat -> (j < N)%nat -> (b < D)%nat ->
      me C (i * D + a)%nat (j * D + b)%nat = ksum (map (fun A => (me A i a)^* * (me A j b)^* ) kraus) * ((/ INR (d ^ 2))%R, 0%R)) ->
  inner (N * D) X (me C) = ksum (map (fun A => quad (N * D) X (vec D A)) kraus) * ((/ INR (d ^ 2))%R, 0%R).
Proof.
  intros F HR HC. rewrite inner_blocks.
  assert (RE : forall A i a, In A kraus -> (i < N)%nat -> (a < D)%nat -> (me A i a)^* = me A i a).
  { intros A i a HA Hi Ha. apply real_conj. unfold fits in F. rewrite Forall_forall in F. unfold real_matrices in HR. rewrite Forall_forall in HR. destruct (F A HA) as [E1 E2]. apply (HR A HA); congruence. }
  unfold quad.
  transitivity (bsum N (fun i => bsum D (fun a => bsum N (fun j => bsum D (fun b => ksum (map (fun A => (me A i a)^* * X (i * D + a)%nat (j * D + b)%nat * me A j b) kraus) * ((/ INR (d ^ 2))%R, 0%R)))))).
  { apply bsum_ext; intros i Hi. apply bsum_ext; intros a Ha. apply bsum_ext; intros j Hj. apply bsum_ext; intros b Hb. rewrite HC by assumption.
    rewrite sconj_mul, ksum_conj, conj_rc. transitivity (X (i * D + a)%nat (j * D + b)%nat * ksum (map (fun x => ((me x i a)^* * (me x j b)^* )^* ) kraus) * ((/ INR (d ^ 2))%R, 0%R)); [ring|]. f_equal.
    rewrite <- ksum_mul_l. f_equal. apply map_ext_in. intros A HA. rewrite sconj_mul, !sconj_conj. rewrite (RE A i a HA Hi Ha). ring. }
  rewrite <- bsum_ksum_map. rewrite (bsum_blocks N D), <- bsum_mul_r. apply bsum_ext; intros i Hi. rewrite <- bsum_mul_r. apply bsum_ext; intros a Ha.
  rewrite <- bsum_ksum_map, bsum_blocks, <- bsum_mul_r. apply bsum_ext; intros j Hj. rewrite <- bsum_mul_r. apply bsum_ext; intros b Hb.
  f_equal. f_equal. apply map_ext. intros A. unfold vec. destruct (divmod_l D i a Ha) as [-> ->]. destruct (divmod_l D j b Hb) as [-> ->]. reflexivity.
Qed.
