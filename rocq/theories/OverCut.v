(** OverParam on density matrices with small eigenvalues: what vec_from_rho drops (C137). *)
From Verif Require Import Py Scalar PauliModel PauliSpec EncoderProofs EighExists Spectral SpectralProofs KrausSpec KrausProofs KrausProofs2 KrausProofs6 KrausProofs8 ChoiSpec ChoiProofs2 ChoiProofs3 ParamModel ParamSpec ParamProofs ParamProofs2 ParamProofs3 Subadd NoCorrectProofs.
From Coq Require Import Reals Lra.
Open Scope nat_scope.
Open Scope K_scope.
Add Ring CCring69 : (s_rt CC).

Lemma tr_rsum d A V e : eigen_decomposition d A e V -> tr d A = rc (rsum d e).
Proof.
  intros ED. pose proof (trace_power d A V e ED 1) as T. rewrite <- (tr_eqm d (mpow d A 1) A) by (intros i j Hi Hj; cbn [mpow]; apply mm_eye_r, Hj). rewrite T. f_equal.
  clear. rewrite (map_ext _ e) by (intros; apply pow_1). induction d as [|d IH]; [reflexivity|]. rewrite seq_S, map_app, fold_right_app. cbn [map fold_right plus rsum].
  rewrite <- IH. clear. generalize (map e (seq 0 d)). intros l. induction l as [|x l IH]; cbn [fold_right]; [lra|]. rewrite IH. lra.
Qed.
Lemma psd_entry d S i j tau : psd d S -> tr d S = rc tau -> i < d -> j < d -> (Cmod (S i j) <= tau)%R.
Proof.
  intros P T Hi Hj. assert (Q : forall m, m <= d -> exists t, bsum m (fun i => S i i) = rc t /\ (0 <= t)%R /\ forall i, i < m -> (fst (S i i) <= t)%R).
  { induction m as [|m IH]; intros Hm; [exists 0%R; split; [reflexivity|]; split; [lra|lia]|]. destruct (IH ltac:(lia)) as (t & H1 & H2 & H3). destruct (psd_diag_real d S m P ltac:(lia)) as [D1 D2].
    exists (t + fst (S m m))%R. cbn [bsum]. rewrite H1. split; [apply CC_eq; cbn; [reflexivity|rewrite D1; lra]|]. split; [lra|]. intros l Hl. destruct (Nat.eq_dec l m) as [->|N]; [lra|]. specialize (H3 l ltac:(lia)). lra. }
  destruct (Q d (le_n d)) as (t & H1 & H2 & H3). unfold tr in T. rewrite H1 in T. apply rc_inj in T. subst t.
  pose proof (psd_minor d S i j P Hi Hj) as M. destruct (psd_diag_real d S i P Hi) as [_ I2]. destruct (psd_diag_real d S j P Hj) as [_ J2]. pose proof (H3 i Hi). pose proof (H3 j Hj).
  unfold Cmod. rewrite <- (sqrt_square tau) by exact H2. apply sqrt_le_1_alt. eapply Rle_trans; [|eapply Rle_trans; [exact M|]]; [right; ring|]. apply Rmult_le_compat; assumption.
Qed.

(** the eigenvalues that vec_from_rho keeps *)
Definition kept (n r : nat) (e : nat -> R) (t : nat) : R := if Nat.ltb t (n - r) then 0%R else clip_eig (e t).

Lemma over_factor eigh rho n r : sorted_eigh eigh -> mr rho = n -> mc rho = n -> r <= n -> density n (me rho) ->
  exists vec A, over_vec_from_rho eigh rho n r = Ok vec /\ (length vec = over_numb_variables n r)%nat /\
    over_rho_from_vec vec n (Some r) = normalised_product (MA n r A) /\
    eqm n n (mm r A (adj A)) (diagonalised n (me (snd (eigh rho))) (kept n r (fst (eigh rho)))).
Proof.
  intros EG MR MC Hr (HH & PS & TR). destruct (EG n rho MR MC HH) as (R1 & C1 & ED & Srt). unfold over_vec_from_rho. rewrite MR, MC, Nat.eqb_refl. cbn [guard bind].
  destruct (eigh rho) as [e V] eqn:EE. cbn [fst snd] in *.
  replace (slice_from (Z.of_nat n - Z.of_nat r) n) with (n - r)%nat by (unfold slice_from; destruct (Z.ltb_spec (Z.of_nat n - Z.of_nat r) 0); lia).
  replace (n - (n - r))%nat with r by lia. set (k := (n - r)%nat). set (B := me V) in *.
  set (a := flat_map _ _).
  assert (La : length a = (n * r)%nat) by (apply (flat_rows_length (fun i t => B i (k + t)%nat * ((sqrt (clip_eig (e (k + t)%nat)), 0%R) : CC)))).
  pose proof (over_loop a []) as Lp. cbn [List.app length plus] in Lp. rewrite La in Lp. replace (2 * n * r)%nat with (2 * (n * r))%nat by lia.
  match goal with |- context [foldM ?f ?l ?s] => replace (foldM f l s) with (@Ok (list R * nat) (flat_map two a, (2 * (n * r))%nat)) by (symmetry; exact Lp) end.
  cbn [bind fst]. set (vec := flat_map two a).
  assert (Lv : (length vec = 2 * r * n)%nat) by (unfold vec; rewrite flat_two_length, La; lia).
  exists vec. unfold over_rho_from_vec, over_rank. rewrite (proj2 (Nat.leb_le _ _) Hr), (proj2 (Nat.eqb_eq _ _) Lv). cbn [assert_ bind]. rewrite (over_tail vec n r Lv). set (A := fun i j => nth (i * r + j) _ _).
  exists A. split; [reflexivity|]. split; [unfold over_numb_variables; lia|]. split; [reflexivity|].
  assert (EA : eqm n r A (fun i j => B i (k + j)%nat * rc (sqrt (clip_eig (e (k + j)%nat))))).
  { intros i j Hi Hj. unfold A. rewrite (tail_entry vec n r i j Hi Hj). unfold matrix_of_pairs, vec. destruct (flat_two_nth a (i * r + j)) as [-> ->].
    rewrite <- surjective_pairing. unfold a. rewrite (flat_rows_nth (fun i t => B i (k + t)%nat * ((sqrt (clip_eig (e (k + t)%nat)), 0%R) : CC))) by assumption. reflexivity. }
  pose proof (psd_eig n _ _ _ ED PS) as Pe.
  apply (eqm_trans _ _ _ _ _ (gram_congr n r _ _ EA)). intros i j Hi Hj. unfold diagonalised. match goal with |- _ = bsum n ?f => replace (bsum n f) with (bsum (k + r) f) by (f_equal; lia) end. rewrite bsum_split.
  rewrite (bsum_zero k); [|intros t Ht; unfold kept; fold k; rewrite (proj2 (Nat.ltb_lt t k) Ht); change (rc 0) with (0 : CC); ring].
  unfold mm, adj. transitivity (bsum r (fun s => B i (k + s)%nat * rc (clip_eig (e (k + s)%nat)) * (B j (k + s)%nat)^*)).
  - apply bsum_ext; intros s Hs. rewrite sconj_mul, rc_conj. assert (C0 : (0 <= clip_eig (e (k + s)%nat))%R) by (unfold clip_eig; destruct (below _ _); [lra|apply Pe; lia]).
    rewrite <- (sqrt_sqrt _ C0) at 3. rewrite <- rc_mul. ring.
  - transitivity (bsum r (fun s => me V i (k + s)%nat * rc (kept n r e (k + s)) * (me V j (k + s)%nat)^*)); [|match goal with |- ?x = _ => transitivity (0 + x); [ring|reflexivity] end]. apply bsum_ext; intros s Hs. unfold kept. fold k. destruct (Nat.ltb_spec (k + s) k); [lia|]. reflexivity.
Qed.

Theorem over_cut eigh rho n r : sorted_eigh eigh -> mr rho = n -> mc rho = n -> 1 <= r -> r <= n -> (INR n * tol5 < 1)%R -> density n (me rho) ->
  exists vec rho' w, over_vec_from_rho eigh rho n r = Ok vec /\ (length vec = over_numb_variables n r)%nat /\ over_rho_from_vec vec n (Some r) = Ok rho' /\
    mr rho' = n /\ mc rho' = n /\ density n (me rho') /\ rank_at_most n r (me rho') /\ (0 < w <= 1)%R /\
    psd n (fun i j => me rho i j + - (me rho' i j * rc w)) /\
    (forall i j, i < n -> j < n -> (Cmod (me rho' i j + - me rho i j) <= 2 * (1 - w))%R) /\
    (rank_at_most n r (me rho) -> (1 - w <= INR r * tol5)%R).
Proof.
  intros EG MR MC R1 Hr TN D. pose proof D as (HH & PS & TR). destruct (over_factor eigh rho n r EG MR MC Hr D) as (vec & A & E1 & L & E2 & G).
  destruct (EG n rho MR MC HH) as (_ & _ & ED & Srt). set (e := fst (eigh rho)) in *. set (V := me (snd (eigh rho))) in *. set (g := kept n r e) in *.
  pose proof ED as [UV _]. pose proof (diagonalised_ok n V g UV) as DG. pose proof (psd_eig n _ _ _ ED PS) as Pe.
  assert (TE : rsum n e = 1%R). { pose proof (tr_rsum _ _ _ _ ED) as T. rewrite TR in T. change (s1 : CC) with (rc 1) in T. apply rc_inj in T. lra. }
  assert (G0 : forall t, t < n -> (0 <= g t <= e t)%R).
  { intros t Ht. specialize (Pe t Ht). unfold g, kept, clip_eig. destruct (Nat.ltb _ _); [lra|]. destruct (below _ _); lra. }
  assert (TOP : (0 < g (n - 1)%nat)%R).
  { assert (B1 : (1 <= INR n * e (n - 1)%nat)%R).
    { rewrite <- TE. clear - Srt Hr R1. assert (Q : forall m, m <= n -> (rsum m e <= INR m * e (n - 1)%nat)%R).
      { induction m as [|m IH]; intros Hm; [cbn; lra|]. cbn [rsum]. rewrite S_INR. specialize (IH ltac:(lia)). specialize (Srt m (n - 1)%nat ltac:(lia) ltac:(lia)). lra. } apply Q. lia. }
    assert (N0 : (0 < INR n)%R) by (apply lt_0_INR; lia). assert (T1 : (tol5 < e (n - 1)%nat)%R) by (apply (Rmult_lt_reg_l (INR n)); [exact N0|lra]).
    assert (T0 : (0 < tol5)%R) by (unfold tol5; lra).
    unfold g, kept. destruct (Nat.ltb_spec (n - 1) (n - r)); [lia|]. unfold clip_eig, below. rewrite Rabs_pos_eq by lra. destruct (Rlt_dec _ _); [lra|lra]. }
  set (w := rsum n g). assert (W0 : (0 < w)%R). { pose proof (rsum_term n g (n - 1)%nat (fun j Hj => proj1 (G0 j Hj)) ltac:(lia)). unfold w. lra. }
  assert (W1 : (w <= 1)%R) by (rewrite <- TE; apply rsum_le; intros t Ht; apply G0, Ht).
  destruct (gram_trace n r A) as (t0 & _ & T0 & NZ). assert (TW : tr n (mm r A (adj A)) = rc w) by (rewrite (tr_eqm n _ _ G); apply (tr_rsum _ _ _ _ DG)).
  assert (t0 = w) by (rewrite TW in T0; apply rc_inj in T0; lra). subst t0.
  destruct (product_density n r A (proj2 NZ W0)) as (rho' & t & EP & RR & CC' & DD & RK & TP & TT & QQ). assert (t = w) by (rewrite TW in TT; apply rc_inj in TT; lra). subst t.
  exists vec, rho', w. split; [exact E1|]. split; [exact L|]. split; [rewrite E2; exact EP|]. split; [exact RR|]. split; [exact CC'|]. split; [exact DD|]. split; [exact RK|]. split; [lra|].
  assert (SF : eqm n n (fun i j => me rho i j + - (me rho' i j * rc w)) (diagonalised n V (fun t => (e t - g t)%R))).
  { intros i j Hi Hj. rewrite (QQ i j Hi Hj), (G i j Hi Hj), (entry_form n _ _ _ ED i j Hi Hj). unfold diagonalised. transitivity (bsum n (fun t => V i t * rc (e t) * (V j t)^*) + (- (1)) * bsum n (fun t => V i t * rc (g t) * (V j t)^*)); [ring|].
    rewrite <- bsum_mul_l, <- bsum_add. apply bsum_ext; intros t Ht. replace (rc (e t - g t)) with (rc (e t) + - rc (g t)) by (apply CC_eq; cbn; lra). ring. }
  assert (PF : psd n (fun i j => me rho i j + - (me rho' i j * rc w))).
  { pose proof (diagonalised_psd n V (fun t => (e t - g t)%R) ltac:(intros t Ht; cbn beta; specialize (G0 t Ht); lra)) as P. intros v. destruct (P v) as (x & X0 & X). exists x. split; [exact X0|]. rewrite <- X.
    apply bsum_ext; intros i Hi. apply bsum_ext; intros j Hj. rewrite (SF i j Hi Hj). reflexivity. }
  split; [exact PF|]. split; [|].
  - intros i j Hi Hj. assert (TS : tr n (fun i j => me rho i j + - (me rho' i j * rc w)) = rc (1 - w)).
    { rewrite (tr_eqm n _ _ SF), (tr_rsum _ _ _ _ (diagonalised_ok n V _ UV)), rsum_sub, TE. reflexivity. }
    pose proof (psd_entry n _ i j _ PF TS Hi Hj) as B1. destruct DD as (_ & PD & TD). change (s1 : CC) with (rc 1) in TD. pose proof (psd_entry n _ i j _ PD TD Hi Hj) as B2. cbv beta in B1.
    replace (me rho' i j + - me rho i j) with (me rho' i j * rc (1 - w) + - (me rho i j + - (me rho' i j * rc w))) by (replace (rc (1 - w)) with (1 + - rc w) by (apply CC_eq; cbn; lra); ring).
    eapply Rle_trans; [apply Cmod_add|]. rewrite DeviceProofs4.Cmod_mul, (cmod_rc (1 - w)) by lra.
    replace (Cmod (- (me rho i j + - (me rho' i j * rc w)))) with (Cmod (me rho i j + - (me rho' i j * rc w))) by (unfold Cmod; cbn [fst snd sopp CC CC_opp]; f_equal; ring).
    assert (Cmod (me rho' i j) * (1 - w) <= 1 * (1 - w))%R by (apply Rmult_le_compat_r; lra). lra.
  - intros RA. pose proof (rank_eigs n r _ _ _ PS RA ED Srt) as Z. rewrite <- TE. unfold w. rewrite <- rsum_sub.
    replace (rsum n (fun t => (e t - g t)%R)) with (rsum (n - r + r) (fun t => (e t - g t)%R)) by (f_equal; lia). rewrite rsum_split.
    assert (Z1 : rsum (n - r) (fun t => (e t - g t)%R) = 0%R). { rewrite <- (rsum_0 (n - r)). apply rsum_ext. intros t Ht. specialize (G0 t ltac:(lia)). rewrite (Z t Ht) in *. lra. }
    rewrite Z1, Rplus_0_l. assert (Q : forall m, m <= r -> (rsum m (fun i => e (n - r + i)%nat - g (n - r + i)%nat) <= INR m * tol5)%R).
    { induction m as [|m IH]; intros Hm; [cbn; lra|]. cbn [rsum]. rewrite S_INR. specialize (IH ltac:(lia)). assert (e (n - r + m)%nat - g (n - r + m)%nat <= tol5)%R; [|lra].
      unfold g, kept. destruct (Nat.ltb_spec (n - r + m) (n - r)); [lia|]. specialize (Pe (n - r + m)%nat ltac:(lia)). unfold clip_eig, below. rewrite Rabs_pos_eq by exact Pe. assert (0 < tol5)%R by (unfold tol5; lra). destruct (Rlt_dec _ _); lra. }
    apply Q. lia.
Qed.
