(** Density matrices of the form A A^dagger / tr, and the number of non-zero eigenvalues of
    a matrix of bounded rank. *)
From Verif Require Import Py Scalar PauliModel PauliSpec EncoderProofs EighExists Spectral SpectralProofs PowerSums KrausSpec KrausProofs KrausProofs2 KrausProofs6 ChoiSpec ChoiProofs2 ChoiProofs3 ParamModel ParamSpec ParamProofs.
From Coq Require Import Reals Lra.
Open Scope nat_scope.
Open Scope K_scope.
Add Ring CCring13 : (s_rt CC).

(** ** A A^dagger *)
Lemma fst_add (a b : CC) : fst (a + b) = (fst a + fst b)%R. Proof. reflexivity. Qed.
Lemma snd_add (a b : CC) : snd (a + b) = (snd a + snd b)%R. Proof. reflexivity. Qed.
Lemma gram_quad n r (A : array CC) v : quad n (mm r A (adj A)) v = dot r (fun k => bsum n (fun i => (A i k)^* * v i)) (fun k => bsum n (fun i => (A i k)^* * v i)).
Proof.
  unfold quad, mm, dot, adj.
  transitivity (bsum n (fun i => bsum r (fun k => bsum n (fun j => (v i)^* * A i k * ((A j k)^* * v j))))).
  - apply bsum_ext; intros i Hi. rewrite bsum_swap. apply bsum_ext; intros j Hj.
    rewrite <- bsum_mul_l, <- bsum_mul_r. apply bsum_ext; intros k Hk. ring.
  - rewrite bsum_swap. apply bsum_ext; intros k Hk. rewrite bsum_conj, <- bsum_mul_r. apply bsum_ext; intros i Hi. rewrite bsum_mul_l, sconj_mul, sconj_conj. ring.
Qed.
Lemma gram_psd n r (A : array CC) : psd n (mm r A (adj A)).
Proof. rewrite psd_quad. intros v. rewrite gram_quad, dot_self_re. eexists. split; [apply dot_self_nonneg|reflexivity]. Qed.
Lemma gram_herm n r (A : array CC) : hermitian n (mm r A (adj A)).
Proof. intros i j _ _. rewrite adj_mm. unfold mm. apply bsum_ext; intros k _. rewrite adj_adj. reflexivity. Qed.
Lemma gram_entry r (A : array CC) i : fst (mm r A (adj A) i i) = fst (dot r (fun k => (A i k)^*) (fun k => (A i k)^*)).
Proof. unfold mm, dot, adj. f_equal. apply bsum_ext; intros k Hk. rewrite sconj_conj. reflexivity. Qed.
Lemma bsum_fst_ge n (f : nat -> CC) : (forall i, i < n -> (0 <= fst (f i))%R) -> forall i, i < n -> (fst (f i) <= fst (bsum n f))%R.
Proof.
  induction n as [|n IH]; intros H i Hi; [lia|]. cbn [bsum]. rewrite fst_add.
  assert (N : (0 <= fst (bsum n f))%R).
  { clear IH Hi. assert (H' : forall i, i < n -> (0 <= fst (f i))%R) by (intros; apply H; lia). clear H. induction n as [|n IH]; [cbn; lra|]. cbn [bsum].
    rewrite fst_add. specialize (H' n (Nat.lt_succ_diag_r n)) as Hn. assert (0 <= fst (bsum n f))%R by (apply IH; intros; apply H'; lia). lra. }
  destruct (Nat.eq_dec i n) as [->|Ni]; [lra|]. assert (fst (f i) <= fst (bsum n f))%R by (apply IH; [intros; apply H|]; lia). specialize (H n (Nat.lt_succ_diag_r n)). lra.
Qed.
Lemma gram_trace n r (A : array CC) : exists t, (0 <= t)%R /\ tr n (mm r A (adj A)) = rc t /\ ((exists i k, i < n /\ k < r /\ A i k <> 0) <-> (0 < t)%R).
Proof.
  assert (P : forall i, i < n -> (0 <= fst (mm r A (adj A) i i))%R) by (intros i Hi; rewrite gram_entry; apply dot_self_nonneg).
  assert (IM : snd (tr n (mm r A (adj A))) = 0%R).
  { pose proof (gram_psd n r A) as Q. unfold tr. clear P. assert (G : forall m, m <= n -> snd (bsum m (fun i => mm r A (adj A) i i)) = 0%R).
    { induction m as [|m IH]; intros Hm; [reflexivity|]. cbn [bsum]. rewrite snd_add. rewrite IH by lia. destruct (psd_diag_real n _ m Q) as [-> _]; [lia|]. lra. }
    apply G. lia. }
  exists (fst (tr n (mm r A (adj A)))). split; [|split].
  - destruct n as [|n]; [cbn; lra|]. pose proof (bsum_fst_ge (S n) (fun i => mm r A (adj A) i i) P O (Nat.lt_0_succ n)) as B. specialize (P O (Nat.lt_0_succ n)). cbn beta in B. unfold tr. lra.
  - apply CC_eq; [reflexivity|exact IM].
  - split.
    + intros (i & k & Hi & Hk & N). pose proof (bsum_fst_ge n (fun i => mm r A (adj A) i i) P i Hi) as B. cbn beta in B. fold (tr n (mm r A (adj A))) in B.
      destruct (Rle_lt_dec (fst (tr n (mm r A (adj A)))) 0) as [L|L]; [|exact L]. exfalso. apply N. specialize (P i Hi).
      assert (Z : fst (dot r (fun k => (A i k)^*) (fun k => (A i k)^*)) = 0%R) by (rewrite <- gram_entry; lra).
      pose proof (dot_self_zero r _ Z k Hk) as Z'. cbn beta in Z'. rewrite <- (sconj_conj (A i k)), Z'. apply sconj_0.
    + intros T. destruct (Classical_Prop.classic (exists i k, i < n /\ k < r /\ A i k <> 0)) as [E|NE]; [exact E|]. exfalso.
      assert (Z : tr n (mm r A (adj A)) = 0).
      { unfold tr. apply bsum_zero. intros i Hi. unfold mm. apply bsum_zero. intros k Hk. destruct (Classical_Prop.classic (A i k = 0)) as [->|X]; [ring|]. exfalso. apply NE. exists i, k. auto. }
      rewrite Z in T. cbn in T. lra.
Qed.

Lemma cdiv_real z t : t <> 0%R -> cdiv z (rc t) * rc t = z.
Proof. intros N. unfold cdiv. apply CC_eq; cbn; field; exact N. Qed.
Lemma cdiv_scale z t : t <> 0%R -> cdiv z (rc t) = z * rc (/ t).
Proof. intros N. unfold cdiv. f_equal. apply CC_eq; cbn; field; exact N. Qed.
Lemma cmod_rc t : (0 <= t)%R -> Cmod (rc t) = t.
Proof. intros H. unfold Cmod, rc. cbn. rewrite Rmult_0_l, Rplus_0_r. apply sqrt_square, H. Qed.

Theorem product_density n r (A : array CC) : (exists i k, i < n /\ k < r /\ A i k <> 0) ->
  exists rho t, normalised_product (MA n r A) = Ok rho /\ mr rho = n /\ mc rho = n /\ density n (me rho) /\ rank_at_most n r (me rho) /\
    (0 < t)%R /\ tr n (mm r A (adj A)) = rc t /\ eqm n n (fun i j => me rho i j * rc t) (mm r A (adj A)).
Proof.
  intros NZ. destruct (gram_trace n r A) as (t & T0 & T & P). apply P in NZ.
  unfold normalised_product, np_dot, np_dagger. cbn [mc mr me]. rewrite Nat.eqb_refl. cbn [bind mr mc me]. rewrite T, cmod_rc by exact T0.
  destruct (Req_EM_T t 0) as [E|N]; [lra|]. eexists; exists t. split; [reflexivity|]. cbn [mr mc me].
  assert (E : eqm n n (fun i j => cdiv (mm r A (adj A) i j) (rc t)) (fun i j => mm r A (adj A) i j * rc (/ t))) by (intros i j _ _; apply cdiv_scale, N).
  split; [reflexivity|]. split; [reflexivity|]. split; [|split; [|split; [exact NZ|split; [reflexivity|]]]].
  - split; [|split].
    + intros i j Hi Hj. unfold adj. rewrite !cdiv_scale by exact N. rewrite sconj_mul, rc_conj. f_equal. apply (gram_herm n r A i j Hi Hj).
    + apply (psd_ext n _ _ (eqm_sym _ _ _ _ E)). pose proof (gram_psd n r A) as Q. rewrite psd_quad in *. intros v. destruct (Q v) as (x & Hx & Ex).
      exists (x * / t)%R. split; [apply Rmult_le_pos; [exact Hx|left; apply Rinv_0_lt_compat, NZ]|]. change ((_, 0%R) : CC) with (rc (x * / t)). rewrite <- rc_mul. change (rc x) with ((x, 0%R) : CC). rewrite <- Ex.
      unfold quad. rewrite <- bsum_mul_r. apply bsum_ext; intros i Hi. rewrite <- bsum_mul_r. apply bsum_ext; intros; ring.
    + rewrite (tr_eqm n _ _ E). unfold tr. rewrite bsum_mul_r. fold (tr n (mm r A (adj A))). rewrite T, rc_mul, Rinv_r by exact N. reflexivity.
  - exists A, (fun k j => adj A k j * rc (/ t)). apply (eqm_trans _ _ _ _ _ E). intros i j _ _. unfold mm. rewrite <- bsum_mul_r. apply bsum_ext; intros; ring.
  - intros i j _ _. apply cdiv_real, N.
Qed.
Theorem product_trace_one n r (A : array CC) : tr n (mm r A (adj A)) = 1 ->
  exists rho, normalised_product (MA n r A) = Ok rho /\ mr rho = n /\ mc rho = n /\ eqm n n (me rho) (mm r A (adj A)).
Proof.
  intros T. unfold normalised_product, np_dot, np_dagger. cbn [mc mr me]. rewrite Nat.eqb_refl. cbn [bind mr mc me]. rewrite T. change (1 : CC) with (rc 1). rewrite cmod_rc by lra.
  destruct (Req_EM_T 1 0) as [E|N]; [lra|]. eexists. split; [reflexivity|]. cbn [mr mc me]. repeat split. intros i j _ _. rewrite cdiv_scale, Rinv_1 by exact N. change (rc 1) with (1 : CC). ring.
Qed.

(** ** a wide matrix has a kernel *)
Definition nz (x : R) : R := if Req_EM_T x 0 then 0%R else 1%R.
Lemma nz_sum_le l : (sumof nz l <= INR (length l))%R.
Proof. unfold sumof. induction l as [|x l IH]; [cbn; lra|]. cbn [map fold_right length]. rewrite S_INR. unfold nz at 1. destruct (Req_EM_T x 0); lra. Qed.
Lemma nz_sum_full l : (forall x, In x l -> x <> 0%R) -> sumof nz l = INR (length l).
Proof.
  unfold sumof. induction l as [|x l IH]; intros H; [reflexivity|]. cbn [map fold_right length]. rewrite S_INR, IH by (intros; apply H; right; assumption). unfold nz at 1.
  destruct (Req_EM_T x 0) as [E|_]; [exfalso; apply (H x); [left; reflexivity|exact E]|lra].
Qed.
Lemma eig_spectrum d A e V : eigen_decomposition d A e V -> spectrum d A (map e (seq 0 d)).
Proof.
  intros [U E]. split; [rewrite map_length, seq_length; reflexivity|]. exists V. split; [exact U|]. intros i t Hi Ht. rewrite (E i t Hi Ht).
  rewrite (nth_indep _ 0%R (e O)) by (rewrite map_length, seq_length; exact Ht). rewrite map_nth, seq_nth by exact Ht. reflexivity.
Qed.
Theorem wide_kernel r m (M : array CC) : r < m -> exists v : nat -> CC, dot m v v = 1 /\ forall k, k < r -> bsum m (fun t => M k t * v t) = 0.
Proof.
  intros L. set (G := mm r (adj M) M). set (H := mm m M (adj M)).
  assert (HG : hermitian m G) by (intros i j _ _; unfold G; rewrite adj_mm; unfold mm; apply bsum_ext; intros; rewrite adj_adj; reflexivity).
  assert (HH : hermitian r H) by (apply gram_herm).
  destruct (spectral m G HG) as (V & e & ED). destruct (spectral r H HH) as (V' & e' & ED').
  assert (S : sumof nz (map e (seq 0 m)) = sumof nz (map e' (seq 0 r))).
  { apply same_sums; [|unfold nz; destruct (Req_EM_T 0 0); [reflexivity|lra]]. intros k.
    rewrite (spectrum_power m G _ _ (eig_spectrum _ _ _ _ ED)), (spectrum_power r H _ _ (eig_spectrum _ _ _ _ ED')). unfold G, H. rewrite tr_gram. reflexivity. }
  assert (Z : exists t, t < m /\ e t = 0%R).
  { destruct (Classical_Prop.classic (exists t, t < m /\ e t = 0%R)) as [Y|N]; [exact Y|]. exfalso.
    rewrite nz_sum_full in S.
    - pose proof (nz_sum_le (map e' (seq 0 r))) as B. rewrite <- S, !map_length, !seq_length in B. apply INR_le in B. lia.
    - intros x Hx E. apply in_map_iff in Hx. destruct Hx as (t & <- & Ht). apply in_seq in Ht. apply N. exists t. split; [lia|exact E]. }
  destruct Z as (t & Ht & Et). pose proof ED as [[U1 U2] EV]. exists (fun i => V i t).
  assert (N1 : dot m (fun i => V i t) (fun i => V i t) = 1).
  { specialize (U1 t t Ht Ht). unfold mm, adj, eye in U1. rewrite Nat.eqb_refl in U1. exact U1. }
  split; [exact N1|]. set (w := fun k => bsum m (fun i => M k i * V i t)).
  assert (W : dot r w w = 0).
  { transitivity (dot m (fun i => V i t) (app m G (fun i => V i t))).
    - unfold dot, app, G, mm, w. transitivity (bsum r (fun k => bsum m (fun i => bsum m (fun j => ((V i t)^* * (M k i)^* * (M k j * V j t)))))).
      + apply bsum_ext; intros k Hk. rewrite bsum_conj, <- bsum_mul_r. apply bsum_ext; intros i Hi. rewrite sconj_mul, <- bsum_mul_l. apply bsum_ext; intros; ring.
      + rewrite bsum_swap. apply bsum_ext; intros i Hi. rewrite bsum_swap, <- bsum_mul_l. apply bsum_ext; intros j Hj. unfold adj. rewrite <- bsum_mul_r, <- bsum_mul_l. apply bsum_ext; intros; ring.
    - rewrite (dot_ext m _ (fun i => V i t) _ (fun i => V i t * rc (e t))); [|reflexivity|intros i Hi; apply (EV i t Hi Ht)]. rewrite Et. unfold dot. apply bsum_zero. intros i Hi. change (rc 0) with (0 : CC). ring. }
  intros k Hk. assert (WF : fst (dot r w w) = 0%R) by (rewrite W; reflexivity). exact (dot_self_zero r w WF k Hk).
Qed.

(** ** eigenvalues of a positive matrix of bounded rank *)
Theorem rank_eigs n r A e V : psd n A -> rank_at_most n r A -> eigen_decomposition n A e V -> (forall s t, s <= t -> t < n -> (e s <= e t)%R) ->
  forall t, t < n - r -> e t = 0%R.
Proof.
  intros P (B & C & BC) ED Srt t Ht. pose proof (psd_eig n A V e ED P) as Pe.
  destruct (Req_EM_T (e t) 0) as [E|N]; [exact E|]. exfalso.
  set (k := (n - r - 1)%nat).
  assert (Pos : forall s, k <= s -> s < n -> (0 < e s)%R).
  { intros s Hs Hn. specialize (Pe t ltac:(lia)). specialize (Srt t s ltac:(lia) Hn). lra. }
  destruct (wide_kernel r (S r) (fun a s => bsum n (fun i => C a i * V i (k + s)%nat)) (Nat.lt_succ_diag_r r)) as (x & Nx & Kx).
  set (u := fun i => bsum (S r) (fun s => V i (k + s)%nat * x s)).
  assert (Ku : forall a, a < r -> bsum n (fun i => C a i * u i) = 0).
  { intros a Ha. rewrite <- (Kx a Ha). unfold u. transitivity (bsum n (fun i => bsum (S r) (fun s => C a i * V i (k + s)%nat * x s))).
    - apply bsum_ext; intros i Hi. rewrite <- bsum_mul_l. apply bsum_ext; intros; ring.
    - rewrite bsum_swap. apply bsum_ext; intros s Hs. rewrite bsum_mul_r. reflexivity. }
  assert (Au : forall i, i < n -> app n A u i = 0).
  { intros i Hi. unfold app. transitivity (bsum n (fun j => bsum r (fun a => B i a * (C a j * u j)))).
    - apply bsum_ext; intros j Hj. rewrite (BC i j Hi Hj). unfold mm. rewrite <- bsum_mul_r. apply bsum_ext; intros; ring.
    - rewrite bsum_swap. apply bsum_zero. intros a Ha. rewrite bsum_mul_l, (Ku a Ha). ring. }
  pose proof ED as [[U1 U2] EV].
  (* the component of A u along the eigenvector k + s is e (k + s) x s *)
  assert (X : forall s, s < S r -> x s = 0).
  { intros s Hs. assert (Hks : (k + s < n)%nat) by lia.
    assert (D : dot n (fun i => V i (k + s)%nat) (app n A u) = rc (e (k + s)%nat) * x s).
    { transitivity (bsum (S r) (fun s' => dot n (fun i => V i (k + s)%nat) (fun i => V i (k + s')%nat * rc (e (k + s')%nat)) * x s')).
      - rewrite (dot_ext n _ (fun i => V i (k + s)%nat) _ (fun i => bsum (S r) (fun s' => V i (k + s')%nat * rc (e (k + s')%nat) * x s'))); [|reflexivity|].
        + rewrite dot_bsum_r. apply bsum_ext; intros s' Hs'. apply (dot_scale_r n _ (fun i => V i (k + s')%nat * rc (e (k + s')%nat))).
        + intros i Hi. unfold app, u. transitivity (bsum n (fun j => bsum (S r) (fun s' => A i j * V j (k + s')%nat * x s'))).
          * apply bsum_ext; intros j Hj. rewrite <- bsum_mul_l. apply bsum_ext; intros; ring.
          * rewrite bsum_swap. apply bsum_ext; intros s' Hs'. rewrite bsum_mul_r. f_equal. apply (EV i (k + s')%nat Hi). lia.
      - rewrite (bsum_one (S r) s); [|exact Hs|].
        + rewrite dot_scale_r. specialize (U1 (k + s)%nat (k + s)%nat Hks Hks). unfold mm, adj, eye in U1. rewrite Nat.eqb_refl in U1. unfold dot. rewrite U1. ring.
        + intros s' Hs' Ns. rewrite dot_scale_r. assert (Hks' : (k + s' < n)%nat) by lia. specialize (U1 (k + s)%nat (k + s')%nat Hks Hks'). unfold mm, adj, eye in U1.
          destruct (Nat.eqb_spec (k + s) (k + s')); [lia|]. unfold dot. rewrite U1. ring. }
    rewrite (dot_ext n _ (fun i => V i (k + s)%nat) _ (fun _ => 0)) in D; [|reflexivity|exact Au].
    assert (D0 : rc (e (k + s)%nat) * x s = 0). { rewrite <- D. unfold dot. apply bsum_zero. intros; ring. }
    specialize (Pos (k + s)%nat ltac:(lia) Hks).
    transitivity (rc (/ e (k + s)%nat) * (rc (e (k + s)%nat) * x s)); [|rewrite D0; ring].
    transitivity (rc (/ e (k + s)%nat) * rc (e (k + s)%nat) * x s); [|ring]. rewrite rc_mul, Rinv_l by lra. change (rc 1) with (1 : CC). ring. }
  assert (F : dot (S r) x x = 0) by (unfold dot; apply bsum_zero; intros s Hs; rewrite (X s Hs); ring).
  rewrite F in Nx. apply (f_equal fst) in Nx. cbn in Nx. lra.
Qed.
