(** Bounds on the coherent information, and its value on pure states and for one operator. *)
From Verif Require Import Py Scalar PauliModel PauliSpec EncoderProofs EighExists Spectral SpectralProofs PowerSums KrausModel KrausSpec KrausProofs KrausProofs2 KrausProofs6 KrausProofs8 KrausProofs11 KrausProofs12
  ChoiModel ChannelModel ChannelSpec ChoiSpec ChoiProofs ChoiProofs2 ChoiProofs3 EntropyProofs EntropySpec Subadd.
From Coq Require Import Reals Lra.
Open Scope R_scope.

(** ** lists of eigenvalues *)
Lemma entropy0 l : Forall (fun x => 0 <= x) l -> entropy_of 0 l = - (sumof (fun x => x * ln x) l) / ln 2.
Proof.
  intros F. rewrite entropy_kept. f_equal. f_equal. unfold sumof, kept. induction F as [|x l H F IH]; [reflexivity|]. cbn [filter map fold_right].
  destruct (Rlt_dec 0 (Rabs x)) as [L|L]; cbn [map fold_right]; rewrite IH; [reflexivity|]. rewrite Rabs_pos_eq in L by exact H. replace x with 0 by lra. ring.
Qed.
(** what leaving out the eigenvalues up to c can cost *)
Lemma small_term c x : 0 < c -> ln c <= -1 -> 0 < x <= c -> - (x * ln x) <= - (c * ln c).
Proof.
  intros C L [X1 X2]. assert (G : ln (c / x) <= c / x - 1) by (apply ln_le_minus, Rdiv_lt_0_compat; lra).
  unfold Rdiv in G. rewrite ln_mult, ln_Rinv in G by (try apply Rinv_0_lt_compat; lra).
  assert (H : x * (ln c + - ln x) <= x * (c * / x - 1)) by (apply Rmult_le_compat_l; lra). replace (x * (c * / x - 1)) with (c - x) in H by (field; lra). nra.
Qed.
Lemma cut_slack : - (cut_off10 * ln cut_off10) / ln 2 <= slack /\ ln cut_off10 <= -1.
Proof.
  pose proof ln2_pos as L2. assert (E : ln cut_off10 = - ln 10000000000) by (unfold cut_off10; apply ln_Rinv; lra). rewrite E. split.
  - assert (B : ln 10000000000 <= 34 * ln 2).
    { replace (34 * ln 2) with (ln (2 ^ 34)) by (rewrite ln_pow by lra; replace (INR 34) with 34 by (simpl; lra); reflexivity). apply Rlt_le, ln_increasing; lra. }
    unfold slack, cut_off10. apply Rmult_le_reg_r with (ln 2); [exact L2|]. unfold Rdiv. rewrite Rmult_assoc, Rinv_l by lra. lra.
  - assert (1 <= ln 10000000000); [|lra]. rewrite <- (ln_exp 1). destruct (Rle_dec (exp 1) 10000000000) as [H|H]; [destruct (Req_dec (exp 1) 10000000000) as [->|]; [lra|left; apply ln_increasing; [apply exp_pos|lra]]|].
    pose proof exp_le_3. lra.
Qed.
Lemma cut_bounds l : Forall (fun x => 0 <= x <= 1) l -> entropy_of cut_off10 l <= entropy_of 0 l <= entropy_of cut_off10 l + INR (length l) * slack.
Proof.
  intros F. split; [apply kept0_mono; [apply cut10_nonneg|exact F]|]. destruct cut_slack as [CS CL]. pose proof ln2_pos as L2. assert (CP : 0 < cut_off10) by (unfold cut_off10; lra).
  assert (SP : 0 < slack) by (unfold slack; lra).
  unfold entropy_of. induction F as [|x l H F IH]; [cbn; lra|]. cbn [map fold_right length]. rewrite S_INR.
  assert (T : (if Rlt_dec cut_off10 (Rabs x) then x * (ln x / ln 2) else 0) <= (if Rlt_dec 0 (Rabs x) then x * (ln x / ln 2) else 0) + slack).
  { rewrite Rabs_pos_eq by lra. destruct (Rlt_dec 0 x) as [P|P]; destruct (Rlt_dec cut_off10 x) as [Q|Q]; try lra.
    assert (- (x * ln x) <= - (cut_off10 * ln cut_off10)) by (apply small_term; lra).
    assert (- (x * ln x) / ln 2 <= - (cut_off10 * ln cut_off10) / ln 2). { unfold Rdiv. apply Rmult_le_compat_r; [left; apply Rinv_0_lt_compat, L2|assumption]. }
    replace (x * (ln x / ln 2)) with (- (- (x * ln x) / ln 2)) by (field; lra). lra. }
  lra.
Qed.

Open Scope nat_scope.
Open Scope K_scope.
Add Ring CCring31 : (s_rt CC).
Lemma von_unique d A d' B s s' : von_neumann d A s -> von_neumann d' B s' -> (forall p, tr d (mpow d A (S p)) = tr d' (mpow d' B (S p))) -> s = s'.
Proof. intros (l & SA & ->) (l' & SB & ->) H. exact (same_entropy _ _ _ _ _ _ _ (Rle_refl 0) SA SB H). Qed.
Lemma von_exists d A : hermitian d A -> exists s, von_neumann d A s.
Proof. intros H. destruct (vn_exists d A H) as (s & l & SP & _). exists (entropy_of 0%R l), l. split; [exact SP|reflexivity]. Qed.
Lemma von_ext d A B s : eqm d d A B -> von_neumann d A s -> von_neumann d B s.
Proof. intros E (l & H & ->). exists l. split; [exact (spectrum_ext _ _ _ _ E H)|reflexivity]. Qed.
Lemma vn_von d A s t : density d A -> vn_entropy d A s -> von_neumann d A t -> (s <= t <= s + INR d * slack)%R.
Proof.
  intros H (l & SP & ->) V. assert (V' : von_neumann d A (entropy_of 0%R l)) by (exists l; auto). rewrite (von_unique d A d A t _ V V') by reflexivity.
  destruct (density_eigs d A l H SP) as [F _]. pose proof (cut_bounds l F) as B. destruct SP as [<- _]. exact B.
Qed.
Lemma von_bounds d A s : density d A -> von_neumann d A s -> (0 <= s <= log2 (INR d))%R.
Proof.
  intros H (l & SP & ->). destruct (density_eigs d A l H SP) as [F S1]. split; [apply entropy_nonneg, F|]. destruct SP as [<- _]. apply entropy_le_length; [lra|exact F|exact S1].
Qed.
(** entropies by eigenvalues *)
Lemma von_form d A s : psd d A -> von_neumann d A s -> exists V e, eigen_decomposition d A e V /\ s = (- rsum d (fun t => e t * ln (e t)) / ln 2)%R.
Proof.
  intros P (l & (L & V & ED) & ->). exists V, (fun t => nth t l 0%R). split; [exact ED|]. rewrite entropy0.
  - rewrite <- rsum_list, L. reflexivity.
  - apply Forall_forall. intros x Hx. destruct (In_nth l x 0%R Hx) as (t & Ht & <-). apply (psd_eig d A V _ ED P). lia.
Qed.

(** ** a unit vector of three systems *)
Definition red1 (r c : nat) (T : nat -> nat -> nat -> CC) : array CC := fun a b => bsum r (fun i => bsum c (fun t => T a i t * (T b i t)^* )).
Definition red2 (p c : nat) (T : nat -> nat -> nat -> CC) : array CC := fun i j => bsum p (fun a => bsum c (fun t => T a i t * (T a j t)^* )).
Definition red3 (p r : nat) (T : nat -> nat -> nat -> CC) : array CC := fun t s => bsum p (fun a => bsum r (fun i => T a i t * (T a i s)^* )).
Lemma psd_outer d c (M : array CC) : psd d (mm c M (adj M)).
Proof.
  rewrite psd_quad. intros v. replace (quad d (mm c M (adj M)) v) with (bsum c (fun t => (bsum d (fun x => (M x t)^* * v x))^* * bsum d (fun x => (M x t)^* * v x))).
  - apply nonneg_bsum. intros t Ht. rewrite nsq_l. exists (nsq (bsum d (fun x => (M x t)^* * v x))). split; [apply nsq_nonneg|reflexivity].
  - unfold quad. transitivity (bsum d (fun i => bsum c (fun t => (v i)^* * M i t * bsum d (fun x => (M x t)^* * v x)))).
    + rewrite bsum_swap. apply bsum_ext; intros t Ht. rewrite bsum_mul_r. f_equal. rewrite bsum_conj. apply bsum_ext; intros x Hx. rewrite sconj_mul, sconj_conj. ring.
    + apply bsum_ext; intros i Hi. transitivity (bsum c (fun t => bsum d (fun j => (v i)^* * (M i t * (M j t)^* ) * v j))).
      * apply bsum_ext; intros t Ht. rewrite <- bsum_mul_l. apply bsum_ext; intros; ring.
      * rewrite bsum_swap. apply bsum_ext; intros j Hj. unfold mm, adj. rewrite <- bsum_mul_l, <- bsum_mul_r. apply bsum_ext; intros; ring.
Qed.
Section Triangle.
Variables (p r c : nat) (T : nat -> nat -> nat -> CC).
Hypothesis N1 : tr p (red1 r c T) = 1.
Let M : array CC := fun x t => T (x / r)%nat (x mod r)%nat t.
Let X := mm c M (adj M).
Lemma M_at a i t : i < r -> M (a * r + i)%nat t = T a i t.
Proof. intros H. unfold M. destruct (divmod_l r a i H) as [-> ->]. reflexivity. Qed.
Lemma X_density : density (p * r) X.
Proof.
  assert (P : psd (p * r) X) by apply psd_outer. split; [apply psd_hermitian, P|]. split; [exact P|]. rewrite <- N1. unfold tr. rewrite bsum_blocks. apply bsum_ext; intros a Ha.
  unfold red1. apply bsum_ext; intros i Hi. unfold X, mm. apply bsum_ext; intros t Ht. unfold adj. rewrite M_at by exact Hi. reflexivity.
Qed.
Lemma X_right a b : trace_out_right r X a b = red1 r c T a b.
Proof. unfold trace_out_right, red1. apply bsum_ext; intros i Hi. unfold X, mm, adj. apply bsum_ext; intros t Ht. rewrite !M_at by exact Hi. reflexivity. Qed.
Lemma X_left i j : i < r -> j < r -> trace_out_left p r X i j = red2 p c T i j.
Proof. intros Hi Hj. unfold trace_out_left, red2. apply bsum_ext; intros a Ha. unfold X, mm, adj. apply bsum_ext; intros t Ht. rewrite !M_at by assumption. reflexivity. Qed.
Lemma X_env t s : red3 p r T t s = transpose (mm (p * r) (adj M) M) t s.
Proof. unfold transpose, red3, mm. rewrite bsum_blocks. apply bsum_ext; intros a Ha. apply bsum_ext; intros i Hi. unfold adj. rewrite !M_at by exact Hi. ring. Qed.
Lemma red1_psd : psd p (red1 r c T).
Proof.
  apply (psd_ext _ (mm (r * c) (fun a x => T a (x / c)%nat (x mod c)%nat) (adj (fun a x => T a (x / c)%nat (x mod c)%nat)))); [|apply psd_outer].
  intros a b _ _. unfold mm, red1. rewrite bsum_blocks. apply bsum_ext; intros i Hi. apply bsum_ext; intros t Ht. unfold adj. destruct (divmod_l c i t Ht) as [-> ->]. reflexivity.
Qed.
Lemma red2_psd : psd r (red2 p c T).
Proof.
  apply (psd_ext _ (mm (p * c) (fun i x => T (x / c)%nat i (x mod c)%nat) (adj (fun i x => T (x / c)%nat i (x mod c)%nat)))); [|apply psd_outer].
  intros a b _ _. unfold mm, red2. rewrite bsum_blocks. apply bsum_ext; intros i Hi. apply bsum_ext; intros t Ht. unfold adj. destruct (divmod_l c i t Ht) as [-> ->]. reflexivity.
Qed.
Theorem triangle s1 s2 s3 : von_neumann p (red1 r c T) s1 -> von_neumann r (red2 p c T) s2 -> von_neumann c (red3 p r T) s3 -> (s3 <= s1 + s2)%R.
Proof.
  intros V1 V2 V3. destruct X_density as (HX & PX & TX). destruct (von_exists _ _ HX) as (sx & VX).
  assert (E3 : s3 = sx).
  { apply (von_unique _ _ _ _ _ _ V3 VX). intros q. unfold X. rewrite tr_gram. rewrite <- tr_mpow_transpose. apply tr_mpow_eqm. intros t s _ _. unfold transpose at 1. rewrite X_env. reflexivity. }
  rewrite E3. destruct (von_form _ _ _ PX VX) as (V & e & EX & ->). destruct (von_form _ _ _ red1_psd V1) as (UA & a & EA & ->). destruct (von_form _ _ _ red2_psd V2) as (UB & b & EB & ->).
  assert (K := subadditive p r X V UA UB e a b X_density EX
    (eigen_ext _ _ _ _ _ (fun i j _ _ => eq_sym (X_right i j)) EA) (eigen_ext _ _ _ _ _ (fun i j Hi Hj => eq_sym (X_left i j Hi Hj)) EB)).
  pose proof (Rinv_0_lt_compat _ ln2_pos). unfold Rdiv. nra.
Qed.
End Triangle.

(** ** a channel and a state *)
Section Channel.
Variables (D O : nat) (ops : list (marr CC)) (rho S : array CC).
Hypothesis F : fits O D ops.
Hypothesis TP : trace_preserving D ops.
Hypothesis DR : density D rho.
Hypothesis SR : square_root D rho S.
Let N := length ops.
Let KS t := mm D (me (nth t ops one_by_one)) S.
Let T a i t := KS t a i.
Lemma sandwich A a b : mm D (mm D (me A) S) (adj (mm D (me A) S)) a b = mm D (mm D (me A) rho) (adj (me A)) a b.
Proof.
  destruct SR as (HS & _ & HR). rewrite (mm_ext D (mm D (me A) S) (mm D (me A) S) (adj (mm D (me A) S)) (mm D (adj S) (adj (me A)))) by (intros; try reflexivity; apply adj_mm).
  rewrite <- mm_assoc. apply mm_ext; [|reflexivity]. intros x Hx. rewrite mm_assoc. apply mm_congr_r. intros l Hl. rewrite <- HR by assumption. apply mm_congr_r. intros q Hq. apply HS; assumption.
Qed.
Lemma out_red a b : red1 D N T a b = channel_map ops rho a b.
Proof.
  unfold red1, channel_map. rewrite bsum_swap. rewrite <- (bsum_ksum_nth ops one_by_one). apply bsum_ext; intros t Ht. destruct (nth_fits _ _ _ t F Ht) as [_ ->].
  rewrite <- sandwich. reflexivity.
Qed.
Lemma ref_red i j : i < D -> j < D -> red2 O N T i j = transpose rho i j.
Proof.
  intros Hi Hj. destruct SR as (HS & _ & HR). unfold transpose. transitivity (mm D S (mm D (gram ops) S) j i).
  - unfold red2. rewrite bsum_swap. transitivity (bsum N (fun t => mm D (adj S) (mm D (mm O (adj (me (nth t ops one_by_one))) (me (nth t ops one_by_one))) S) j i)).
    + apply bsum_ext; intros t Ht. set (A := me (nth t ops one_by_one)). transitivity (mm O (adj (mm D A S)) (mm D A S) j i).
      * unfold mm at 1. apply bsum_ext; intros a Ha. unfold adj, T, KS. fold A. ring.
      * rewrite (mm_ext O _ (mm D (adj S) (adj A)) _ (mm D A S)) by (intros; first [apply adj_mm|reflexivity]). rewrite mm_assoc. apply mm_ext; [reflexivity|]. intros l Hl. symmetry. apply mm_assoc.
    + unfold N. rewrite (bsum_ksum_nth ops one_by_one (fun A => mm D (adj S) (mm D (mm O (adj (me A)) (me A)) S) j i)).
      rewrite <- (mm_lin_r D (adj S) (fun A => mm D (mm O (adj (me A)) (me A)) S) ops j i). apply mm_ext; [intros; apply HS; assumption|]. intros l Hl.
      rewrite <- (mm_lin_l D S (fun A => mm O (adj (me A)) (me A)) ops l i). apply mm_ext; [|reflexivity]. intros x Hx. unfold gram. apply ksum_ext. intros A HA. destruct (in_fits _ _ _ _ F HA) as [-> _]. reflexivity.
  - rewrite <- HR by assumption. apply mm_congr_r. intros l Hl. rewrite (mm_ext D (gram ops) eye S S) by (intros; first [apply TP; assumption|reflexivity]). apply mm_eye_l, Hl.
Qed.
Lemma env_red t s : t < N -> s < N -> red3 O D T t s = exchange_entry ops rho t s.
Proof.
  intros Ht Hs. unfold red3, exchange_entry. destruct (nth_fits _ _ _ t F Ht) as [A1 A2]. rewrite A1, A2. destruct SR as (HS & _ & HR).
  set (A := me (nth t ops one_by_one)). set (B := me (nth s ops one_by_one)). apply bsum_ext; intros a Ha.
  transitivity (mm D (mm D A S) (adj (mm D B S)) a a); [reflexivity|].
  rewrite (mm_ext D (mm D A S) (mm D A S) (adj (mm D B S)) (mm D (adj S) (adj B))) by (intros; try reflexivity; apply adj_mm).
  rewrite <- mm_assoc. apply mm_ext; [|reflexivity]. intros x Hx. rewrite mm_assoc. apply mm_congr_r. intros l Hl. rewrite <- HR by assumption. apply mm_congr_r. intros q Hq. apply HS; assumption.
Qed.
Theorem triangles sR sO sE : von_neumann D rho sR -> von_neumann O (channel_map ops rho) sO -> von_neumann N (exchange_entry ops rho) sE ->
  (sE <= sO + sR /\ sO <= sR + sE /\ sR <= sO + sE)%R.
Proof.
  intros VR VO VE. 
  assert (VR' : von_neumann D (red2 O N T) sR).
  { apply (von_ext _ (transpose rho)); [intros i j Hi Hj; symmetry; apply ref_red; assumption|]. assert (HT : hermitian D (transpose rho)) by (intros i j Hi Hj; unfold adj, transpose; apply (proj1 DR); assumption).
    destruct (von_exists _ _ HT) as (s & Vs). replace sR with s; [exact Vs|]. apply (von_unique _ _ _ _ _ _ Vs VR). intros q. apply tr_mpow_transpose. }
  assert (VO' : von_neumann O (red1 D N T) sO) by (apply (von_ext _ _ _ _ (fun a b _ _ => eq_sym (out_red a b)) VO)).
  assert (VE' : von_neumann N (red3 O D T) sE) by (apply (von_ext _ _ _ _ (fun t s Ht Hs => eq_sym (env_red t s Ht Hs)) VE)).
  assert (T1 : tr O (red1 D N T) = 1).
  { rewrite (tr_eqm O _ (channel_map ops rho)) by (intros i j Hi Hj; apply out_red). rewrite (channel_trace O D ops rho F TP). apply DR. }
  assert (T2 : tr D (red2 O N T) = 1).
  { rewrite (tr_eqm D _ (transpose rho)) by (intros i j Hi Hj; apply ref_red; assumption). apply DR. }
  split; [|split].
  - exact (triangle O D N T T1 sO sR sE VO' VR' VE').
  - apply (triangle D N O (fun i t a => T a i t)).
    + rewrite <- T2. apply bsum_ext; intros i Hi. unfold red1, red2. apply bsum_swap.
    + apply (von_ext _ (red2 O N T)); [|exact VR']. intros i j _ _. unfold red1, red2. apply bsum_swap.
    + apply (von_ext _ (red3 O D T)); [|exact VE']. intros t s _ _. unfold red2, red3. apply bsum_swap.
    + exact VO'.
  - apply (triangle O N D (fun a t i => T a i t)).
    + rewrite <- T1. apply bsum_ext; intros a Ha. unfold red1. apply bsum_swap.
    + apply (von_ext _ (red1 D N T)); [|exact VO']. intros a b _ _. unfold red1. apply bsum_swap.
    + exact VE'.
    + exact VR'.
Qed.
End Channel.
