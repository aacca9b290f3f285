(** The relative entropy of two positive matrices does not grow under a trace-preserving channel. *)
From Verif Require Import Py Scalar PauliModel PauliSpec EncoderProofs EighExists Spectral SpectralProofs PowerSums KrausModel KrausSpec KrausProofs KrausProofs2 KrausProofs6 KrausProofs8 KrausProofs11 KrausProofs12
  ChoiModel ChannelModel ChannelSpec ChoiSpec ChoiProofs ChoiProofs2 ChoiProofs3 Sqrt EntropyProofs Subadd RelativeReal.
From Coq Require Import Reals Lra FunctionalExtensionality.
Open Scope nat_scope.
Open Scope K_scope.
Add Ring CCring43 : (s_rt CC).

(** ** matrix identities as equations between functions *)
Lemma mmA d e (A B C : array CC) : mm e (mm d A B) C = mm d A (mm e B C).
Proof. extensionality i. extensionality j. apply mm_assoc. Qed.
Lemma adjM d (A B : array CC) : adj (mm d A B) = mm d (adj B) (adj A).
Proof. extensionality i. extensionality j. apply adj_mm. Qed.
Lemma adjA (A : array CC) : adj (adj A) = A.
Proof. extensionality i. extensionality j. apply adj_adj. Qed.
Lemma subl d (A B C : array CC) : mm d (msub A B) C = msub (mm d A C) (mm d B C).
Proof. extensionality i. extensionality j. unfold msub, mm. rewrite <- bsum_sub. apply bsum_ext; intros; ring. Qed.
Lemma subr d (A B C : array CC) : mm d C (msub A B) = msub (mm d C A) (mm d C B).
Proof. extensionality i. extensionality j. unfold msub, mm. rewrite <- bsum_sub. apply bsum_ext; intros; ring. Qed.
Lemma adjsub (A B : array CC) : adj (msub A B) = msub (adj A) (adj B).
Proof. extensionality i. extensionality j. unfold msub, adj. apply sconj_sub. Qed.

(** ** the Schwarz inequality for trace-preserving channels *)
Definition weigh (r d : nat) (rho M : array CC) : CC := tr r (mm d (mm d M rho) (adj M)).
Lemma weigh_quad r d rho M : weigh r d rho M = bsum r (fun i => quad d rho (fun j => (M i j)^* )).
Proof.
  unfold weigh, tr. apply bsum_ext; intros i Hi. unfold quad, mm at 1. rewrite bsum_swap. apply bsum_ext; intros k Hk. unfold mm, adj. rewrite <- bsum_mul_r. apply bsum_ext; intros j Hj. rewrite sconj_conj. reflexivity.
Qed.
Lemma weigh_nonneg r d rho M : psd d rho -> (0 <= fst (weigh r d rho M))%R.
Proof.
  intros P. rewrite weigh_quad, fst_bsum. apply rsum_nonneg. intros i Hi. rewrite psd_quad in P. destruct (P (fun j => (M i j)^* )) as (x & Hx & ->). exact Hx.
Qed.
Lemma ksum_real {T} (f : T -> CC) (l : list T) : (forall x, In x l -> (0 <= fst (f x))%R) -> (0 <= fst (ksum (map f l)))%R.
Proof. intros H. induction l as [|x l IH]; [cbn; lra|]. cbn [map]. rewrite ksum_cons. change (fst (f x + ksum (map f l))) with (fst (f x) + fst (ksum (map f l)))%R. assert (0 <= fst (f x))%R by (apply H; left; reflexivity). assert (0 <= fst (ksum (map f l)))%R by (apply IH; intros; apply H; right; assumption). lra. Qed.
Lemma ksum4 {T} (f g h k : T -> CC) (l : list T) : ksum (map (fun x => f x - g x - h x + k x) l) = ksum (map f l) - ksum (map g l) - ksum (map h l) + ksum (map k l).
Proof. induction l as [|x l IH]; [cbn [map]; rewrite !ksum_nil; ring|]. cbn [map]. rewrite !ksum_cons, IH. ring. Qed.

Section Schwarz.
Variables (e d : nat) (l : list (marr CC)) (rho X : array CC).
Hypothesis F : fits e d l.
Hypothesis TP : trace_preserving d l.
Hypothesis P : psd d rho.
Let Y := adjoint_map l X.
Let act (A : marr CC) (Z : array CC) : array CC := mm (mc A) (mm (mc A) (me A) Z) (adj (me A)).
Lemma adjoint_adj : adjoint_map l (adj X) = adj Y.
Proof.
  extensionality i. extensionality j. unfold Y, adjoint_map, adj. rewrite ksum_conj. apply ksum_ext. intros A HA.
  change (mm (mr A) (mm (mr A) (adj (me A)) (adj X)) (me A) i j = adj (mm (mr A) (mm (mr A) (adj (me A)) X) (me A)) i j). rewrite !adjM, adjA, mmA. reflexivity.
Qed.
Lemma one_term A : In A l -> weigh e d rho (msub (mm e X (me A)) (mm d (me A) Y)) =
  tr e (mm e (mm e X (act A rho)) (adj X)) - tr e (mm e X (act A (mm d rho (adj Y)))) - tr e (mm e (act A (mm d Y rho)) (adj X)) + tr e (act A (mm d (mm d Y rho) (adj Y))).
Proof.
  intros HA. destruct (in_fits _ _ _ _ F HA) as [E1 E2]. unfold act. rewrite E2. unfold weigh. rewrite adjsub, !adjM, !subl, !subr, !tr_msub. rewrite !mmA. ring.
Qed.
Theorem schwarz : (fst (weigh d d rho Y) <= fst (weigh e e (channel_map l rho) X))%R.
Proof.
  assert (S : (0 <= fst (ksum (map (fun A => weigh e d rho (msub (mm e X (me A)) (mm d (me A) Y))) l)))%R) by (apply ksum_real; intros; apply weigh_nonneg, P).
  rewrite (ksum_ext _ _ _ one_term), ksum4 in S.
  assert (C : forall Z, (fun i j => ksum (map (fun A => act A Z i j) l)) = channel_map l Z) by reflexivity.
  assert (S1 : ksum (map (fun A => tr e (mm e (mm e X (act A rho)) (adj X))) l) = weigh e e (channel_map l rho) X).
  { rewrite <- tr_ksum. unfold weigh. apply tr_eqm. intros i j _ _. rewrite <- mm_lin_l. apply mm_ext; [|reflexivity]. intros k _. rewrite <- mm_lin_r. rewrite C. reflexivity. }
  assert (S2 : ksum (map (fun A => tr e (mm e X (act A (mm d rho (adj Y))))) l) = weigh d d rho Y).
  { rewrite <- tr_ksum. transitivity (tr e (mm e X (channel_map l (mm d rho (adj Y))))).
    - apply tr_eqm. intros i j _ _. rewrite <- mm_lin_r, C. reflexivity.
    - rewrite (channel_adjoint e d) by exact F. unfold weigh. rewrite mmA. reflexivity. }
  assert (S3 : ksum (map (fun A => tr e (mm e (act A (mm d Y rho)) (adj X))) l) = weigh d d rho Y).
  { rewrite <- tr_ksum. transitivity (tr e (mm e (channel_map l (mm d Y rho)) (adj X))).
    - apply tr_eqm. intros i j _ _. rewrite <- mm_lin_l, C. reflexivity.
    - rewrite (adjoint_hermitian_swap e d) by exact F. rewrite adjoint_adj. reflexivity. }
  assert (S4 : ksum (map (fun A => tr e (act A (mm d (mm d Y rho) (adj Y)))) l) = weigh d d rho Y).
  { rewrite <- tr_ksum, C. rewrite (channel_trace e d) by assumption. reflexivity. }
  rewrite S1, S2, S3, S4 in S. 
  change (0 <= fst (weigh e e (channel_map l rho) X) - fst (weigh d d rho Y) - fst (weigh d d rho Y) + fst (weigh d d rho Y))%R in S. lra.
Qed.
End Schwarz.

(** ** sums over eigenvectors *)
Lemma tr_eig d A e V (M : array CC) : eigen_decomposition d A e V -> tr d (mm d M A) = bsum d (fun t => rc (e t) * mm d (mm d (adj V) M) V t t).
Proof.
  intros ED. unfold tr. transitivity (bsum d (fun i => bsum d (fun k => bsum d (fun t => M i k * (V k t * rc (e t) * (V i t)^* ))))).
  - apply bsum_ext; intros i Hi. unfold mm at 1. apply bsum_ext; intros k Hk. rewrite (entry_form d A V e ED k i) by assumption. rewrite <- bsum_mul_l. reflexivity.
  - transitivity (bsum d (fun t => bsum d (fun k => bsum d (fun i => M i k * (V k t * rc (e t) * (V i t)^* ))))).
    + rewrite (bsum_ext d _ _ (fun i Hi => bsum_swap _ _ _)). rewrite bsum_swap. apply bsum_ext; intros t Ht. apply bsum_swap.
    + apply bsum_ext; intros t Ht. unfold mm at 1. rewrite <- bsum_mul_l. apply bsum_ext; intros k Hk. unfold mm, adj. rewrite <- bsum_mul_r, <- bsum_mul_l. apply bsum_ext; intros; ring.
Qed.
Lemma col_norm r (B : array CC) t : mm r (adj B) B t t = rc (rsum r (fun i => nsq (B i t))).
Proof.
  unfold mm. transitivity (bsum r (fun i => rc (nsq (B i t)))); [apply bsum_ext; intros i Hi; unfold adj; apply nsq_l|].
  induction r as [|r IH]; [reflexivity|]. cbn [bsum rsum]. rewrite IH. apply CC_eq; cbn; ring.
Qed.
Lemma rc_add x y : rc (x + y) = rc x + rc y. Proof. apply CC_eq; cbn; ring. Qed.
Lemma rc_sum n f : rc (rsum n f) = bsum n (fun i => rc (f i)).
Proof. induction n as [|n IH]; [reflexivity|]. cbn [bsum rsum]. rewrite rc_add, IH. reflexivity. Qed.
Lemma weigh_eig r d A e V (M : array CC) : eigen_decomposition d A e V -> weigh r d A M = rc (rsum d (fun t => e t * rsum r (fun i => nsq (mm d M V i t))))%R.
Proof.
  intros ED. unfold weigh. rewrite tr_mm, <- mmA. rewrite (tr_eig d A e V _ ED). rewrite rc_sum. apply bsum_ext; intros t Ht. rewrite <- rc_mul. f_equal.
  rewrite <- (mmA d r (adj V)), mmA, <- adjM. apply col_norm.
Qed.
Lemma nsq_conj (z : CC) : nsq (z^* ) = nsq z. Proof. destruct z as [x y]. unfold nsq. cbn. ring. Qed.
Lemma norm_left d V (B : array CC) t : unitary d V -> t < d -> rsum d (fun i => nsq (mm d (adj V) B i t)) = rsum d (fun i => nsq (B i t)).
Proof.
  intros [_ U] Ht. apply rc_inj. rewrite <- !col_norm. rewrite adjM, adjA, mmA. rewrite <- (mmA d d V). apply mm_congr_r. intros k Hk.
  transitivity (mm d eye B k t); [|apply mm_eye_l, Hk]. apply (mm_congr_l d d); [exact U|exact Hk].
Qed.
Lemma norm_right d V (B : array CC) j : unitary d V -> j < d -> rsum d (fun i => nsq (mm d B V j i)) = rsum d (fun i => nsq (B j i)).
Proof.
  intros U Hj. rewrite (rsum_ext d _ (fun i => nsq (mm d (adj V) (adj B) i j))).
  - rewrite norm_left by assumption. apply rsum_ext. intros i Hi. unfold adj. apply nsq_conj.
  - intros i Hi. rewrite <- adjM. unfold adj. symmetry. apply nsq_conj.
Qed.

(** ** the variational form of the derivative *)
Section Variational.
Variables (d : nat) (rho sigma U W : array CC) (p q : nat -> R).
Hypothesis ER : eigen_decomposition d rho p U.
Hypothesis ES : eigen_decomposition d sigma q W.
Hypothesis P0 : forall i, i < d -> (0 <= p i)%R.
Hypothesis Q0 : forall i, i < d -> (0 <= q i)%R.
Let G := mm d (adj W) U.
(** the weights and ratios at row j and column i *)
Definition share (k : nat) : R := (p (k mod d)%nat * nsq (G (k / d)%nat (k mod d)%nat))%R.
Definition ratio (k : nat) : R := if Req_EM_T (p (k mod d)%nat) 0 then 1%R else (q (k / d)%nat / p (k mod d)%nat)%R.
Definition score (t : R) (X : array CC) : R := (2 * fst (tr d (mm d (adj X) rho)) - fst (weigh d d sigma (adj X)) - t * fst (weigh d d rho X))%R.
Definition part (t : R) (y : array CC) (j i : nat) : R := (2 * (p i * fst (smul (sconj (y j i)) (G j i))) - (q j + t * p i) * nsq (y j i))%R.
Lemma score_form t X : score t X = rsum d (fun j => rsum d (fun i => part t (mm d (mm d (adj W) X) U) j i)).
Proof.
  set (y := mm d (mm d (adj W) X) U).
  assert (T1 : fst (tr d (mm d (adj X) rho)) = rsum d (fun j => rsum d (fun i => p i * fst (smul (sconj (y j i)) (G j i))))%R).
  { rewrite (tr_eig d rho p U _ ER), fst_bsum. rewrite rsum_swap. apply rsum_ext. intros i Hi.
    transitivity (p i * fst (mm d (adj y) G i i))%R.
    - replace (mm d (mm d (adj U) (adj X)) U i i) with (mm d (adj y) G i i); [cbn; ring|]. unfold y, G. rewrite !adjM, adjA. rewrite <- (mmA d d _ (adj W) U). apply mm_ext; [|reflexivity]. intros k Hk.
      rewrite !mmA. apply mm_congr_r. intros m Hm. transitivity (mm d (adj X) eye m k); [|apply mm_eye_r, Hk]. apply mm_congr_r. intros n Hn. apply (proj1 ES); assumption.
    - rewrite rsum_scale. f_equal. unfold mm. rewrite fst_bsum. apply rsum_ext. intros j Hj. reflexivity. }
  assert (T2 : fst (weigh d d sigma (adj X)) = rsum d (fun j => rsum d (fun i => q j * nsq (y j i)))%R).
  { rewrite (weigh_eig d d sigma q W _ ES). cbn [rc fst]. apply rsum_ext. intros j Hj. rewrite rsum_scale. f_equal. unfold y. rewrite (norm_right d U _ j (proj1 ER) Hj).
    apply rsum_ext. intros i Hi. transitivity (nsq (adj (mm d (adj W) X) i j)); [rewrite adjM, adjA; reflexivity|]. unfold adj at 1. apply nsq_conj. }
  assert (T3 : fst (weigh d d rho X) = rsum d (fun j => rsum d (fun i => p i * nsq (y j i)))%R).
  { rewrite (weigh_eig d d rho p U _ ER). cbn [rc fst]. rewrite rsum_swap. apply rsum_ext. intros i Hi. rewrite rsum_scale. f_equal. unfold y. rewrite mmA. symmetry. apply norm_left; [apply ES|exact Hi]. }
  unfold score. rewrite T1, T2, T3. rewrite <- !rsum_scale, <- !rsum_sub. apply rsum_ext. intros j Hj. rewrite <- !rsum_scale, <- !rsum_sub. apply rsum_ext. intros i Hi. unfold part. ring.
Qed.
Lemma slope_form t : slope (d * d) share ratio t = rsum d (fun j => rsum d (fun i => p i * nsq (G j i) / ((if Req_EM_T (p i) 0 then 1 else q j / p i) + t)))%R.
Proof.
  unfold slope. rewrite rsum_blocks. apply rsum_ext. intros j Hj. apply rsum_ext. intros i Hi. unfold share, ratio. destruct (divmod_l d j i Hi) as [-> ->]. reflexivity.
Qed.
Lemma score_le t X : (0 < t)%R -> (score t X <= slope (d * d) share ratio t)%R.
Proof.
  intros T. rewrite score_form, slope_form. apply rsum_le. intros j Hj. apply rsum_le. intros i Hi. unfold part. set (y := mm d (mm d (adj W) X) U j i). set (g := G j i).
  pose proof (P0 i Hi) as Hp. pose proof (Q0 j Hj) as Hq. destruct (Req_EM_T (p i) 0) as [Z|NZ].
  - rewrite Z. pose proof (nsq_nonneg y). unfold Rdiv. nra.
  - assert (0 < p i)%R by lra. assert (S : (0 < q j + t * p i)%R) by nra.
    replace (p i * nsq g / (q j / p i + t))%R with (p i * p i * nsq g / (q j + t * p i))%R by (field; repeat split; nra).
    apply Rmult_le_reg_r with (q j + t * p i)%R; [exact S|]. replace (p i * p i * nsq g / (q j + t * p i) * (q j + t * p i))%R with (p i * p i * nsq g)%R by (field; lra).
    destruct y as [y1 y2], g as [g1 g2]. unfold nsq. cbn. set (s := (q j + t * p i)%R) in *.
    assert (0 <= (p i * g1 - s * y1) ^ 2 + (p i * g2 - s * y2) ^ 2)%R by (apply Rplus_le_le_0_compat; apply pow2_ge_0). nra.
Qed.
Lemma score_best t : (0 < t)%R -> exists X, score t X = slope (d * d) share ratio t.
Proof.
  intros T. set (y := fun j i => if Req_EM_T (p i) 0 then 0 else G j i * rc (p i / (q j + t * p i))). exists (mm d (mm d W y) (adj U)).
  rewrite score_form, slope_form. apply rsum_ext. intros j Hj. apply rsum_ext. intros i Hi.
  assert (E : mm d (mm d (adj W) (mm d (mm d W y) (adj U))) U j i = y j i).
  { rewrite !mmA. transitivity (mm d (adj W) (mm d W y) j i).
    - apply mm_congr_r. intros k Hk. apply mm_congr_r. intros m Hm. transitivity (mm d y eye m i); [|apply mm_eye_r, Hi]. apply mm_congr_r. intros n Hn. apply (proj1 ER); assumption.
    - rewrite <- mmA. transitivity (mm d eye y j i); [|apply mm_eye_l, Hj]. apply (mm_congr_l d d); [apply (proj1 ES)|exact Hj]. }
  unfold part. rewrite E. unfold y. pose proof (P0 i Hi) as Hp. pose proof (Q0 j Hj) as Hq. destruct (Req_EM_T (p i) 0) as [Z|NZ].
  - rewrite Z. unfold nsq. cbn. unfold Rdiv. ring.
  - assert (0 < p i)%R by lra. assert (S : (0 < q j + t * p i)%R) by nra. destruct (G j i) as [g1 g2]. unfold nsq. cbn. field. repeat split; try lra.
Qed.
End Variational.

(** ** data processing *)
Section Processing.
Variables (e d : nat) (l : list (marr CC)) (rho sigma U W U' W' : array CC) (p q p' q' : nat -> R).
Hypothesis F : fits e d l.
Hypothesis TP : trace_preserving d l.
Hypothesis PR : psd d rho.
Hypothesis PS : psd d sigma.
Hypothesis ER : eigen_decomposition d rho p U.
Hypothesis ES : eigen_decomposition d sigma q W.
Hypothesis ER' : eigen_decomposition e (channel_map l rho) p' U'.
Hypothesis ES' : eigen_decomposition e (channel_map l sigma) q' W'.
Lemma slope_mono t : (0 < t)%R -> (slope (e * e) (share e U' W' p') (ratio e p' q') t <= slope (d * d) (share d U W p) (ratio d p q) t)%R.
Proof.
  intros T. pose proof (channel_psd e d l rho F PR) as PR'. pose proof (channel_psd e d l sigma F PS) as PS'.
  destruct (score_best e _ _ U' W' p' q' ER' ES' (psd_eig _ _ _ _ ER' PR') (psd_eig _ _ _ _ ES' PS') t T) as (X & <-).
  eapply Rle_trans; [|apply (score_le d _ _ U W p q ER ES (psd_eig _ _ _ _ ER PR) (psd_eig _ _ _ _ ES PS) t (adjoint_map l X) T)].
  unfold score. pose proof (schwarz e d l rho X F TP PR) as S1. pose proof (schwarz e d l sigma (adj X) F TP PS) as S2. rewrite adjoint_adj in S2.
  rewrite (channel_adjoint e d l rho (adj X) F), adjoint_adj. 
  assert (t * fst (weigh d d rho (adjoint_map l X)) <= t * fst (weigh e e (channel_map l rho) X))%R by (apply Rmult_le_compat_l; lra). lra.
Qed.
End Processing.

Section Relative.
Variables (d : nat) (rho U W : array CC) (p q : nat -> R).
Hypothesis ER : eigen_decomposition d rho p U.
Hypothesis UW : unitary d W.
Hypothesis P0 : forall i, i < d -> (0 <= p i)%R.
Hypothesis Q0 : forall i, i < d -> (0 <= q i)%R.
Hypothesis SUP : forall j, j < d -> q j = 0%R -> weight d rho W j = 0%R.
Let G := mm d (adj W) U.
Lemma G_nsq i j : nsq (mm d (adj U) W i j) = nsq (G j i).
Proof. unfold G. rewrite <- (adjA W) at 1. rewrite <- adjM. unfold adj at 1. apply nsq_conj. Qed.
Lemma weight_form j : j < d -> weight d rho W j = rsum d (fun i => p i * nsq (G j i))%R.
Proof. intros Hj. rewrite (weight_sum d rho U W p ER j Hj). apply rsum_ext. intros i Hi. rewrite G_nsq. reflexivity. Qed.
Lemma G_cols i : i < d -> rsum d (fun j => nsq (G j i)) = 1%R.
Proof. intros Hi. rewrite <- (rows d rho U W p ER UW i Hi). apply rsum_ext. intros j Hj. symmetry. apply G_nsq. Qed.
Lemma share_nonneg k : k < d * d -> (0 <= share d U W p k)%R.
Proof. intros Hk. unfold share. apply Rmult_le_pos; [apply P0, Nat.mod_upper_bound; lia|apply nsq_nonneg]. Qed.
Lemma ratio_nonneg k : k < d * d -> (0 <= ratio d p q k)%R.
Proof.
  intros Hk. unfold ratio. assert (k mod d < d)%nat by (apply Nat.mod_upper_bound; lia). assert (k / d < d)%nat by (apply Nat.div_lt_upper_bound; lia).
  destruct (Req_EM_T _ _) as [|N]; [lra|]. pose proof (P0 _ H). apply Rmult_le_pos; [apply Q0; assumption|]. left. apply Rinv_0_lt_compat. lra.
Qed.
Lemma share_term j i : j < d -> i < d -> (p i * nsq (G j i) <= weight d rho W j)%R.
Proof.
  intros Hj Hi. rewrite weight_form by exact Hj. apply (rsum_term d (fun i => p i * nsq (G j i))%R); [|exact Hi]. intros k Hk. apply Rmult_le_pos; [apply P0, Hk|apply nsq_nonneg].
Qed.
Lemma ratio_zero k : k < d * d -> ratio d p q k = 0%R -> share d U W p k = 0%R.
Proof.
  intros Hk Z. assert (Hi : (k mod d < d)%nat) by (apply Nat.mod_upper_bound; lia). assert (Hj : (k / d < d)%nat) by (apply Nat.div_lt_upper_bound; lia).
  unfold ratio in Z. destruct (Req_EM_T _ _) as [|N]; [lra|]. assert (q (k / d)%nat = 0)%R.
  { apply Rmult_integral in Z. destruct Z as [Z|Z]; [exact Z|]. exfalso. apply (Rinv_neq_0_compat _ N Z). }
  pose proof (share_term _ _ Hj Hi) as S. rewrite (SUP _ Hj H) in S. pose proof (share_nonneg k Hk) as S0. unfold share in S0 |- *. fold G in S0 |- *. lra.
Qed.
Lemma share_total : rsum (d * d) (share d U W p) = fst (tr d rho).
Proof.
  rewrite <- (eig_sum _ _ _ _ ER). rewrite rsum_blocks, rsum_swap. apply rsum_ext. intros i Hi. transitivity (p i * rsum d (fun j => nsq (G j i)))%R; [|rewrite G_cols by exact Hi; ring].
  rewrite <- rsum_scale. apply rsum_ext. intros j Hj. unfold share. destruct (divmod_l d j i Hi) as [-> ->]. reflexivity.
Qed.
Lemma share_logs : rsum (d * d) (fun k => share d U W p k * ln (ratio d p q k))%R = (rsum d (fun j => weight d rho W j * ln (q j)) - rsum d (fun i => p i * ln (p i)))%R.
Proof.
  rewrite rsum_blocks. transitivity (rsum d (fun j => rsum d (fun i => p i * nsq (G j i) * ln (q j) - p i * ln (p i) * nsq (G j i))))%R.
  - apply rsum_ext. intros j Hj. apply rsum_ext. intros i Hi. unfold share, ratio. destruct (divmod_l d j i Hi) as [-> ->]. fold G. destruct (Req_EM_T (p i) 0) as [Z|NZ]; [rewrite Z; ring|].
    pose proof (P0 i Hi). pose proof (Q0 j Hj). destruct (Req_dec (q j) 0) as [Z|NQ].
    + pose proof (share_term j i Hj Hi) as S. rewrite (SUP j Hj Z) in S. assert (S0 : (0 <= p i * nsq (G j i))%R) by (apply Rmult_le_pos; [lra|apply nsq_nonneg]).
      assert (N : nsq (G j i) = 0%R) by (pose proof (nsq_nonneg (G j i)); nra). rewrite N. ring.
    + unfold Rdiv. rewrite ln_mult, ln_Rinv by (try apply Rinv_0_lt_compat; lra). ring.
  - rewrite (rsum_ext d _ (fun j => weight d rho W j * ln (q j) - rsum d (fun i => p i * ln (p i) * nsq (G j i)))%R).
    + rewrite rsum_sub. f_equal. rewrite rsum_swap. apply rsum_ext. intros i Hi. rewrite rsum_scale, G_cols by exact Hi. ring.
    + intros j Hj. rewrite rsum_sub, weight_form by exact Hj. rewrite rsum_scale_r. reflexivity.
Qed.
End Relative.

Theorem data_processing e d l rho sigma U W U' W' p q p' q' : fits e d l -> trace_preserving d l -> psd d rho -> psd d sigma ->
  eigen_decomposition d rho p U -> eigen_decomposition d sigma q W -> eigen_decomposition e (channel_map l rho) p' U' -> eigen_decomposition e (channel_map l sigma) q' W' ->
  (forall j, j < d -> q j = 0%R -> weight d rho W j = 0%R) -> (forall j, j < e -> q' j = 0%R -> weight e (channel_map l rho) W' j = 0%R) ->
  (rsum d (fun j => weight d rho W j * ln (q j)) - rsum d (fun i => p i * ln (p i)) <=
   rsum e (fun j => weight e (channel_map l rho) W' j * ln (q' j)) - rsum e (fun i => p' i * ln (p' i)))%R.
Proof.
  intros F TP PR PS ER ES ER' ES' S S'. pose proof (channel_psd e d l rho F PR) as PR'. pose proof (channel_psd e d l sigma F PS) as PS'.
  pose proof (psd_eig _ _ _ _ ER PR) as P0. pose proof (psd_eig _ _ _ _ ES PS) as Q0. pose proof (psd_eig _ _ _ _ ER' PR') as P0'. pose proof (psd_eig _ _ _ _ ES' PS') as Q0'.
  rewrite <- (share_logs d rho U W p q ER (proj1 ES) P0 Q0 S), <- (share_logs e _ U' W' p' q' ER' (proj1 ES') P0' Q0' S').
  apply logs_compare; intros.
  - apply share_nonneg; assumption.
  - apply share_nonneg; assumption.
  - apply ratio_nonneg; assumption.
  - apply ratio_nonneg; assumption.
  - apply (ratio_zero d rho U W p q ER P0 S); assumption.
  - apply (ratio_zero e _ U' W' p' q' ER' P0' S'); assumption.
  - rewrite (share_total d rho U W p ER (proj1 ES)), (share_total e _ U' W' p' ER' (proj1 ES')). rewrite (channel_trace e d l rho F TP). reflexivity.
  - apply (slope_mono e d l rho sigma U W U' W' p q p' q'); assumption.
Qed.
