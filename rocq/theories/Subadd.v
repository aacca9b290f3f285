(** Klein's inequality and the subadditivity of the von Neumann entropy. *)
From Verif Require Import Py Scalar PauliModel PauliSpec EncoderProofs EighExists Spectral SpectralProofs PowerSums KrausModel KrausSpec KrausProofs KrausProofs2 KrausProofs6 KrausProofs8 KrausProofs11 KrausProofs12
  ChoiModel ChannelModel ChannelSpec ChoiSpec ChoiProofs ChoiProofs2 ChoiProofs3 EntropyProofs.
From Coq Require Import Reals Lra.
Open Scope R_scope.

(** ** real sums *)
Fixpoint rsum (n : nat) (f : nat -> R) : R := match n with O => 0 | S m => rsum m f + f m end.
Lemma rsum_ext n f g : (forall i, (i < n)%nat -> f i = g i) -> rsum n f = rsum n g.
Proof. intros H. induction n as [|n IH]; cbn; [reflexivity|]. rewrite IH, H by (intros; try apply H; lia). reflexivity. Qed.
Lemma rsum_0 n : rsum n (fun _ => 0) = 0.
Proof. induction n as [|n IH]; cbn; [reflexivity|]. rewrite IH. ring. Qed.
Lemma rsum_add n f g : rsum n (fun i => f i + g i) = rsum n f + rsum n g.
Proof. induction n as [|n IH]; cbn; [ring|]. rewrite IH. ring. Qed.
Lemma rsum_sub n f g : rsum n (fun i => f i - g i) = rsum n f - rsum n g.
Proof. induction n as [|n IH]; cbn; [ring|]. rewrite IH. ring. Qed.
Lemma rsum_scale n a f : rsum n (fun i => a * f i) = a * rsum n f.
Proof. induction n as [|n IH]; cbn; [ring|]. rewrite IH. ring. Qed.
Lemma rsum_scale_r n a f : rsum n (fun i => f i * a) = rsum n f * a.
Proof. induction n as [|n IH]; cbn; [ring|]. rewrite IH. ring. Qed.
Lemma rsum_le n f g : (forall i, (i < n)%nat -> f i <= g i) -> rsum n f <= rsum n g.
Proof. intros H. induction n as [|n IH]; cbn; [lra|]. apply Rplus_le_compat; [apply IH; intros; apply H; lia|apply H; lia]. Qed.
Lemma rsum_nonneg n f : (forall i, (i < n)%nat -> 0 <= f i) -> 0 <= rsum n f.
Proof. intros H. rewrite <- (rsum_0 n). apply rsum_le, H. Qed.
Lemma rsum_swap n m (f : nat -> nat -> R) : rsum n (fun i => rsum m (fun j => f i j)) = rsum m (fun j => rsum n (fun i => f i j)).
Proof. induction n as [|n IH]; cbn; [symmetry; apply rsum_0|]. rewrite IH, <- rsum_add. reflexivity. Qed.
Lemma rsum_split a b f : rsum (a + b) f = rsum a f + rsum b (fun i => f (a + i)%nat).
Proof. induction b as [|b IH]; cbn; [rewrite Nat.add_0_r; ring|]. rewrite Nat.add_succ_r. cbn. rewrite IH. ring. Qed.
Lemma rsum_blocks n m f : rsum (n * m) f = rsum n (fun b => rsum m (fun i => f (b * m + i)%nat)).
Proof. induction n as [|n IH]; [reflexivity|]. cbn [rsum]. rewrite <- IH. replace (S n * m)%nat with (n * m + m)%nat by lia. apply rsum_split. Qed.
Lemma rsum_term n f i : (forall j, (j < n)%nat -> 0 <= f j) -> (i < n)%nat -> f i <= rsum n f.
Proof.
  intros H Hi. induction n as [|n IH]; [lia|]. cbn [rsum]. destruct (Nat.eq_dec i n) as [->|N].
  - assert (0 <= rsum n f) by (apply rsum_nonneg; intros; apply H; lia). lra.
  - assert (f i <= rsum n f) by (apply IH; [intros; apply H; lia|lia]). assert (0 <= f n) by (apply H; lia). lra.
Qed.
Lemma fst_bsum n (f : nat -> CC) : fst (bsum n f) = rsum n (fun i => fst (f i)).
Proof. induction n as [|n IH]; [reflexivity|]. cbn [bsum rsum]. rewrite <- IH. reflexivity. Qed.
Lemma rsum_list l f : rsum (length l) (fun t => f (nth t l 0)) = sumof f l.
Proof.
  induction l as [|x l IH]; [reflexivity|]. cbn [length]. change (S (length l)) with (1 + length l)%nat. rewrite rsum_split.
  cbn [rsum nth]. unfold sumof in *. cbn [map fold_right]. rewrite <- IH. rewrite (rsum_ext _ (fun i => f (nth (1 + i) (x :: l) 0)) (fun i => f (nth i l 0))) by reflexivity. ring.
Qed.

Definition nsq (z : CC) : R := fst z * fst z + snd z * snd z.
Lemma nsq_nonneg z : 0 <= nsq z. Proof. unfold nsq. nra. Qed.
Lemma nsq_l (z : CC) : smul (sconj z) z = rc (nsq z). Proof. destruct z as [x y]. unfold nsq. apply CC_eq; cbn; ring. Qed.
Lemma nsq_r (z : CC) : smul z (sconj z) = rc (nsq z). Proof. destruct z as [x y]. unfold nsq. apply CC_eq; cbn; ring. Qed.

Open Scope nat_scope.
Open Scope K_scope.
Add Ring CCring30 : (s_rt CC).

Lemma unitary_prod d (U V : array CC) : unitary d U -> unitary d V -> unitary d (mm d (adj U) V).
Proof.
  intros [U1 U2] [V1 V2]. split; intros i j Hi Hj.
  - transitivity (mm d (mm d (adj V) U) (mm d (adj U) V) i j).
    { apply mm_ext; [|reflexivity]. intros k Hk. rewrite adj_mm. apply mm_ext; [reflexivity|]. intros l Hl. apply adj_adj. }
    rewrite mm_assoc. rewrite (mm_congr_r d _ _ V); [apply V1; assumption|]. intros l Hl. rewrite <- mm_assoc. rewrite (mm_ext d _ eye V V) by (intros; first [apply U2; assumption|reflexivity]). apply mm_eye_l, Hl.
  - transitivity (mm d (mm d (adj U) V) (mm d (adj V) U) i j).
    { apply mm_ext; [reflexivity|]. intros k Hk. rewrite adj_mm. apply mm_ext; [reflexivity|]. intros l Hl. apply adj_adj. }
    rewrite mm_assoc. rewrite (mm_congr_r d _ _ U); [apply U1; assumption|]. intros l Hl. rewrite <- mm_assoc. rewrite (mm_ext d _ eye U U) by (intros; first [apply V2; assumption|reflexivity]). apply mm_eye_l, Hl.
Qed.
Lemma unitary_kf d d' (U V : array CC) : unitary d U -> unitary d' V -> unitary (d * d') (kf d' d' U V).
Proof.
  intros [U1 U2] [V1 V2]. split; intros i j Hi Hj; assert (0 < d')%nat by lia.
  - rewrite (mm_ext _ _ (kf d' d' (adj U) (adj V)) _ (kf d' d' U V)) by (intros; first [apply adj_kf|reflexivity]). rewrite mm_kf.
    rewrite (kf_ext d d' d d' _ eye _ eye U1 V1 i j Hi Hj). apply eye_kf; assumption.
  - rewrite (mm_ext _ (kf d' d' U V) (kf d' d' U V) _ (kf d' d' (adj U) (adj V))) by (intros; first [reflexivity|apply adj_kf]). rewrite mm_kf.
    rewrite (kf_ext d d' d d' _ eye _ eye U2 V2 i j Hi Hj). apply eye_kf; assumption.
Qed.

Section Klein.
Variables (m : nat) (rho V F : array CC) (p q : nat -> R).
Hypothesis ED : eigen_decomposition m rho p V.
Hypothesis UF : unitary m F.
Hypothesis P0 : forall i, i < m -> (0 <= p i)%R.
Hypothesis Q0 : forall j, j < m -> (0 <= q j)%R.
Hypothesis PQ : rsum m p = rsum m q.
(** the weight of the state on column j of F *)
Definition weight (j : nat) : R := fst (quad m rho (fun i => F i j)).
Hypothesis SUP : forall j, j < m -> q j = 0%R -> weight j = 0%R.
Let G := mm m (adj V) F.
Let P i j := nsq (G i j).
Lemma rows i : i < m -> rsum m (fun j => P i j) = 1%R.
Proof.
  intros Hi. destruct (unitary_prod m V F (proj1 ED) UF) as [_ U]. fold G in U. specialize (U i i Hi Hi). unfold eye in U. rewrite Nat.eqb_refl in U.
  apply (f_equal fst) in U. unfold mm at 1 in U. rewrite fst_bsum in U. rewrite (rsum_ext m _ (fun j => fst (G i j * adj G j i))); [exact U|]. intros j Hj. unfold adj. rewrite nsq_r. reflexivity.
Qed.
Lemma cols j : j < m -> rsum m (fun i => P i j) = 1%R.
Proof.
  intros Hj. destruct (unitary_prod m V F (proj1 ED) UF) as [U _]. fold G in U. specialize (U j j Hj Hj). unfold eye in U. rewrite Nat.eqb_refl in U.
  apply (f_equal fst) in U. unfold mm at 1 in U. rewrite fst_bsum in U. rewrite (rsum_ext m _ (fun i => fst (adj G j i * G i j))); [exact U|]. intros i Hi. unfold adj. rewrite nsq_l. reflexivity.
Qed.
Lemma weight_sum j : j < m -> weight j = rsum m (fun i => p i * P i j)%R.
Proof.
  intros Hj. unfold weight. transitivity (fst (bsum m (fun t => rc (p t * P t j)))); [|rewrite fst_bsum; reflexivity]. f_equal. unfold quad.
  transitivity (bsum m (fun i => bsum m (fun k => bsum m (fun t => (F i j)^* * V i t * (rc (p t) * ((V k t)^* * F k j)))))).
  - apply bsum_ext; intros i Hi. apply bsum_ext; intros k Hk. rewrite (entry_form m rho V p ED i k) by assumption. rewrite <- bsum_mul_l, <- bsum_mul_r. apply bsum_ext; intros; ring.
  - transitivity (bsum m (fun i => bsum m (fun t => (F i j)^* * V i t * (rc (p t) * G t j)))).
    + apply bsum_ext; intros i Hi. rewrite bsum_swap. apply bsum_ext; intros t Ht. rewrite !bsum_mul_l. reflexivity.
    + rewrite bsum_swap. apply bsum_ext; intros t Ht. rewrite bsum_mul_r.
      replace (bsum m (fun i => (F i j)^* * V i t)) with ((G t j)^*).
      * replace ((G t j)^* * (rc (p t) * G t j)) with (rc (p t) * ((G t j)^* * G t j)) by ring. rewrite nsq_l, rc_mul. reflexivity.
      * unfold G, mm. rewrite bsum_conj. apply bsum_ext; intros i Hi. unfold adj. rewrite sconj_mul, sconj_conj. ring.
Qed.
Theorem klein : (rsum m (fun j => weight j * ln (q j)) <= rsum m (fun i => p i * ln (p i)))%R.
Proof.
  assert (T : forall i j, i < m -> j < m -> (p i * P i j * (ln (q j) - ln (p i)) <= P i j * (q j - p i))%R).
  { intros i j Hi Hj. assert (N : (0 <= P i j)%R) by apply nsq_nonneg. pose proof (P0 i Hi) as Hp. pose proof (Q0 j Hj) as Hq.
    destruct (Req_dec (P i j) 0) as [Z|NZ]; [rewrite Z; lra|]. destruct (Req_dec (p i) 0) as [Z|NP]; [rewrite Z; nra|].
    destruct (Req_dec (q j) 0) as [Z|NQ].
    - exfalso. pose proof (SUP j Hj Z) as W. rewrite weight_sum in W by exact Hj.
      assert (p i * P i j <= 0)%R. { rewrite <- W. apply (rsum_term m (fun i => p i * P i j)%R); [|exact Hi]. intros k Hk. apply Rmult_le_pos; [apply P0, Hk|apply nsq_nonneg]. }
      assert (0 < p i * P i j)%R by (apply Rmult_lt_0_compat; lra). lra.
    - assert (ln (q j / p i) <= q j / p i - 1)%R by (apply ln_le_minus, Rdiv_lt_0_compat; lra). unfold Rdiv in H. rewrite ln_mult, ln_Rinv in H by (try apply Rinv_0_lt_compat; lra).
      replace (P i j * (q j - p i))%R with (P i j * (p i * (q j * / p i - 1)))%R by (field; exact NP).
      replace (p i * P i j * (ln (q j) - ln (p i)))%R with (P i j * (p i * (ln (q j) + - ln (p i))))%R by ring.
      apply Rmult_le_compat_l; [exact N|]. apply Rmult_le_compat_l; lra. }
  assert (S : (rsum m (fun i => rsum m (fun j => p i * P i j * (ln (q j) - ln (p i)))) <= rsum m (fun i => rsum m (fun j => P i j * (q j - p i))))%R).
  { apply rsum_le. intros i Hi. apply rsum_le. intros j Hj. apply T; assumption. }
  assert (R0 : rsum m (fun i => rsum m (fun j => P i j * (q j - p i)))%R = 0%R).
  { rewrite (rsum_ext m _ (fun i => rsum m (fun j => P i j * q j) - p i)%R).
    - rewrite rsum_sub, rsum_swap. rewrite (rsum_ext m (fun j => rsum m _) q); [rewrite PQ; ring|]. intros j Hj. rewrite rsum_scale_r, cols by exact Hj. ring.
    - intros i Hi. rewrite (rsum_ext m _ (fun j => P i j * q j - P i j * p i)%R) by (intros; ring). rewrite rsum_sub, (rsum_scale_r m (p i)), rows by exact Hi. ring. }
  rewrite R0 in S. 
  rewrite (rsum_ext m (fun j => weight j * ln (q j))%R (fun j => rsum m (fun i => p i * P i j * ln (q j)))%R) by (intros; rewrite weight_sum, <- rsum_scale_r by assumption; reflexivity).
  rewrite <- rsum_swap. rewrite (rsum_ext m (fun i => p i * ln (p i))%R (fun i => rsum m (fun j => p i * P i j * ln (p i)))%R).
  - rewrite (rsum_ext m _ (fun i => rsum m (fun j => p i * P i j * ln (q j)) - rsum m (fun j => p i * P i j * ln (p i)))%R) in S.
    + rewrite rsum_sub in S. lra.
    + intros i Hi. rewrite <- rsum_sub. apply rsum_ext. intros; ring.
  - intros i Hi. rewrite (rsum_ext m _ (fun j => p i * ln (p i) * P i j)%R) by (intros; ring). rewrite rsum_scale, rows by exact Hi. ring.
Qed.
End Klein.

(** ** subadditivity *)
(** the partial traces of a matrix on a p-dimensional and an r-dimensional system *)
Definition trace_out_right (r : nat) (X : array CC) : array CC := fun i j => bsum r (fun t => X (i * r + t)%nat (j * r + t)%nat).
Definition trace_out_left (p r : nat) (X : array CC) : array CC := fun t s => bsum p (fun i => X (i * r + t)%nat (i * r + s)%nat).

Section Sub.
Variables (p r : nat) (X : array CC).
Let A := trace_out_right r X.
Let B := trace_out_left p r X.
Variables (V UA UB : array CC) (e a b : nat -> R).
Hypothesis DX : density (p * r) X.
Hypothesis EX : eigen_decomposition (p * r) X e V.
Hypothesis EA : eigen_decomposition p A a UA.
Hypothesis EB : eigen_decomposition r B b UB.
Let F := kf r r UA UB.
Lemma quad_blocks (v : nat -> CC) : quad (p * r) X v =
  bsum p (fun i => bsum p (fun j => bsum r (fun t => bsum r (fun s => (v (i * r + t)%nat)^* * X (i * r + t)%nat (j * r + s)%nat * v (j * r + s)%nat)))).
Proof.
  unfold quad. rewrite bsum_blocks. apply bsum_ext; intros i Hi. rewrite (bsum_ext r _ (fun t => bsum p (fun j => bsum r (fun s => (v (i * r + t)%nat)^* * X (i * r + t)%nat (j * r + s)%nat * v (j * r + s)%nat)))) by (intros; apply bsum_blocks).
  apply bsum_swap.
Qed.
Lemma F_col k l i t : k < p -> l < r -> i < p -> t < r -> F (i * r + t)%nat (k * r + l)%nat = UA i k * UB t l.
Proof. intros. unfold F, kf. destruct (divmod_l r i t) as [-> ->]; [assumption|]. destruct (divmod_l r k l) as [-> ->]; [assumption|]. reflexivity. Qed.
Let w k l := quad (p * r) X (fun x => F x (k * r + l)%nat).
Lemma w_form k l : k < p -> l < r -> w k l = bsum p (fun i => bsum p (fun j => bsum r (fun t => bsum r (fun s =>
   (UA i k)^* * UA j k * X (i * r + t)%nat (j * r + s)%nat * ((UB t l)^* * UB s l))))).
Proof.
  intros Hk Hl. unfold w. rewrite quad_blocks. apply bsum_ext; intros i Hi. apply bsum_ext; intros j Hj. apply bsum_ext; intros t Ht. apply bsum_ext; intros s Hs.
  rewrite !F_col by assumption. rewrite sconj_mul. ring.
Qed.
Lemma w_right k : k < p -> bsum r (fun l => w k l) = rc (a k).
Proof.
  intros Hk. rewrite <- (eig_quad p A UA a EA k Hk). unfold quad. rewrite (bsum_ext r (fun l => w k l) _ (fun l Hl => w_form k l Hk Hl)).
  rewrite bsum_swap. apply bsum_ext; intros i Hi. rewrite bsum_swap. apply bsum_ext; intros j Hj. rewrite bsum_swap.
  unfold A, trace_out_right. rewrite <- bsum_mul_l, <- bsum_mul_r. apply bsum_ext; intros t Ht. rewrite bsum_swap.
  rewrite (bsum_one r t).
  - rewrite bsum_mul_l. destruct EB as [[_ U] _]. specialize (U t t Ht Ht). unfold mm, adj, eye in U. rewrite Nat.eqb_refl in U.
    rewrite (bsum_ext r (fun l => (UB t l)^* * UB t l) (fun l => UB t l * (UB t l)^*)) by (intros; ring). rewrite U. ring.
  - exact Ht.
  - intros s Hs N. rewrite bsum_mul_l. destruct EB as [[_ U] _]. specialize (U s t Hs Ht). unfold mm, adj, eye in U. destruct (Nat.eqb_spec s t); [contradiction|].
    rewrite (bsum_ext r (fun l => (UB t l)^* * UB s l) (fun l => UB s l * (UB t l)^*)) by (intros; ring). rewrite U. ring.
Qed.
Lemma w_left l : l < r -> bsum p (fun k => w k l) = rc (b l).
Proof.
  intros Hl. rewrite <- (eig_quad r B UB b EB l Hl). unfold quad. rewrite (bsum_ext p (fun k => w k l) _ (fun k Hk => w_form k l Hk Hl)).
  transitivity (bsum p (fun i => bsum p (fun j => bsum r (fun t => bsum r (fun s => bsum p (fun k => UA j k * (UA i k)^* ) * (X (i * r + t)%nat (j * r + s)%nat * ((UB t l)^* * UB s l))))))).
  - rewrite bsum_swap. apply bsum_ext; intros i Hi. rewrite bsum_swap. apply bsum_ext; intros j Hj. rewrite bsum_swap. apply bsum_ext; intros t Ht. rewrite bsum_swap. apply bsum_ext; intros s Hs.
    rewrite <- bsum_mul_r. apply bsum_ext; intros; ring.
  - destruct EA as [[_ U] _].
    transitivity (bsum p (fun i => bsum r (fun t => bsum r (fun s => X (i * r + t)%nat (i * r + s)%nat * ((UB t l)^* * UB s l))))).
    + apply bsum_ext; intros i Hi. rewrite (bsum_one p i); [|exact Hi|].
      * apply bsum_ext; intros t Ht. apply bsum_ext; intros s Hs. specialize (U i i Hi Hi). unfold mm, adj, eye in U. rewrite Nat.eqb_refl in U. rewrite U. ring.
      * intros j Hj N. apply bsum_zero; intros t Ht. apply bsum_zero; intros s Hs. specialize (U j i Hj Hi). unfold mm, adj, eye in U. destruct (Nat.eqb_spec j i); [contradiction|]. rewrite U. ring.
    + rewrite bsum_swap. apply bsum_ext; intros t Ht. rewrite bsum_swap. apply bsum_ext; intros s Hs. unfold B, trace_out_left. rewrite <- bsum_mul_l, <- bsum_mul_r. apply bsum_ext; intros; ring.
Qed.
Lemma w_nonneg k l : k < p -> l < r -> (0 <= fst (w k l))%R.
Proof. intros _ _. destruct DX as (_ & P & _). rewrite psd_quad in P. destruct (P (fun x => F x (k * r + l)%nat)) as (x & Hx & E). unfold w. rewrite E. exact Hx. Qed.
Lemma a_sum k : k < p -> a k = rsum r (fun l => fst (w k l)).
Proof. intros Hk. pose proof (w_right k Hk) as H. apply (f_equal fst) in H. rewrite fst_bsum in H. symmetry. exact H. Qed.
Lemma b_sum l : l < r -> b l = rsum p (fun k => fst (w k l)).
Proof. intros Hl. pose proof (w_left l Hl) as H. apply (f_equal fst) in H. rewrite fst_bsum in H. symmetry. exact H. Qed.
Lemma eig_sum d Y W f : eigen_decomposition d Y f W -> rsum d f = fst (tr d Y).
Proof.
  intros E. transitivity (fst (tr d (mpow d Y 1))).
  - rewrite (trace_power d Y W f E). cbn [rc fst]. clear. induction d as [|d IH]; [reflexivity|]. cbn [rsum]. rewrite seq_S, map_app, fold_right_app, IH. clear IH.
    generalize (map (fun t => (f t ^ 1)%R) (seq 0 d)). intros l. cbn. induction l as [|x l IH]; cbn; [lra|]. cbn in IH. rewrite <- IH. lra.
  - f_equal. apply tr_eqm. intros i j Hi Hj. cbn [mpow]. apply mm_eye_r, Hj.
Qed.
Lemma tr_A : tr p A = tr (p * r) X. Proof. unfold tr, A, trace_out_right. rewrite bsum_blocks. reflexivity. Qed.
Lemma tr_B : tr r B = tr (p * r) X. Proof. unfold tr, B, trace_out_left. rewrite bsum_blocks, bsum_swap. reflexivity. Qed.
Theorem subadditive : (rsum p (fun k => a k * ln (a k)) + rsum r (fun l => b l * ln (b l)) <= rsum (p * r) (fun i => e i * ln (e i)))%R.
Proof.
  pose proof DX as (HX & PX & TX).
  assert (A0 : forall k, k < p -> (0 <= a k)%R) by (intros k Hk; rewrite a_sum by exact Hk; apply rsum_nonneg; intros; apply w_nonneg; assumption).
  assert (B0 : forall l, l < r -> (0 <= b l)%R) by (intros l Hl; rewrite b_sum by exact Hl; apply rsum_nonneg; intros; apply w_nonneg; assumption).
  set (q := fun x => (a (x / r)%nat * b (x mod r)%nat)%R).
  assert (WQ : forall k l, k < p -> l < r -> q (k * r + l)%nat = (a k * b l)%R) by (intros k l Hk Hl; unfold q; destruct (divmod_l r k l Hl) as [-> ->]; reflexivity).
  assert (WZ : forall k l, k < p -> l < r -> (a k = 0%R \/ b l = 0%R) -> fst (w k l) = 0%R).
  { intros k l Hk Hl Z. pose proof (w_nonneg k l Hk Hl) as N. apply Rle_antisym; [|exact N]. destruct Z as [Z|Z]; rewrite <- Z.
    - rewrite a_sum by exact Hk. apply (rsum_term r (fun l => fst (w k l))); [intros; apply w_nonneg; assumption|exact Hl].
    - rewrite b_sum by exact Hl. apply (rsum_term p (fun k => fst (w k l))); [intros; apply w_nonneg; assumption|exact Hk]. }
  assert (K : (rsum (p * r) (fun j => weight (p * r) X F j * ln (q j)) <= rsum (p * r) (fun i => e i * ln (e i)))%R).
  { apply (klein (p * r) X V F e q EX).
    - apply unitary_kf; [apply EA|apply EB].
    - apply (psd_eig _ _ _ _ EX PX).
    - intros j Hj. unfold q. assert (r <> 0)%nat by lia. apply Rmult_le_pos; [apply A0, Nat.div_lt_upper_bound; lia|apply B0, Nat.mod_upper_bound; lia].
    - rewrite (eig_sum _ _ _ _ EX), TX. rewrite rsum_blocks. rewrite (rsum_ext p _ (fun k => a k * rsum r b)%R).
      + rewrite rsum_scale_r, (eig_sum _ _ _ _ EA), (eig_sum _ _ _ _ EB), tr_A, tr_B, TX. cbn. ring.
      + intros k Hk. rewrite <- rsum_scale. apply rsum_ext. intros l Hl. apply WQ; assumption.
    - intros j Hj Z. assert (R0 : (r <> 0)%nat) by lia. rewrite (Nat.div_mod j r R0). rewrite (Nat.mul_comm r). apply WZ; [apply Nat.div_lt_upper_bound; lia|apply Nat.mod_upper_bound, R0|].
      unfold q in Z. apply Rmult_integral in Z. exact Z. }
  eapply Rle_trans; [|exact K]. apply Req_le. rewrite rsum_blocks.
  transitivity (rsum p (fun k => rsum r (fun l => fst (w k l) * ln (a k) + fst (w k l) * ln (b l)))%R).
  - rewrite (rsum_ext p (fun k => rsum r (fun l => fst (w k l) * ln (a k) + fst (w k l) * ln (b l)))%R (fun k => a k * ln (a k) + rsum r (fun l => fst (w k l) * ln (b l)))%R).
    + rewrite rsum_add. f_equal. rewrite rsum_swap. apply rsum_ext. intros l Hl. rewrite rsum_scale_r, b_sum by exact Hl. reflexivity.
    + intros k Hk. rewrite rsum_add. f_equal. rewrite rsum_scale_r, <- a_sum by exact Hk. reflexivity.
  - apply rsum_ext. intros k Hk. apply rsum_ext. intros l Hl. rewrite WQ by assumption. unfold weight. fold (w k l).
    destruct (Req_dec (a k) 0) as [Z|NA]; [rewrite (WZ k l Hk Hl (or_introl Z)); ring|]. destruct (Req_dec (b l) 0) as [Z|NB]; [rewrite (WZ k l Hk Hl (or_intror Z)); ring|].
    pose proof (A0 k Hk). pose proof (B0 l Hl). rewrite ln_mult by lra. ring.
Qed.
End Sub.
