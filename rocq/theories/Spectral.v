(** The spectral theorem for Hermitian matrices, so that the contracts asked of eigh,
    eigvalsh and sqrtm are known to be satisfiable: a vector maximising the Rayleigh
    quotient on the orthogonal complement of the eigenvectors found so far is an
    eigenvector. *)
From Verif Require Import Py Scalar PauliModel PauliSpec EncoderProofs EighExists.
From Coq Require Import Reals Lra Classical.
Open Scope nat_scope.
Open Scope K_scope.
Add Ring CCring5 : (s_rt CC).

(** ** compactness *)
Lemma arch (eps : R) : (0 < eps)%R -> exists N : nat, (/ INR (N + 1) < eps)%R.
Proof.
  intros H. destruct (archimed_cor1 eps H) as (N & HN & P). exists N. apply Rle_lt_trans with (/ INR N)%R; [|exact HN].
  apply Rinv_le_contravar; [apply lt_0_INR; lia|apply le_INR; lia].
Qed.
Lemma inv_pos N : (0 < / INR (N + 1))%R.
Proof. apply Rinv_0_lt_compat, lt_0_INR. lia. Qed.
Lemma inv_mono n N : n <= N -> (/ INR (N + 1) <= / INR (n + 1))%R.
Proof. intros H. apply Rinv_le_contravar; [apply lt_0_INR; lia|apply le_INR; lia]. Qed.

Section Cluster.
Context {X : Type}.
Variable co : nat -> X -> R.
Lemma mono (S : nat -> X -> Prop) : (forall n x, S (Datatypes.S n) x -> S n x) -> forall n m x, n <= m -> S m x -> S n x.
Proof. intros H n m x L. induction L; auto. Qed.
Lemma cluster1 (c : X -> R) (S : nat -> X -> Prop) : (forall n, exists x, S n x) -> (forall n x, S (Datatypes.S n) x -> S n x) ->
  (forall n x, S n x -> (-1 <= c x <= 1)%R) ->
  exists l, forall eps n, (0 < eps)%R -> exists x, S n x /\ (Rabs (c x - l) < eps)%R.
Proof.
  intros NE MO BD. set (T := fun t => forall n, exists x, S n x /\ (t <= c x)%R).
  destruct (completeness T) as [l [UB LUB]].
  - exists 1%R. intros t Ht. destruct (Ht 0%nat) as (x & Sx & Hx). specialize (BD _ _ Sx). lra.
  - exists (-1)%R. intros n. destruct (NE n) as (x & Sx). exists x. split; [exact Sx|]. specialize (BD _ _ Sx). lra.
  - exists l. intros eps n He.
    assert (exists t, T t /\ (l - eps < t)%R) as (t & Tt & Lt).
    { apply NNPP. intros N. assert (l <= l - eps)%R; [|lra]. apply LUB. intros t Ht. apply Rnot_lt_le. intros L. apply N. exists t. auto. }
    assert (exists n0, forall x, S n0 x -> (c x < l + eps)%R) as (n0 & H0).
    { apply NNPP. intros N. assert (l + eps <= l)%R; [|lra]. apply UB. intros m. apply NNPP. intros N'. apply N. exists m. intros x Sx.
      apply Rnot_le_lt. intros L. apply N'. exists x. auto. }
    destruct (Tt (Nat.max n n0)) as (x & Sx & Hx). exists x. split; [apply (mono S MO n _ x (Nat.le_max_l n n0) Sx)|].
    specialize (H0 x (mono S MO n0 _ x (Nat.le_max_r n n0) Sx)). apply Rabs_def1; lra.
Qed.
Lemma cluster m : forall S : nat -> X -> Prop, (forall n, exists x, S n x) -> (forall n x, S (Datatypes.S n) x -> S n x) ->
  (forall n x i, S n x -> i < m -> (-1 <= co i x <= 1)%R) ->
  exists l : nat -> R, forall eps n, (0 < eps)%R -> exists x, S n x /\ forall i, i < m -> (Rabs (co i x - l i) < eps)%R.
Proof.
  induction m as [|m IH]; intros S NE MO BD.
  - exists (fun _ => 0%R). intros eps n _. destruct (NE n) as (x & Sx). exists x. split; [exact Sx|]. intros; lia.
  - destruct (cluster1 (co m) S NE MO) as (lm & Hm); [intros n x Sx; apply (BD n); auto|].
    destruct (IH (fun n x => S n x /\ (Rabs (co m x - lm) < / INR (n + 1))%R)) as (l & Hl).
    + intros n. apply Hm, inv_pos.
    + intros n x [Sx Hx]. split; [apply MO, Sx|]. eapply Rlt_le_trans; [exact Hx|]. apply inv_mono. lia.
    + intros n x i [Sx _] Hi. apply (BD n); auto.
    + exists (fun i => if Nat.eqb i m then lm else l i). intros eps n He. destruct (arch eps He) as (N & HN).
      destruct (Hl eps (Nat.max n N) He) as (x & [Sx Hx] & H). exists x. split; [apply (mono S MO n _ x (Nat.le_max_l n N) Sx)|].
      intros i Hi. destruct (Nat.eqb_spec i m) as [->|Ne]; [|apply H; lia].
      eapply Rlt_trans; [|exact HN]. eapply Rlt_le_trans; [exact Hx|]. apply inv_mono. lia.
Qed.
End Cluster.

(** ** continuity of polynomial functions of a vector *)
Section Cont.
Variable d : nat.
Definition near (delta : R) (v w : nat -> CC) : Prop :=
  forall i, i < d -> (Rabs (fst (w i) - fst (v i)) < delta)%R /\ (Rabs (snd (w i) - snd (v i)) < delta)%R.
Definition cont (f : (nat -> CC) -> R) : Prop :=
  forall v eps, (0 < eps)%R -> exists delta, (0 < delta)%R /\ forall w, near delta v w -> (Rabs (f w - f v) < eps)%R.
Lemma near_le a b v w : (a <= b)%R -> near a v w -> near b v w.
Proof. intros L H i Hi. destruct (H i Hi). split; lra. Qed.
Lemma cont_const c : cont (fun _ => c).
Proof. intros v eps He. exists 1%R. split; [lra|]. intros w _. rewrite Rminus_eq_0, Rabs_R0. exact He. Qed.
Lemma cont_fst i : i < d -> cont (fun v => fst (v i)).
Proof. intros Hi v eps He. exists eps. split; [exact He|]. intros w H. apply H, Hi. Qed.
Lemma cont_snd i : i < d -> cont (fun v => snd (v i)).
Proof. intros Hi v eps He. exists eps. split; [exact He|]. intros w H. apply H, Hi. Qed.
Lemma cont_add f g : cont f -> cont g -> cont (fun v => f v + g v)%R.
Proof.
  intros F G v eps He. destruct (F v (eps / 2)%R ltac:(lra)) as (a & Pa & Ha). destruct (G v (eps / 2)%R ltac:(lra)) as (b & Pb & Hb).
  exists (Rmin a b). split; [apply Rmin_pos; assumption|]. intros w N.
  specialize (Ha w (near_le _ _ _ _ (Rmin_l a b) N)). specialize (Hb w (near_le _ _ _ _ (Rmin_r a b) N)).
  replace (f w + g w - (f v + g v))%R with ((f w - f v) + (g w - g v))%R by ring. pose proof (Rabs_triang (f w - f v) (g w - g v)). lra.
Qed.
Lemma cont_opp f : cont f -> cont (fun v => - f v)%R.
Proof. intros F v eps He. destruct (F v eps He) as (a & Pa & Ha). exists a. split; [exact Pa|]. intros w N. specialize (Ha w N). replace (- f w - - f v)%R with (- (f w - f v))%R by ring. rewrite Rabs_Ropp. exact Ha. Qed.
Lemma cont_mul f g : cont f -> cont g -> cont (fun v => f v * g v)%R.
Proof.
  intros F G v eps He. set (m := (Rabs (f v) + Rabs (g v) + 1)%R).
  assert (Pf := Rabs_pos (f v)). assert (Pg := Rabs_pos (g v)). assert (Pm : (1 <= m)%R) by (unfold m; lra).
  set (h := Rmin 1 (eps / (2 * m))%R). assert (P : (0 < eps / (2 * m))%R) by (apply Rdiv_lt_0_compat; lra).
  assert (Ph : (0 < h)%R) by (apply Rmin_pos; lra).
  destruct (F v h Ph) as (a & Pa & Ha). destruct (G v h Ph) as (b & Pb & Hb).
  exists (Rmin a b). split; [apply Rmin_pos; assumption|]. intros w N.
  specialize (Ha w (near_le _ _ _ _ (Rmin_l a b) N)). specialize (Hb w (near_le _ _ _ _ (Rmin_r a b) N)).
  replace (f w * g w - f v * g v)%R with ((f w - f v) * (g w - g v) + (f w - f v) * g v + f v * (g w - g v))%R by ring.
  set (x := (f w - f v)%R) in *. set (y := (g w - g v)%R) in *.
  assert (h1 : (h <= 1)%R) by apply Rmin_l. assert (h2 : (h <= eps / (2 * m))%R) by apply Rmin_r.
  assert (h3 : (h * (2 * m) <= eps)%R). { apply Rmult_le_reg_r with (/ (2 * m))%R; [apply Rinv_0_lt_compat; lra|]. rewrite Rmult_assoc, Rinv_r, Rmult_1_r by lra. exact h2. }
  assert (Px := Rabs_pos x). assert (Py := Rabs_pos y).
  pose proof (Rabs_triang (x * y + x * g v) (f v * y)) as T1. pose proof (Rabs_triang (x * y) (x * g v)) as T2. rewrite !Rabs_mult in *.
  assert (B1 : (Rabs x * Rabs y <= h * 1)%R) by (apply Rmult_le_compat; lra).
  assert (B2 : (Rabs x * Rabs (g v) <= h * Rabs (g v))%R) by (apply Rmult_le_compat_r; lra).
  assert (B3 : (Rabs (f v) * Rabs y <= Rabs (f v) * h)%R) by (apply Rmult_le_compat_l; lra).
  unfold m in *. nra.
Qed.
Definition contC (f : (nat -> CC) -> CC) : Prop := cont (fun v => fst (f v)) /\ cont (fun v => snd (f v)).
Lemma contC_const c : contC (fun _ => c). Proof. split; apply cont_const. Qed.
Lemma contC_coord i : i < d -> contC (fun v => v i). Proof. intros H. split; [apply cont_fst, H|apply cont_snd, H]. Qed.
Lemma contC_add f g : contC f -> contC g -> contC (fun v => f v + g v).
Proof. intros [F1 F2] [G1 G2]. split; cbn; apply cont_add; assumption. Qed.
Lemma contC_mul f g : contC f -> contC g -> contC (fun v => f v * g v).
Proof.
  intros [F1 F2] [G1 G2]. split; cbn.
  - apply (cont_add (fun v => fst (f v) * fst (g v))%R (fun v => - (snd (f v) * snd (g v)))%R); [apply cont_mul; assumption|apply cont_opp, cont_mul; assumption].
  - apply (cont_add (fun v => fst (f v) * snd (g v))%R (fun v => snd (f v) * fst (g v))%R); apply cont_mul; assumption.
Qed.
Lemma contC_conj f : contC f -> contC (fun v => (f v)^*).
Proof. intros [F1 F2]. split; cbn; [exact F1|apply cont_opp, F2]. Qed.
Lemma contC_bsum n (f : nat -> (nat -> CC) -> CC) : (forall i, i < n -> contC (f i)) -> contC (fun v => bsum n (fun i => f i v)).
Proof. induction n as [|n IH]; intros H; cbn [bsum]; [apply contC_const|]. apply contC_add; [apply IH; intros; apply H; lia|apply H; lia]. Qed.
End Cont.

(** ** an eigenvector orthogonal to the ones already found *)
Section Eig.
Variable d : nat.
Variable A : array CC.
Hypothesis AH : hermitian d A.
Variable m : nat.
Variable V : array CC.
Variable e : nat -> R.
Hypothesis ON : forall a b, a < m -> b < m -> dot d (fun i => V i a) (fun i => V i b) = eye a b.
Hypothesis EV : forall t, t < m -> eigvec d A (e t) (fun i => V i t).

Definition feasible (v : nat -> CC) : Prop := forall t, t < m -> dot d (fun i => V i t) v = 0.
Definition norm2 (v : nat -> CC) : R := fst (dot d v v).
Definition ray (v : nat -> CC) : R := fst (dot d v (app d A v)).

Lemma contC_dot (f g : nat -> (nat -> CC) -> CC) : (forall i, i < d -> contC d (f i)) -> (forall i, i < d -> contC d (g i)) ->
  contC d (fun v => dot d (fun i => f i v) (fun i => g i v)).
Proof. intros F G. unfold dot. apply contC_bsum. intros i Hi. apply contC_mul; [apply contC_conj, F, Hi|apply G, Hi]. Qed.
Lemma contC_app i : contC d (fun v => app d A v i).
Proof. unfold app. apply contC_bsum. intros l Hl. apply contC_mul; [apply contC_const|apply contC_coord, Hl]. Qed.
Lemma cont_norm2 : cont d norm2.
Proof. apply (contC_dot (fun i v => v i) (fun i v => v i)); intros i Hi; apply contC_coord, Hi. Qed.
Lemma cont_ray : cont d ray.
Proof. apply (contC_dot (fun i v => v i) (fun i v => app d A v i)); intros i Hi; [apply contC_coord, Hi|apply contC_app]. Qed.
Lemma contC_feas t : contC d (fun v => dot d (fun i => V i t) v).
Proof. apply (contC_dot (fun i _ => V i t) (fun i v => v i)); intros i Hi; [apply contC_const|apply contC_coord, Hi]. Qed.

(** coordinates of unit vectors *)
Lemma norm2_coord (v : nat -> CC) i : i < d -> (fst (v i) * fst (v i) + snd (v i) * snd (v i) <= norm2 v)%R.
Proof.
  unfold norm2. clear. induction d as [|n IH]; intros Hi; [lia|].
  assert (E : fst (dot (Datatypes.S n) v v) = (fst (dot n v v) + (fst (v n) * fst (v n) + snd (v n) * snd (v n)))%R) by (unfold dot; cbn; ring).
  rewrite E. pose proof (dot_self_nonneg n v) as P.
  destruct (Nat.eq_dec i n) as [->|N]; [nra|]. specialize (IH ltac:(lia)). nra.
Qed.
Lemma unit_coord v i : norm2 v = 1%R -> i < d -> (-1 <= fst (v i) <= 1)%R /\ (-1 <= snd (v i) <= 1)%R.
Proof. intros H Hi. pose proof (norm2_coord v i Hi) as B. rewrite H in B. split; split; nra. Qed.

Definition bounded (f : (nat -> CC) -> CC) : Prop := exists b, forall v, norm2 v = 1%R -> (Rabs (fst (f v)) <= b /\ Rabs (snd (f v)) <= b)%R.
Lemma bounded_const c : bounded (fun _ => c).
Proof. exists (Rabs (fst c) + Rabs (snd c))%R. intros v _. pose proof (Rabs_pos (fst c)). pose proof (Rabs_pos (snd c)). split; lra. Qed.
Lemma bounded_add f g : bounded f -> bounded g -> bounded (fun v => f v + g v).
Proof.
  intros (b & Hb) (b' & Hb'). exists (b + b')%R. intros v Hv. specialize (Hb v Hv). specialize (Hb' v Hv). destruct (f v) as [x y], (g v) as [x' y']. cbn in *.
  pose proof (Rabs_triang x x'). pose proof (Rabs_triang y y'). lra.
Qed.
Lemma bounded_mul f g : bounded f -> bounded g -> bounded (fun v => f v * g v).
Proof.
  intros (b & Hb) (b' & Hb'). exists (b * b' + b * b')%R. intros v Hv. specialize (Hb v Hv). specialize (Hb' v Hv). destruct (f v) as [x y], (g v) as [x' y']. cbn in *.
  assert (M : forall x y, (Rabs x <= b -> Rabs y <= b' -> Rabs (x * y) <= b * b')%R).
  { intros p q Hx Hy. rewrite Rabs_mult. apply Rmult_le_compat; auto using Rabs_pos. }
  pose proof (M _ _ (proj1 Hb) (proj1 Hb')). pose proof (M _ _ (proj2 Hb) (proj2 Hb')). pose proof (M _ _ (proj1 Hb) (proj2 Hb')). pose proof (M _ _ (proj2 Hb) (proj1 Hb')).
  split.
  - unfold Rminus. eapply Rle_trans; [apply Rabs_triang|]. rewrite Rabs_Ropp. lra.
  - eapply Rle_trans; [apply Rabs_triang|]. lra.
Qed.
Lemma bounded_conj f : bounded f -> bounded (fun v => (f v)^*).
Proof. intros (b & Hb). exists b. intros v Hv. specialize (Hb v Hv). cbn. rewrite Rabs_Ropp. exact Hb. Qed.
Lemma bounded_coord i : i < d -> bounded (fun v => v i).
Proof. intros Hi. exists 1%R. intros v Hv. destruct (unit_coord v i Hv Hi). split; apply Rabs_le; lra. Qed.
Lemma bounded_bsum n (f : nat -> (nat -> CC) -> CC) : (forall i, i < n -> bounded (f i)) -> bounded (fun v => bsum n (fun i => f i v)).
Proof. induction n as [|n IH]; intros H; cbn [bsum]; [apply bounded_const|]. apply bounded_add; [apply IH; intros; apply H; lia|apply H; lia]. Qed.
Lemma ray_bound : exists B, forall v, norm2 v = 1%R -> (ray v <= B)%R.
Proof.
  destruct (bounded_bsum d (fun i v => (v i)^* * app d A v i)) as (b & Hb).
  - intros i Hi. apply bounded_mul; [apply bounded_conj, bounded_coord, Hi|]. apply bounded_bsum. intros l Hl. apply bounded_mul; [apply bounded_const|apply bounded_coord, Hl].
  - exists b. intros v Hv. destruct (Hb v Hv) as [Q _]. eapply Rle_trans; [apply Rle_abs|exact Q].
Qed.

(** the maximum is attained *)
Definition candidate (v : nat -> CC) : Prop := feasible v /\ norm2 v = 1%R.
Lemma maximiser : (exists v, candidate v) -> exists v, candidate v /\ forall w, candidate w -> (ray w <= ray v)%R.
Proof.
  intros (v0 & C0). destruct ray_bound as (B & HB).
  destruct (completeness (fun r => exists v, candidate v /\ r = ray v)) as [M [UB LUB]].
  { exists B. intros r (v & [_ Hv] & ->). apply HB, Hv. }
  { exists (ray v0), v0. auto. }
  destruct (cluster (fun i v => if Nat.even i then fst (v (Nat.div2 i)) else snd (v (Nat.div2 i) : CC)) (2 * d)
              (fun n v => candidate v /\ (M - / INR (n + 1) < ray v)%R)) as (l & Hl).
  - intros n. apply NNPP. intros N. assert (M <= M - / INR (n + 1))%R; [|pose proof (inv_pos n); lra]. apply LUB. intros r (v & Cv & ->).
    apply Rnot_lt_le. intros L. apply N. exists v. auto.
  - intros n v [Cv Hv]. split; [exact Cv|]. pose proof (inv_mono n (Datatypes.S n) ltac:(lia)). lra.
  - intros n v i [[_ Nv] _] Hi. assert (Hd : Nat.div2 i < d) by (rewrite Nat.div2_div; apply Nat.div_lt_upper_bound; lia).
    destruct (unit_coord v _ Nv Hd). destruct (Nat.even i); assumption.
  - set (u := (fun i => (l (2 * i)%nat, l (2 * i + 1)%nat)) : nat -> CC). 
    assert (AP : forall delta n, (0 < delta)%R -> exists w, candidate w /\ (M - / INR (n + 1) < ray w)%R /\ near d delta u w).
    { intros delta n Hd. destruct (Hl delta n Hd) as (w & [Cw Rw] & H). exists w. split; [exact Cw|]. split; [exact Rw|]. intros i Hi. unfold u. cbn [fst snd]. split.
      - specialize (H (2 * i)%nat ltac:(lia)). rewrite Nat.even_mul in H. cbn [Nat.even orb] in H. rewrite Nat.div2_double in H. exact H.
      - specialize (H (2 * i + 1)%nat ltac:(lia)). rewrite Nat.even_add, Nat.even_mul in H. cbn [Nat.even orb Bool.eqb] in H. rewrite Nat.add_1_r, Nat.div2_succ_double in H. rewrite Nat.add_1_r. exact H. }
    assert (LIM : forall f c, cont d f -> (forall w, candidate w -> f w = c) -> f u = c).
    { intros f c Hf Hc. apply NNPP. intros N. assert (P : (0 < Rabs (f u - c))%R) by (apply Rabs_pos_lt; lra).
      destruct (Hf u _ P) as (delta & Hd & H). destruct (AP delta 0%nat Hd) as (w & Cw & _ & Nw). specialize (H w Nw). rewrite (Hc w Cw) in H.
      rewrite Rabs_minus_sym in H. lra. }
    assert (CU : candidate u).
    { split.
      - intros t Ht. destruct (contC_feas t) as [F1 F2]. apply CC_eq.
        + apply (LIM (fun v => fst (dot d (fun i => V i t) v)) (fst (0 : CC)) F1). intros w [Fw _]. rewrite (Fw t Ht). reflexivity.
        + apply (LIM (fun v => snd (dot d (fun i => V i t) v)) (snd (0 : CC)) F2). intros w [Fw _]. rewrite (Fw t Ht). reflexivity.
      - apply (LIM norm2 1%R cont_norm2). intros w [_ Nw]. exact Nw. }
    exists u. split; [exact CU|].
    assert (RM : (M <= ray u)%R).
    { apply Rnot_lt_le. intros L. set (eps := ((M - ray u) / 2)%R). assert (Pe : (0 < eps)%R) by (unfold eps; lra).
      destruct (arch eps Pe) as (N & HN). destruct (cont_ray u eps Pe) as (delta & Hd & H). destruct (AP delta N Hd) as (w & _ & Rw & Nw). specialize (H w Nw).
      apply Rabs_def2 in H. unfold eps in *. lra. }
    intros w Cw. apply Rle_trans with M; [|exact RM]. apply UB. exists w. auto.
Qed.
Lemma dot_add_r u v w : dot d u (fun i => v i + w i) = dot d u v + dot d u w.
Proof. unfold dot. rewrite <- bsum_add. apply bsum_ext; intros; ring. Qed.
Lemma dot_add_l u v w : dot d (fun i => v i + w i) u = dot d v u + dot d w u.
Proof. unfold dot. rewrite <- bsum_add. apply bsum_ext; intros. rewrite sconj_add. ring. Qed.
Lemma dot_scale_l u v a : dot d (fun i => u i * a) v = a^* * dot d u v.
Proof. unfold dot. rewrite <- bsum_mul_l. apply bsum_ext; intros. rewrite sconj_mul. ring. Qed.
Lemma app_scale v a i : app d A (fun i => v i * a) i = app d A v i * a.
Proof. unfold app. rewrite <- bsum_mul_r. apply bsum_ext; intros; ring. Qed.
Lemma app_add v w i : app d A (fun i => v i + w i) i = app d A v i + app d A w i.
Proof. unfold app. rewrite <- bsum_add. apply bsum_ext; intros; ring. Qed.
Lemma norm2_scale v x : norm2 (fun i => v i * rc x) = (x * x * norm2 v)%R.
Proof. unfold norm2. rewrite dot_scale_l, dot_scale_r, rc_conj. set (z := dot d v v). destruct z as [a b]. cbn. ring. Qed.
Lemma ray_scale v x : ray (fun i => v i * rc x) = (x * x * ray v)%R.
Proof.
  unfold ray. rewrite (dot_ext d _ (fun i => v i * rc x) _ (fun i => app d A v i * rc x)) by (auto; intros; apply app_scale).
  rewrite dot_scale_l, dot_scale_r, rc_conj. set (z := dot d v _). destruct z as [a b]. cbn. ring.
Qed.
Lemma feasible_scale v a : feasible v -> feasible (fun i => v i * a).
Proof. intros H t Ht. rewrite dot_scale_r, (H t Ht). ring. Qed.
Lemma feasible_add v w : feasible v -> feasible w -> feasible (fun i => v i + w i).
Proof. intros H G t Ht. rewrite dot_add_r, (H t Ht), (G t Ht). ring. Qed.
Lemma ray_le v w : (forall w, candidate w -> (ray w <= ray v)%R) -> feasible w -> (ray w <= ray v * norm2 w)%R.
Proof.
  intros MX Fw. pose proof (dot_self_nonneg d w) as P. fold (norm2 w) in P. destruct (Req_EM_T (norm2 w) 0) as [Z|NZ].
  - pose proof (dot_self_zero d w Z) as W0. unfold ray. rewrite (dot_ext d w (fun _ => 0) (app d A w) (app d A w)) by auto.
    rewrite Z. unfold dot. rewrite (bsum_zero d) by (intros; rewrite sconj_0; ring). cbn. lra.
  - assert (Q : (0 < norm2 w)%R) by lra. pose proof (sqrt_lt_R0 _ Q) as SQ. pose proof (sqrt_sqrt (norm2 w) (Rlt_le _ _ Q)) as S2.
    set (r := sqrt (norm2 w)) in *. specialize (MX (fun i => w i * rc (/ r))). rewrite ray_scale in MX.
    assert (E : (/ r * / r * norm2 w = 1)%R) by (rewrite <- S2; field; lra).
    assert (C : candidate (fun i => w i * rc (/ r))). { split; [apply feasible_scale, Fw|]. rewrite norm2_scale. exact E. }
    specialize (MX C). rewrite <- S2. apply Rmult_le_reg_l with (/ r * / r)%R; [apply Rmult_lt_0_compat; apply Rinv_0_lt_compat, SQ|].
    replace (/ r * / r * (ray v * (r * r)))%R with (ray v) by (field; lra). exact MX.
Qed.
Lemma maximiser_eig v : candidate v -> (forall w, candidate w -> (ray w <= ray v)%R) -> eigvec d A (ray v) v.
Proof.
  intros [Fv Nv] MX. set (M := ray v). set (g := fun i => app d A v i + v i * rc (- M)).
  assert (Fg : feasible g).
  { apply feasible_add; [|apply feasible_scale, Fv]. intros t Ht. rewrite <- (app_self_adj d A AH).
    rewrite (dot_ext d _ (fun i => V i t * rc (e t)) v v) by (auto; intros i Hi; apply EV; assumption). rewrite dot_scale_l, (Fv t Ht). ring. }
  assert (Gap : dot d g (app d A v) = dot d g g + rc M * dot d g v).
  { unfold g at 3. rewrite dot_add_r, dot_scale_r. replace (rc (- M)) with (- rc M) by (apply CC_eq; cbn; lra). ring. }
  assert (K : forall t : R, (2 * t * norm2 g <= t * t * (M * norm2 g - ray g))%R).
  { intros t. pose proof (ray_le v (fun i => v i + g i * rc t) MX (feasible_add _ _ Fv (feasible_scale _ (rc t) Fg))) as H. fold M in H.
    assert (E1 : norm2 (fun i => v i + g i * rc t) = (1 + 2 * t * fst (dot d g v) + t * t * norm2 g)%R).
    { unfold norm2. rewrite dot_add_l, !dot_add_r, !dot_scale_l, !dot_scale_r, rc_conj. rewrite <- (dot_conj d g v). unfold norm2 in Nv.
      set (x := dot d v v) in *. set (y := dot d g v). set (z := dot d g g). clearbody x y z. destruct x, y, z. cbn in *. rewrite Nv. ring. }
    assert (E2 : ray (fun i => v i + g i * rc t) = (M + 2 * t * (norm2 g + M * fst (dot d g v)) + t * t * ray g)%R).
    { unfold ray. rewrite (dot_ext d _ (fun i => v i + g i * rc t) _ (fun i => app d A v i + app d A g i * rc t)) by (auto; intros; rewrite app_add, app_scale; reflexivity).
      rewrite dot_add_l, !dot_add_r, !dot_scale_l, !dot_scale_r, rc_conj. rewrite <- (app_self_adj d A AH v g), <- (dot_conj d g (app d A v)), Gap. unfold M, ray, norm2.
      set (x := dot d v (app d A v)). set (y := dot d g v). set (z := dot d g g). set (w := dot d g (app d A g)). clearbody x y z w. destruct x, y, z, w. cbn in *. ring. }
    rewrite E1, E2 in H. lra. }
  pose proof (dot_self_nonneg d g) as P. fold (norm2 g) in P. 
  assert (Z : norm2 g = 0%R).
  { apply NNPP. intros NZ. set (G := norm2 g) in *. set (c := (M * G - ray g)%R) in *. assert (PG : (0 < G)%R) by lra. pose proof (Rabs_pos c) as Pc.
    specialize (K (G / (Rabs c + 1))%R). assert (PT : (0 < G / (Rabs c + 1))%R) by (apply Rdiv_lt_0_compat; lra). set (t := (G / (Rabs c + 1))%R) in *.
    assert (H : (2 * G <= t * c)%R) by nra. assert (H2 : (t * c <= t * Rabs c)%R) by (apply Rmult_le_compat_l; [lra|apply Rle_abs]).
    assert (H3 : (t * (Rabs c + 1) = G)%R) by (unfold t; field; lra). nra. }
  intros i Hi. pose proof (dot_self_zero d g Z i Hi) as E. unfold g in E. transitivity (app d A v i + v i * rc (- M) + v i * rc M); [|rewrite E; ring].
  replace (rc (- M)) with (- rc M) by (apply CC_eq; cbn; lra). ring.
Qed.

(** the projections of the unit vectors on the complement: their squared norms add up to d - m *)
Lemma residue_norms : bsum d (fun j => dot d (residue d m V (fun a => eye a j)) (residue d m V (fun a => eye a j))) = rc (INR d - INR m).
Proof.
  assert (X : forall j t, j < d -> dot d (fun a => V a t) (fun a => eye a j) = (V j t)^*).
  { intros j t Hj. unfold dot. rewrite (bsum_one d j); [unfold eye; rewrite Nat.eqb_refl; ring|exact Hj|]. intros a _ N. unfold eye. destruct (Nat.eqb_spec a j); [contradiction|ring]. }
  transitivity (bsum d (fun j => 1 - bsum m (fun t => V j t * (V j t)^*))).
  - apply bsum_ext; intros j Hj. set (r := residue d m V (fun a => eye a j)).
    transitivity (dot d r (fun a => eye a j) - dot d r (fun a => bsum m (fun t => V a t * dot d (fun x => V x t) (fun x => eye x j)))).
    { rewrite <- dot_sub_r. apply dot_ext; auto. }
    rewrite dot_bsum_r. rewrite (bsum_zero m).
    + rewrite <- dot_conj. unfold dot. rewrite (bsum_one d j); [|exact Hj|intros a _ N; unfold eye; destruct (Nat.eqb_spec a j); [contradiction|rewrite sconj_0; ring]].
      unfold eye. rewrite Nat.eqb_refl, sconj_1. unfold r, residue. rewrite (bsum_ext m _ (fun t => V j t * (V j t)^*)) by (intros; rewrite X by exact Hj; reflexivity).
      unfold eye. rewrite Nat.eqb_refl.
      rewrite sconj_mul, sconj_sub, sconj_1, bsum_conj. rewrite (bsum_ext m (fun i => (V j i * (V j i)^*)^*) (fun t => V j t * (V j t)^*)) by (intros; rewrite sconj_mul, sconj_conj; ring). ring.
    + intros t Ht. rewrite (dot_scale_r d r (fun a => V a t)). rewrite <- dot_conj. unfold r. rewrite residue_orth by assumption. rewrite sconj_0. ring.
  - rewrite bsum_sub, bsum_swap. rewrite (bsum_ext m _ (fun _ => 1)).
    + rewrite !bsum_ones. apply CC_eq; cbn; lra.
    + intros t Ht. replace (1 : CC) with (eye t t : CC) by (unfold eye; rewrite Nat.eqb_refl; reflexivity). rewrite <- (ON t t Ht Ht). unfold dot. apply bsum_ext; intros; ring.
Qed.
End Eig.

Lemma bsum_norms_zero d n (f : nat -> nat -> CC) : fst (bsum n (fun j => dot d (f j) (f j))) = 0%R -> forall j, j < n -> fst (dot d (f j) (f j)) = 0%R.
Proof.
  assert (P : forall n, (0 <= fst (bsum n (fun j => dot d (f j) (f j))))%R).
  { clear. induction n as [|n IH]; [cbn; lra|]. cbn [bsum]. pose proof (dot_self_nonneg d (f n)).
    set (x := bsum n _) in *. set (y := dot d (f n) (f n)) in *. destruct x, y. cbn in *. lra. }
  induction n as [|n IH]; intros H j Hj; [lia|]. cbn [bsum] in H. pose proof (dot_self_nonneg d (f n)) as Q. specialize (P n).
  assert (H1 : fst (bsum n (fun j => dot d (f j) (f j))) = 0%R /\ fst (dot d (f n) (f n)) = 0%R).
  { set (x := bsum n _) in *. set (y := dot d (f n) (f n)) in *. destruct x, y. cbn in *. lra. }
  destruct (Nat.eq_dec j n) as [->|N]; [apply H1|apply IH; [apply H1|lia]].
Qed.
Section Main.
Variable d : nat.
Variable A : array CC.
Hypothesis AH : hermitian d A.

Lemma candidate_exists m V : (forall a b, a < m -> b < m -> dot d (fun i => V i a) (fun i => V i b) = eye a b) -> m < d -> exists v, candidate d m V v.
Proof.
  intros ON Hm. pose proof (residue_norms d m V ON) as S. set (f := fun j => residue d m V (fun a => eye a j)) in *.
  assert (exists j, j < d /\ fst (dot d (f j) (f j)) <> 0%R) as (j & Hj & NZ).
  { apply NNPP. intros N. assert (Z : forall n, n <= d -> bsum n (fun j => dot d (f j) (f j)) = 0).
    { induction n as [|n IH]; intros Hn; [reflexivity|]. cbn [bsum]. rewrite IH by lia. rewrite dot_self_re.
      assert (E : fst (dot d (f n) (f n)) = 0%R) by (apply NNPP; intros E; apply N; exists n; split; [lia|exact E]). rewrite E, rc_0. ring. }
    pose proof (Z d (Nat.le_refl d)) as Z0. unfold f in Z0. rewrite S in Z0. apply (f_equal fst) in Z0. cbn in Z0. apply lt_INR in Hm. lra. }
  set (q := fst (dot d (f j) (f j))) in *. assert (Q0 : (0 < q)%R) by (pose proof (dot_self_nonneg d (f j)); unfold q in *; lra).
  exists (fun i => f j i * rc (/ sqrt q)). split.
  - apply feasible_scale. intros t Ht. apply residue_orth; assumption.
  - rewrite norm2_scale. unfold norm2. fold q. pose proof (sqrt_sqrt q (Rlt_le _ _ Q0)) as S2. pose proof (sqrt_lt_R0 q Q0) as S1. rewrite <- S2 at 3. field. lra.
Qed.
Lemma extend m V e : inv d A [] (m, V, e) -> m < d -> exists V' e', inv d A [] (S m, V', e').
Proof.
  intros I Hm. pose proof I as (ON & EV & _). destruct (maximiser d A m V (candidate_exists m V ON Hm)) as (v & [Fv Nv] & MX).
  pose proof (maximiser_eig d A AH m V e EV v (conj Fv Nv) MX) as Ev.
  pose proof (step_inv d A AH [] (m, V, e) (ray d A v) v I Ev) as I'. unfold step in I'. cbn [fst snd] in I'.
  assert (E : forall i, residue d m V v i = v i). { intros i. unfold residue. rewrite (bsum_zero m); [ring|]. intros t Ht. rewrite (Fv t Ht). ring. }
  assert (Q : fst (dot d (residue d m V v) (residue d m V v)) = 1%R) by (rewrite (dot_ext d _ v _ v) by (intros; apply E); exact Nv).
  destruct (Req_EM_T (fst (dot d (residue d m V v) (residue d m V v))) 0) as [Z|_]; [rewrite Z in Q; lra|].
  destruct I' as (O' & E' & _). eexists _, _. split; [exact O'|]. split; [exact E'|]. intros w [].
Qed.
Lemma orthonormal_unitary V : (forall a b, a < d -> b < d -> dot d (fun i => V i a) (fun i => V i b) = eye a b) -> unitary d V.
Proof.
  intros ON. split; [intros a b Ha Hb; apply (ON a b Ha Hb)|]. intros i j Hi Hj.
  pose proof (residue_norms d d V ON) as S. apply (f_equal fst) in S. cbn [rc fst] in S. rewrite Rminus_eq_0 in S.
  pose proof (dot_self_zero d _ (bsum_norms_zero d d _ S j Hj) i Hi) as R. unfold residue in R. unfold mm.
  replace (bsum d (fun l => V i l * adj V l j)) with (bsum d (fun t => V i t * dot d (fun a => V a t) (fun a => eye a j))).
  - transitivity (eye i j - (eye i j - bsum d (fun t => V i t * dot d (fun a => V a t) (fun a => eye a j)))); [ring|]. rewrite R. ring.
  - apply bsum_ext; intros t Ht. f_equal. unfold adj, dot. rewrite (bsum_one d j); [unfold eye; rewrite Nat.eqb_refl; ring|exact Hj|].
    intros a _ N. unfold eye. destruct (Nat.eqb_spec a j); [contradiction|ring].
Qed.
Theorem spectral : exists V e, eigen_decomposition d A e V.
Proof.
  assert (G : forall m, m <= d -> exists V e, inv d A [] (m, V, e)).
  { induction m as [|m IH]; intros Hm.
    - exists (fun _ _ => 0), (fun _ => 1%R). split; [intros; lia|]. split; [intros; lia|]. intros w [].
    - destruct IH as (V & e & I); [lia|]. apply (extend m V e I). lia. }
  destruct (G d (Nat.le_refl d)) as (V & e & ON & EV & _). exists V, e. split; [apply orthonormal_unitary, ON|]. intros i t Hi Ht. apply (EV t Ht i Hi).
Qed.
End Main.
