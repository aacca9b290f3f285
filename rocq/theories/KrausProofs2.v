(** Linear algebra of Kraus lists: tensor products, composition, traces, adjoints,
    positivity, the exchange matrix. *)
From Verif Require Import Py Scalar PauliModel PauliSpec KrausModel KrausSpec KrausProofs.
From Coq Require Import Reals Lra.
Open Scope nat_scope.

Section L.
Context {K : StarRing}.
Add Ring Kr2 : (s_rt K).
Open Scope K_scope.
Implicit Types (rho : array K) (l m : list (marr K)).

Lemma mm_ext d (A A' B B' : array K) i j : (forall k, (k < d)%nat -> A i k = A' i k) -> (forall k, (k < d)%nat -> B k j = B' k j) -> mm d A B i j = mm d A' B' i j.
Proof. intros H H'. apply bsum_ext. intros k Hk. rewrite H, H' by exact Hk. reflexivity. Qed.
Definition kf (r c : nat) (A B : array K) : array K := fun i j => A (i / r)%nat (j / c)%nat * B (i mod r)%nat (j mod c)%nat.
Lemma me_tens (A B : marr K) i j : me (tens A B) i j = kf (mr B) (mc B) (me A) (me B) i j.
Proof. reflexivity. Qed.
Lemma mm_kf c c' r' d' (A B C D : array K) i j :
  mm (c * c') (kf r' c' A B) (kf c' d' C D) i j = kf r' d' (mm c A C) (mm c' B D) i j.
Proof.
  unfold mm, kf at 3. rewrite <- (bsum_kron c c' (fun k => A (i / r')%nat k * C k (j / d')%nat) (fun k => B (i mod r')%nat k * D k (j mod d')%nat)).
  apply bsum_ext. intros k _. unfold kf. ring.
Qed.
Lemma adj_kf r c (A B : array K) i j : adj (kf r c A B) i j = kf c r (adj A) (adj B) i j.
Proof. unfold adj, kf. apply sconj_mul. Qed.
Lemma tr_kf c c' (A B : array K) : tr (c * c') (kf c' c' A B) = tr c A * tr c' B.
Proof. unfold tr, kf. apply (bsum_kron c c' (fun i => A i i) (fun i => B i i)). Qed.
Lemma eye_kf c' i j : (0 < c')%nat -> kf c' c' eye eye i j = eye i j.
Proof.
  intros H. unfold kf, eye. destruct (Nat.eqb_spec i j) as [->|N].
  - rewrite !Nat.eqb_refl. ring.
  - destruct (Nat.eqb_spec (i / c') (j / c')) as [E1|]; [|ring]. destruct (Nat.eqb_spec (i mod c') (j mod c')) as [E2|]; [|ring].
    exfalso. apply N. rewrite (Nat.div_mod i c'), (Nat.div_mod j c') by lia. congruence.
Qed.
Lemma kf_ext r r' c c' (A A' B B' : array K) : eqm r c A A' -> eqm r' c' B B' -> eqm (r * r') (c * c') (kf r' c' A B) (kf r' c' A' B').
Proof.
  intros HA HB i j Hi Hj. unfold kf. rewrite HA, HB; [reflexivity|eapply mod_lt_mul; eassumption..|eapply div_lt_mul; eassumption|eapply div_lt_mul; eassumption].
Qed.

Definition term (A : marr K) (rho : array K) : array K := mm (mc A) (mm (mc A) (me A) rho) (adj (me A)).
Lemma term_tens (A B : marr K) R S i j :
  term (tens A B) (kf (mc B) (mc B) R S) i j = kf (mr B) (mr B) (term A R) (term B S) i j.
Proof.
  unfold term. cbn [tens mr mc].
  transitivity (mm (mc A * mc B) (kf (mr B) (mc B) (mm (mc A) (me A) R) (mm (mc B) (me B) S)) (kf (mc B) (mr B) (adj (me A)) (adj (me B))) i j).
  - apply mm_ext; intros k _.
    + rewrite <- (mm_kf (mc A) (mc B) (mr B) (mc B)). reflexivity.
    + rewrite <- adj_kf. reflexivity.
  - apply mm_kf.
Qed.
Lemma in_fits r c l (A : marr K) : fits r c l -> In A l -> mr A = r /\ mc A = c.
Proof. intros F H. unfold fits in F. rewrite Forall_forall in F. apply F, H. Qed.
Theorem channel_tens r c r' c' l m R S : fits r c l -> fits r' c' m ->
  forall i j, channel_map (tens_ops l m) (kf c' c' R S) i j = kf r' r' (channel_map l R) (channel_map m S) i j.
Proof.
  intros F M i j. unfold channel_map at 1, tens_ops. rewrite ksum_flat. unfold kf at 2. unfold channel_map. rewrite <- ksum_prod.
  apply ksum_ext. intros A HA. rewrite map_map. apply ksum_ext. intros B HB. destruct (in_fits _ _ _ _ M HB) as [E1 E2].
  fold (term (tens A B) (kf c' c' R S)). subst r' c'. rewrite term_tens. reflexivity.
Qed.
Definition gram l : array K := fun i j => ksum (map (fun A => mm (mr A) (adj (me A)) (me A) i j) l).
Lemma gram_tens r c r' c' l m : fits r c l -> fits r' c' m -> forall i j, gram (tens_ops l m) i j = kf c' c' (gram l) (gram m) i j.
Proof.
  intros F M i j. unfold gram at 1, tens_ops. rewrite ksum_flat. unfold kf, gram. rewrite <- ksum_prod.
  apply ksum_ext. intros A HA. rewrite map_map. apply ksum_ext. intros B HB. destruct (in_fits _ _ _ _ M HB) as [E1 E2]. cbn [tens mr mc]. subst r' c'.
  transitivity (mm (mr A * mr B) (kf (mc B) (mr B) (adj (me A)) (adj (me B))) (kf (mr B) (mc B) (me A) (me B)) i j).
  - unfold mm. apply bsum_ext. intros k _. f_equal. rewrite <- adj_kf. reflexivity.
  - rewrite mm_kf. reflexivity.
Qed.
Theorem tp_tens r c r' c' l m : fits r c l -> fits r' c' m -> trace_preserving c l -> trace_preserving c' m ->
  trace_preserving (c * c') (tens_ops l m).
Proof.
  intros F M T T' i j Hi Hj. change (gram (tens_ops l m) i j = eye i j). rewrite (gram_tens r c r' c') by assumption.
  rewrite (kf_ext c c' c c' _ eye _ eye T T') by assumption. apply eye_kf. destruct c'; lia.
Qed.
Lemma tp_one : trace_preserving 1 [one_by_one (K := K)].
Proof.
  intros i j Hi Hj. replace i with 0%nat by lia. replace j with 0%nat by lia. cbn. unfold adj, mm. cbn. rewrite sconj_1. ring.
Qed.
Lemma tp_power r c l n : fits r c l -> trace_preserving c l -> trace_preserving (c ^ n) (power_ops l n).
Proof.
  intros F T. induction n as [|n IH]; [apply tp_one|]. cbn [power_ops Nat.pow]. apply (tp_tens r c (r ^ n) (c ^ n)); auto using fits_power.
Qed.

(** ** composition *)
Lemma mm_lin_r {X} d (A : array K) (f : X -> array K) (s : list X) i j :
  mm d A (fun a b => ksum (map (fun x => f x a b) s)) i j = ksum (map (fun x => mm d A (f x) i j) s).
Proof. unfold mm. rewrite ksum_bsum. apply bsum_ext. intros k _. rewrite <- ksum_mul_l. reflexivity. Qed.
Lemma mm_lin_l {X} d (A : array K) (f : X -> array K) (s : list X) i j :
  mm d (fun a b => ksum (map (fun x => f x a b) s)) A i j = ksum (map (fun x => mm d (f x) A i j) s).
Proof. unfold mm. rewrite ksum_bsum. apply bsum_ext. intros k _. rewrite <- ksum_mul_r. reflexivity. Qed.
Theorem channel_prod r d c l m rho : fits r d l -> fits d c m ->
  forall i j, channel_map (prod_ops l m) rho i j = channel_map l (channel_map m rho) i j.
Proof.
  intros F M i j. unfold channel_map at 1, prod_ops. rewrite ksum_flat. unfold channel_map at 1. apply ksum_ext. intros A HA. destruct (in_fits _ _ _ _ F HA) as [E1 E2].
  rewrite map_map. cbn [mr mc me]. unfold channel_map. rewrite E2.
  transitivity (ksum (map (fun B => mm d (mm d (me A) (term B rho)) (adj (me A)) i j) m)).
  - apply ksum_ext. intros B HB. destruct (in_fits _ _ _ _ M HB) as [G1 G2]. unfold term. rewrite G2.
    transitivity (mm c (mm d (me A) (mm c (me B) rho)) (mm d (adj (me B)) (adj (me A))) i j).
    { apply mm_ext; intros k _; [apply mm_assoc|apply adj_mm]. }
    rewrite <- mm_assoc. apply mm_ext; intros k _; [|reflexivity]. apply mm_assoc.
  - rewrite <- mm_lin_l. apply mm_ext; intros k _; [|reflexivity]. rewrite <- mm_lin_r. reflexivity.
Qed.
Theorem tp_prod r d c l m : fits r d l -> fits d c m -> trace_preserving d l -> trace_preserving c m -> trace_preserving c (prod_ops l m).
Proof.
  intros F M T T' i j Hi Hj. rewrite <- (T' i j Hi Hj). unfold prod_ops. rewrite ksum_flat.
  transitivity (ksum (map (fun A => ksum (map (fun B => mm d (mm d (adj (me B)) (mm r (adj (me A)) (me A))) (me B) i j) m)) l)).
  - apply ksum_ext. intros A HA. destruct (in_fits _ _ _ _ F HA) as [E1 E2]. rewrite map_map. apply ksum_ext. intros B HB. cbn [mr mc me]. rewrite E1, E2.
    transitivity (mm r (mm d (adj (me B)) (adj (me A))) (mm d (me A) (me B)) i j).
    { apply mm_ext; intros k _; [apply adj_mm|reflexivity]. }
    rewrite <- mm_assoc. apply mm_ext; intros k _; [|reflexivity]. apply mm_assoc.
  - clear Hi Hj T'.
    transitivity (ksum (map (fun B => mm d (mm d (adj (me B)) (gram l)) (me B) i j) m)).
    + clear M. induction m as [|B m IH]; cbn [map]; [rewrite ksum_nil; transitivity (ksum (map (fun _ : marr K => (0 : K)) l)); [reflexivity|apply ksum_0]|].
      rewrite ksum_cons, <- IH. transitivity (ksum (map (fun A => mm d (mm d (adj (me B)) (mm r (adj (me A)) (me A))) (me B) i j) l) + ksum (map (fun A => ksum (map (fun B => mm d (mm d (adj (me B)) (mm r (adj (me A)) (me A))) (me B) i j) m)) l)).
      { rewrite <- ksum_add. apply ksum_ext. intros A _. rewrite ksum_cons. reflexivity. }
      f_equal. rewrite <- mm_lin_l. apply mm_ext; intros k _; [|reflexivity]. rewrite <- mm_lin_r. apply mm_ext; intros x _; [reflexivity|].
      unfold gram. apply ksum_ext. intros A HA. destruct (in_fits _ _ _ _ F HA) as [E1 _]. rewrite E1. reflexivity.
    + apply ksum_ext. intros B HB. destruct (in_fits _ _ _ _ M HB) as [G1 G2]. rewrite G1.
      apply mm_ext; intros k Hk; [|reflexivity]. transitivity (mm d (adj (me B)) eye i k); [|apply mm_eye_r; exact Hk].
      unfold mm. apply bsum_ext. intros x Hx. f_equal. apply T; assumption.
Qed.
Lemma fits_prod r d c l m : fits r d l -> fits d c m -> fits r c (prod_ops l m).
Proof.
  intros H M. unfold fits. rewrite Forall_forall. intros X HX. unfold prod_ops in HX. apply in_flat_map in HX.
  destruct HX as (A & HA & HX). apply in_map_iff in HX. destruct HX as (B & <- & HB).
  destruct (in_fits _ _ _ _ H HA), (in_fits _ _ _ _ M HB). cbn. split; congruence.
Qed.

(** ** trace, Hermiticity, adjoint *)
Lemma tr_ksum {X} d (f : X -> array K) (s : list X) : tr d (fun i j => ksum (map (fun x => f x i j) s)) = ksum (map (fun x => tr d (f x)) s).
Proof. unfold tr. rewrite ksum_bsum. reflexivity. Qed.
Theorem channel_adjoint r c l rho (X : array K) : fits r c l ->
  tr r (mm r X (channel_map l rho)) = tr c (mm c (adjoint_map l X) rho).
Proof.
  intros F. transitivity (ksum (map (fun A => tr r (mm r X (term A rho))) l)).
  { rewrite <- tr_ksum. apply tr_eqm. intros i j _ _. unfold channel_map. apply mm_lin_r. }
  transitivity (ksum (map (fun A => tr c (mm c (mm r (mm r (adj (me A)) X) (me A)) rho)) l)).
  2:{ rewrite <- tr_ksum. apply tr_eqm. intros i j _ _. symmetry. rewrite <- mm_lin_l. apply mm_ext; intros k _; [|reflexivity].
      unfold adjoint_map. apply ksum_ext. intros A HA. destruct (in_fits _ _ _ _ F HA) as [E1 E2]. rewrite E1. reflexivity. }
  apply ksum_ext. intros A HA. destruct (in_fits _ _ _ _ F HA) as [E1 E2]. unfold term. rewrite E2.
  transitivity (tr r (mm c (mm c (mm r X (me A)) rho) (adj (me A)))).
  { apply tr_eqm. intros i j _ _. rewrite <- mm_assoc. apply mm_ext; intros k _; [|reflexivity]. symmetry. apply mm_assoc. }
  rewrite tr_mm. apply tr_eqm. intros i j _ _. rewrite <- mm_assoc. apply mm_ext; intros k _; [|reflexivity]. rewrite <- mm_assoc. reflexivity.
Qed.
Lemma adjoint_eye r c l : fits r c l -> eqm c c (adjoint_map l eye) (gram l).
Proof.
  intros F i j _ _. unfold adjoint_map, gram. apply ksum_ext. intros A HA. apply mm_ext; intros k Hk; [|reflexivity]. apply mm_eye_r. exact Hk.
Qed.
Theorem unital_iff r c l : fits r c l -> eqm c c (adjoint_map l eye) eye <-> trace_preserving c l.
Proof.
  intros F. split; intros H.
  - eapply eqm_trans; [|exact H]. apply eqm_sym, (adjoint_eye r). exact F.
  - eapply eqm_trans; [apply (adjoint_eye r); exact F|exact H].
Qed.
Theorem channel_trace r c l rho : fits r c l -> trace_preserving c l -> tr r (channel_map l rho) = tr c rho.
Proof.
  intros F T. transitivity (tr r (mm r eye (channel_map l rho))).
  { apply tr_eqm. intros i j Hi _. symmetry. apply mm_eye_l, Hi. }
  rewrite (channel_adjoint r c) by exact F. apply tr_eqm. intros i j Hi Hj. rewrite <- (mm_eye_l c rho i j Hi).
  apply mm_ext; [|reflexivity]. intros k Hk. apply (unital_iff r c l F); assumption.
Qed.
Theorem channel_hermitian r c l rho : fits r c l -> hermitian c rho -> hermitian r (channel_map l rho).
Proof.
  intros F H i j _ _. unfold adj, channel_map. rewrite ksum_conj. apply ksum_ext. intros A HA. destruct (in_fits _ _ _ _ F HA) as [E1 E2]. rewrite E2.
  change (adj (mm c (mm c (me A) rho) (adj (me A))) i j = mm c (mm c (me A) rho) (adj (me A)) i j). rewrite adj_mm.
  transitivity (mm c (me A) (mm c rho (adj (me A))) i j); [|symmetry; apply mm_assoc].
  apply mm_ext; intros k Hk; [apply adj_adj|]. rewrite adj_mm. apply mm_ext; intros x Hx; [|reflexivity]. apply H; assumption.
Qed.

(** ** linearity *)
Lemma adjoint_hermitian_swap r c l rho (X : array K) : fits r c l -> tr r (mm r (channel_map l rho) X) = tr c (mm c rho (adjoint_map l X)).
Proof. intros F. rewrite tr_mm. rewrite (channel_adjoint r c) by exact F. apply tr_mm. Qed.
End L.

(** ** Positivity over the complex numbers *)
Section Pos.
Open Scope K_scope.
Add Ring Kr3 : (s_rt CC).
Definition quad (d : nat) (A : array CC) (v : nat -> CC) : CC := bsum d (fun i => bsum d (fun j => ((v i)^* * A i j * v j))).
Definition nonneg (z : CC) : Prop := exists x : R, (0 <= x)%R /\ z = ((x, 0%R) : CC).
Lemma psd_quad d A : psd d A <-> forall v, nonneg (quad d A v).
Proof. split; intros H v; destruct (H v) as (x & Hx & E); exists x; split; auto. Qed.
Lemma nonneg_0 : nonneg 0. Proof. exists 0%R. split; [lra|reflexivity]. Qed.
Lemma nonneg_add a b : nonneg a -> nonneg b -> nonneg (a + b).
Proof. intros (x & Hx & ->) (y & Hy & ->). exists (x + y)%R. split; [lra|]. cbn. unfold CC_add. cbn. f_equal. ring. Qed.
Lemma nonneg_ksum {X} (f : X -> CC) l : (forall x, In x l -> nonneg (f x)) -> nonneg (ksum (map f l)).
Proof.
  induction l as [|x l IH]; intros H; [apply nonneg_0|]. cbn [map]. rewrite ksum_cons. apply nonneg_add; [apply H; left; reflexivity|].
  apply IH. intros y Hy. apply H. right. exact Hy.
Qed.
Lemma nonneg_bsum n (f : nat -> CC) : (forall i, (i < n)%nat -> nonneg (f i)) -> nonneg (bsum n f).
Proof. intros H. rewrite <- ksum_seq. apply nonneg_ksum. intros i Hi. apply H. apply in_seq in Hi. lia. Qed.
Lemma quad_sandwich r c (A : array CC) rho v :
  quad r (mm c (mm c A rho) (adj A)) v = quad c rho (fun k => bsum r (fun i => adj A k i * v i)).
Proof.
  unfold quad, mm.
  transitivity (bsum r (fun i => bsum r (fun j => bsum c (fun k => bsum c (fun x => ((v i)^* * A i x) * rho x k * (adj A k j * v j)))))).
  { apply bsum_ext. intros i _. apply bsum_ext. intros j _. rewrite <- bsum_mul_l, <- bsum_mul_r. apply bsum_ext. intros k _.
    rewrite <- !bsum_mul_r. rewrite <- bsum_mul_l, <- bsum_mul_r. apply bsum_ext. intros x _. ring. }
  symmetry.
  transitivity (bsum c (fun x => bsum c (fun k => bsum r (fun i => bsum r (fun j => ((v i)^* * A i x) * rho x k * (adj A k j * v j)))))).
  { apply bsum_ext. intros x _. apply bsum_ext. intros k _. rewrite bsum_conj, <- bsum_mul_r, <- bsum_mul_r. apply bsum_ext. intros i _.
    rewrite <- bsum_mul_l. apply bsum_ext. intros j _. unfold adj. rewrite sconj_mul, sconj_conj. ring. }
  rewrite bsum_swap.
  transitivity (bsum c (fun k => bsum r (fun i => bsum r (fun j => bsum c (fun x => (v i)^* * A i x * rho x k * (adj A k j * v j)))))).
  { apply bsum_ext. intros k _. rewrite bsum_swap. apply bsum_ext. intros i _. apply bsum_swap. }
  rewrite bsum_swap. apply bsum_ext. intros i _. apply bsum_swap.
Qed.
Lemma quad_ext d A B v : eqm d d A B -> quad d A v = quad d B v.
Proof. intros H. apply bsum_ext. intros i Hi. apply bsum_ext. intros j Hj. rewrite H by assumption. reflexivity. Qed.
Lemma psd_ext d A B : eqm d d A B -> psd d A -> psd d B.
Proof. intros E H. rewrite psd_quad in *. intros v. rewrite <- (quad_ext d A B v E). apply H. Qed.
Lemma quad_ksum {X} d (f : X -> array CC) s v : quad d (fun i j => ksum (map (fun x => f x i j) s)) v = ksum (map (fun x => quad d (f x) v) s).
Proof.
  unfold quad. rewrite ksum_bsum. apply bsum_ext. intros i _. rewrite ksum_bsum. apply bsum_ext. intros j _. rewrite <- ksum_mul_l, <- ksum_mul_r. reflexivity.
Qed.
Theorem channel_psd r c l rho : fits r c l -> psd c rho -> psd r (channel_map l rho).
Proof.
  intros F H. rewrite psd_quad in *. intros v. unfold channel_map. rewrite quad_ksum. apply nonneg_ksum. intros A HA.
  destruct (in_fits _ _ _ _ F HA) as [E1 E2]. rewrite E2, quad_sandwich. apply H.
Qed.
Theorem channel_density r c l rho : fits r c l -> trace_preserving c l -> density c rho -> density r (channel_map l rho).
Proof.
  intros F T (H1 & H2 & H3). split; [|split].
  - eapply channel_hermitian; eassumption.
  - eapply channel_psd; eassumption.
  - rewrite (channel_trace r c) by assumption. exact H3.
Qed.
End Pos.
