(** The contract asked of eigh in C13 can be met: Gram-Schmidt on the columns of
    I + A and I - A gives an eigenbasis of every Hermitian involution A. *)
From Verif Require Import Py Scalar PauliModel PauliSpec EncoderProofs.
From Coq Require Import Reals Lra.
Open Scope nat_scope.
Open Scope K_scope.
Add Ring CCring4 : (s_rt CC).

Section GS.
Variable d : nat.
Variable A : array CC.
Hypothesis AH : hermitian d A.

Definition dot (u v : nat -> CC) : CC := bsum d (fun i => (u i)^* * v i).
Definition app (v : nat -> CC) : nat -> CC := fun i => bsum d (fun l => A i l * v l).
Definition eigvec (l : R) (v : nat -> CC) := forall i, i < d -> app v i = v i * rc l.

Definition state := (nat * array CC * (nat -> R))%type.
Definition residue (m : nat) (V : array CC) (v : nat -> CC) : nat -> CC :=
  fun i => v i - bsum m (fun t => V i t * dot (fun a => V a t) v).
Definition step (s : state) (lv : R * (nat -> CC)) : state :=
  let '(m, V, e) := s in
  let u := residue m V (snd lv) in
  let q := fst (dot u u) in
  if Req_EM_T q 0 then s
  else (Datatypes.S m, fun i t => if Nat.eqb t m then u i * rc (/ sqrt q) else V i t, fun t => if Nat.eqb t m then fst lv else e t).

Definition inv (done : list (nat -> CC)) (s : state) : Prop :=
  let '(m, V, e) := s in
  (forall a b, a < m -> b < m -> dot (fun i => V i a) (fun i => V i b) = eye a b) /\
  (forall t, t < m -> eigvec (e t) (fun i => V i t)) /\
  (forall w, In w done -> forall i, i < d -> residue m V w i = 0).

Lemma dot_conj u v : (dot u v)^* = dot v u.
Proof. unfold dot. rewrite bsum_conj. apply bsum_ext; intros i Hi. rewrite sconj_mul, sconj_conj. ring. Qed.
Lemma dot_scale_r u v a : dot u (fun i => v i * a) = dot u v * a.
Proof. unfold dot. rewrite <- bsum_mul_r. apply bsum_ext; intros; ring. Qed.
Lemma dot_ext u u' v v' : (forall i, i < d -> u i = u' i) -> (forall i, i < d -> v i = v' i) -> dot u v = dot u' v'.
Proof. intros H H'. apply bsum_ext; intros i Hi. rewrite H, H' by exact Hi. reflexivity. Qed.
Lemma dot_sub_r u v w : dot u (fun i => v i - w i) = dot u v - dot u w.
Proof. unfold dot. rewrite <- bsum_sub. apply bsum_ext; intros; ring. Qed.
Lemma dot_bsum_r u m (f : nat -> nat -> CC) : dot u (fun i => bsum m (fun t => f i t)) = bsum m (fun t => dot u (fun i => f i t)).
Proof.
  unfold dot. rewrite <- bsum_swap. apply bsum_ext; intros i Hi. rewrite bsum_mul_l. reflexivity.
Qed.

Lemma dot_self_re u : dot u u = rc (fst (dot u u)).
Proof. apply CC_eq; [reflexivity|]. cbn. pose proof (f_equal snd (dot_conj u u)) as H. cbn in H. lra. Qed.

Lemma dot_self_nonneg u : (0 <= fst (dot u u))%R.
Proof.
  unfold dot. clear AH. induction d as [|d' IH]; [cbn; lra|]. cbn [bsum]. cbn. destruct (u d') as [x y]. cbn. 
  cbn in IH. nra.
Qed.
Lemma dot_self_zero u : fst (dot u u) = 0%R -> forall i, i < d -> u i = 0.
Proof.
  unfold dot. clear AH. induction d as [|d' IH]; intros H i Hi; [lia|].
  assert (P : (0 <= fst (bsum d' (fun i => (u i)^* * u i)%K))%R).
  { clear. induction d' as [|d' IH]; [cbn; lra|]. cbn [bsum]. cbn. destruct (u d') as [x y]. cbn. cbn in IH. nra. }
  cbn [bsum] in H. cbn in H. destruct (u d') as [x y] eqn:Eu. cbn in H. cbn in P.
  assert (x * x = 0 /\ y * y = 0 /\ fst (bsum d' (fun i => (u i)^* * u i)%K) = 0)%R as (X & Y & Z).
  { cbn. split; [nra|]. split; nra. }
  destruct (Nat.eq_dec i d') as [->|Hne]; [|apply IH; [exact Z|lia]].
  rewrite Eu. apply CC_eq; cbn; nra.
Qed.

Lemma app_self_adj u v : dot (app u) v = dot u (app v).
Proof.
  unfold dot, app.
  transitivity (bsum d (fun i => bsum d (fun l => (u l)^* * (A l i * v i)))).
  - apply bsum_ext; intros i Hi. rewrite bsum_conj, <- bsum_mul_r. apply bsum_ext; intros l Hl.
    rewrite sconj_mul. replace ((A i l)^*) with (A l i) by (symmetry; apply (AH l i Hl Hi)). ring.
  - rewrite bsum_swap. apply bsum_ext; intros l Hl. rewrite bsum_mul_l. reflexivity.
Qed.

Lemma rc_conj x : (rc x)^* = rc x. Proof. apply CC_eq; cbn; lra. Qed.

Lemma eig_orth l m u v : eigvec l u -> eigvec m v -> rc l * dot u v = dot u v * rc m.
Proof.
  intros Hu Hv. rewrite <- dot_scale_r.
  rewrite (dot_ext u u (fun i => v i * rc m) (app v)) by (auto; intros i Hi; symmetry; apply Hv, Hi).
  rewrite <- app_self_adj. rewrite (dot_ext (app u) (fun i => u i * rc l) v v) by (auto; intros i Hi; apply Hu, Hi).
  unfold dot. rewrite <- bsum_mul_l. apply bsum_ext; intros i Hi. rewrite sconj_mul, rc_conj. ring.
Qed.

Lemma residue_eig m V e l v : (forall t, t < m -> eigvec (e t) (fun i => V i t)) -> eigvec l v -> eigvec l (residue m V v).
Proof.
  intros HV Hv i Hi. unfold app, residue.
  transitivity (app v i - bsum m (fun t => app (fun a => V a t) i * dot (fun a => V a t) v)).
  - unfold app. transitivity (bsum d (fun l0 => A i l0 * v l0) - bsum d (fun l0 => A i l0 * bsum m (fun t => V l0 t * dot (fun a => V a t) v))).
    + rewrite <- bsum_sub. apply bsum_ext; intros; ring.
    + f_equal. transitivity (bsum d (fun l0 => bsum m (fun t => A i l0 * V l0 t * dot (fun a => V a t) v))).
      * apply bsum_ext; intros x Hx. rewrite <- bsum_mul_l. apply bsum_ext; intros; ring.
      * rewrite bsum_swap. apply bsum_ext; intros t Ht. rewrite <- bsum_mul_r. reflexivity.
  - rewrite Hv by exact Hi.
    rewrite (bsum_ext m _ (fun t => V i t * dot (fun a => V a t) v * rc l)).
    + rewrite bsum_mul_r. ring.
    + intros t Ht. rewrite (HV t Ht i Hi). pose proof (eig_orth _ _ _ _ (HV t Ht) Hv) as O. 
      transitivity (V i t * (rc (e t) * dot (fun a => V a t) v)); [ring|]. rewrite O. ring.
Qed.

Lemma residue_orth m V v a : (forall a b, a < m -> b < m -> dot (fun i => V i a) (fun i => V i b) = eye a b) -> a < m ->
  dot (fun i => V i a) (residue m V v) = 0.
Proof.
  intros H Ha. unfold residue. rewrite dot_sub_r, dot_bsum_r.
  rewrite (bsum_ext m _ (fun t => if Nat.eqb t a then dot (fun i => V i t) v else 0)).
  - rewrite bsum_delta by exact Ha. ring.
  - intros t Ht. rewrite (dot_scale_r (fun i => V i a) (fun i => V i t) (dot (fun i => V i t) v)). rewrite H by assumption. unfold eye. rewrite (Nat.eqb_sym t a). destruct (Nat.eqb a t); ring.
Qed.

Lemma residue_ext m V V' v v' : (forall i t, i < d -> t < m -> V i t = V' i t) -> (forall i, i < d -> v i = v' i) ->
  forall i, i < d -> residue m V v i = residue m V' v' i.
Proof.
  intros H H' i Hi. unfold residue. rewrite H' by exact Hi. f_equal. apply bsum_ext; intros t Ht. rewrite H by assumption. f_equal.
  apply dot_ext; auto.
Qed.

Lemma step_inv done s l v : inv done s -> eigvec l v -> inv (v :: done) (step s (l, v)).
Proof.
  destruct s as [[m V] e]. intros (O & E & D) Hv. unfold step. cbn [fst snd].
  set (u := residue m V v). set (q := fst (dot u u)).
  destruct (Req_EM_T q 0) as [Hq|Hq].
  - split; [exact O|]. split; [exact E|]. intros w [<-|Hw]; [|apply D, Hw]. intros i Hi. exact (dot_self_zero u Hq i Hi).
  - assert (Q0 : (0 < q)%R) by (pose proof (dot_self_nonneg u); unfold q in *; lra).
    assert (SQ : (/ sqrt q * / sqrt q * q = 1)%R).
    { rewrite <- (sqrt_sqrt q) at 3 by lra. pose proof (sqrt_lt_R0 q Q0). field. lra. }
    assert (UE : eigvec l u) by (apply (residue_eig m V e); assumption).
    set (V' := fun i t => if Nat.eqb t m then u i * rc (/ sqrt q) else V i t).
    assert (Vold : forall t i, t < m -> V' i t = V i t).
    { intros t i Ht. unfold V'. destruct (Nat.eqb_spec t m); [lia|reflexivity]. }
    assert (Vnew : forall i, V' i m = u i * rc (/ sqrt q)) by (intros; unfold V'; rewrite Nat.eqb_refl; reflexivity).
    assert (ON : forall a, a < m -> dot (fun i => V i a) (fun i => V' i m) = 0).
    { intros a Ha. rewrite (dot_ext _ (fun i => V i a) _ (fun i => u i * rc (/ sqrt q))) by auto.
      rewrite dot_scale_r. unfold u. rewrite residue_orth by assumption. ring. }
    assert (NN : dot (fun i => V' i m) (fun i => V' i m) = 1).
    { rewrite (dot_ext _ (fun i => V' i m) _ (fun i => u i * rc (/ sqrt q))) by auto.
      rewrite dot_scale_r, <- dot_conj. rewrite (dot_ext _ u _ (fun i => u i * rc (/ sqrt q))) by auto.
      rewrite dot_scale_r. rewrite dot_self_re. fold q. rewrite rc_mul, rc_conj, rc_mul.
      replace (q * / sqrt q * / sqrt q)%R with (/ sqrt q * / sqrt q * q)%R by ring. rewrite SQ. reflexivity. }
    split; [|split].
    + intros a b Ha Hb. destruct (Nat.eq_dec a m) as [->|Na]; destruct (Nat.eq_dec b m) as [->|Nb].
      * unfold eye. rewrite Nat.eqb_refl. exact NN.
      * unfold eye. destruct (Nat.eqb_spec m b); [lia|]. rewrite <- dot_conj.
        rewrite (dot_ext _ (fun i => V i b) _ (fun i => V' i m)) by (auto; intros; apply Vold; lia). rewrite ON by lia. apply sconj_0.
      * unfold eye. destruct (Nat.eqb_spec a m); [lia|].
        rewrite (dot_ext _ (fun i => V i a) _ (fun i => V' i m)) by (auto; intros; apply Vold; lia). apply ON; lia.
      * rewrite (dot_ext _ (fun i => V i a) _ (fun i => V i b)) by (intros; apply Vold; lia). apply O; lia.
    + intros t Ht i Hi. destruct (Nat.eqb_spec t m) as [->|Nt].
      * unfold app. rewrite Vnew. rewrite (bsum_ext d _ (fun x => A i x * u x * rc (/ sqrt q))) by (intros; rewrite Vnew; ring).
        rewrite bsum_mul_r. fold (app u i). rewrite UE by exact Hi. ring.
      * rewrite Vold by lia. rewrite <- (E t ltac:(lia) i Hi). unfold app. apply bsum_ext; intros x Hx. rewrite Vold by lia. reflexivity.
    + intros w Hw i Hi. 
      assert (R : residue (Datatypes.S m) V' w i = residue m V w i - V' i m * dot (fun a => V' a m) w).
      { unfold residue. cbn [bsum]. rewrite (bsum_ext m _ (fun t => V i t * dot (fun a => V a t) w)); [ring|].
        intros t Ht. rewrite Vold by lia. f_equal. apply dot_ext; auto. }
      rewrite R. 
      assert (X : forall w', dot (fun a => V' a m) w' = dot (fun a => V' a m) (residue m V w')).
      { intros w'. unfold residue. rewrite dot_sub_r, dot_bsum_r. rewrite (bsum_ext m _ (fun _ => 0)).
        - rewrite bsum_0. ring.
        - intros t Ht. rewrite (dot_scale_r (fun a => V' a m) (fun i => V i t)). rewrite <- dot_conj, ON by exact Ht. rewrite sconj_0. ring. }
      rewrite X. destruct Hw as [<-|Hw].
      * fold u. rewrite Vnew. rewrite <- dot_conj. rewrite (dot_ext _ u _ (fun i => u i * rc (/ sqrt q))) by auto.
        rewrite dot_scale_r, dot_self_re. fold q. rewrite rc_mul, rc_conj.
        transitivity (u i - u i * (rc (/ sqrt q) * rc (q * / sqrt q))); [ring|]. rewrite rc_mul.
        replace (/ sqrt q * (q * / sqrt q))%R with (/ sqrt q * / sqrt q * q)%R by ring. rewrite SQ, rc_1. ring.
      * rewrite (dot_ext _ (fun a => V' a m) (residue m V w) (fun _ => 0)) by (auto; apply D, Hw).
        rewrite D by assumption. unfold dot. rewrite (bsum_ext d _ (fun _ => 0)) by (intros; ring). rewrite bsum_0. ring.
Qed.

Lemma run_inv vs : forall done s, inv done s -> Forall (fun lv => eigvec (fst lv) (snd lv)) vs ->
  inv (rev (map snd vs) ++ done) (fold_left step vs s).
Proof.
  induction vs as [|[l v] vs IH]; intros done s I F; [exact I|]. apply Forall_cons_iff in F. destruct F as [F1 F].
  cbn [fold_left map rev]. rewrite <- app_assoc. apply IH; [apply step_inv; assumption|exact F].
Qed.

Definition seeds : list (R * (nat -> CC)) :=
  map (fun j => (1%R, fun i => eye i j + A i j)) (seq O d) ++ map (fun j => ((-1)%R, fun i => eye i j - A i j)) (seq O d).
Definition basis : state := fold_left step seeds (O, fun _ _ => 0, fun _ => 1%R).

Hypothesis AI : is_involution d A.
Lemma seeds_eig : Forall (fun lv => eigvec (fst lv) (snd lv)) seeds.
Proof.
  unfold seeds. apply Forall_app. split; apply Forall_map, Forall_forall; intros j Hj i Hi; apply in_seq in Hj; cbn [fst snd]; unfold app.
  - transitivity (mm d A eye i j + mm d A A i j); [unfold mm; rewrite <- bsum_add; apply bsum_ext; intros; ring|].
    rewrite AI, mm_eye_r by lia. rewrite rc_1. ring.
  - transitivity (mm d A eye i j - mm d A A i j); [unfold mm; rewrite <- bsum_sub; apply bsum_ext; intros; ring|].
    rewrite AI, mm_eye_r by lia. replace (rc (-1)) with (- (1) : CC) by (apply CC_eq; cbn; lra). ring.
Qed.

Lemma residue_add m V v w i : residue m V (fun a => v a + w a) i = residue m V v i + residue m V w i.
Proof.
  unfold residue. replace (bsum m (fun t => V i t * dot (fun a => V a t) (fun a => v a + w a))) with
    (bsum m (fun t => V i t * dot (fun a => V a t) v) + bsum m (fun t => V i t * dot (fun a => V a t) w)); [ring|].
  rewrite <- bsum_add. apply bsum_ext; intros t Ht. 
  replace (dot (fun a => V a t) (fun a => v a + w a)) with (dot (fun a => V a t) v + dot (fun a => V a t) w); [ring|].
  unfold dot. rewrite <- bsum_add. apply bsum_ext; intros; ring.
Qed.
Lemma residue_scale m V v a i : residue m V (fun x => v x * a) i = residue m V v i * a.
Proof.
  unfold residue. rewrite (bsum_ext m _ (fun t => V i t * dot (fun x => V x t) v * a)) by (intros; rewrite dot_scale_r; ring).
  rewrite bsum_mul_r. ring.
Qed.

Lemma basis_ok : exists V e, basis = (d, V, e) /\ eigen_decomposition d A e V.
Proof.
  assert (I0 : inv [] (O, (fun _ _ => 0) : array CC, fun _ => 1%R)).
  { split; [intros; lia|]. split; [intros; lia|]. intros w []. }
  pose proof (run_inv seeds [] _ I0 seeds_eig : inv _ basis) as I. destruct basis as [[m V] e]. destruct I as (O & E & D).
  rewrite app_nil_r in D.
  (* V V^dagger = I *)
  assert (C : eqm d d (mm m V (adj V)) eye).
  { intros i j Hi Hj.
    assert (R : residue m V (fun a => (eye a j + A a j) + (eye a j - A a j)) i = 0).
    { rewrite residue_add. rewrite !D; try (assumption || ring).
      - apply -> in_rev. unfold seeds. rewrite map_app, !map_map. apply in_or_app. right. apply in_map_iff. exists j. split; [reflexivity|apply in_seq; lia].
      - apply -> in_rev. unfold seeds. rewrite map_app, !map_map. apply in_or_app. left. apply in_map_iff. exists j. split; [reflexivity|apply in_seq; lia]. }
    rewrite (residue_ext m V V _ (fun a => eye a j * (1 + 1))) in R by (auto; intros; ring).
    rewrite residue_scale in R.
    assert (R' : residue m V (fun a => eye a j) i = 0).
    { apply (f_equal (fun x => x * rc (/ 2))) in R. 
      transitivity (residue m V (fun a => eye a j) i * ((1 + 1) * rc (/ 2))).
      - replace ((1 + 1) * rc (/ 2)) with (1 : CC) by (apply CC_eq; cbn; lra). ring.
      - transitivity (residue m V (fun a => eye a j) i * (1 + 1) * rc (/ 2)); [ring|]. rewrite R. ring. }
    unfold residue in R'. unfold mm.
    replace (bsum m (fun l => V i l * adj V l j)) with (bsum m (fun t => V i t * dot (fun a => V a t) (fun a => eye a j))).
    - transitivity (eye i j - (eye i j - bsum m (fun t => V i t * dot (fun a => V a t) (fun a => eye a j)))); [ring|]. rewrite R'. ring.
    - apply bsum_ext; intros t Ht. f_equal. unfold adj, dot. 
      rewrite (bsum_ext d _ (fun a => if Nat.eqb a j then (V a t)^* else 0)) by (intros a Ha; unfold eye; destruct (Nat.eqb a j); ring).
      apply (bsum_delta (K := CC) d j (fun a => (V a t)^*) Hj). }
  assert (O' : eqm m m (mm d (adj V) V) eye) by (intros a b Ha Hb; apply (O a b Ha Hb)).
  assert (DM : m = d).
  { apply INR_eq. apply rc_inj. rewrite <- !bsum_ones.
    transitivity (tr m (mm d (adj V) V)); [rewrite (tr_eqm m _ eye) by exact O'; apply bsum_ext; intros i _; unfold eye; rewrite Nat.eqb_refl; reflexivity|].
    rewrite tr_mm, (tr_eqm d _ eye) by exact C. apply bsum_ext; intros i _; unfold eye; rewrite Nat.eqb_refl; reflexivity. }
  subst m. exists V, e. split; [reflexivity|]. split; [split; assumption|]. intros i t Hi Ht. apply (E t Ht i Hi).
Qed.
End GS.

(** an executable-in-principle eigh meeting the contract *)
Definition gs_eigh (A : marr CC) : (nat -> R) * marr CC :=
  let '(m, V, e) := basis (mc A) (me A) in (e, MA (mr A) m V).

Theorem gs_eigh_ok : eigh_ok gs_eigh.
Proof.
  intros d A H I. destruct (basis_ok d A H I) as (V & e & E & D). unfold gs_eigh. cbn [mr mc me]. rewrite E. cbn [fst snd mr mc me]. auto.
Qed.
