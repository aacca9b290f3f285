(** Existence and uniqueness of the Cholesky factor, and the round trip of CholeskyParam. *)
From Verif Require Import Py Scalar PauliModel PauliSpec EncoderProofs EighExists Spectral SpectralProofs KrausSpec KrausProofs KrausProofs2 KrausProofs6 KrausProofs8 ChoiSpec ChoiProofs2 ChoiProofs3 ParamModel ParamSpec ParamProofs ParamProofs2 ParamProofs3 ParamProofs4.
From Coq Require Import Reals Lra.
Open Scope nat_scope.
Open Scope K_scope.
Add Ring CCring16 : (s_rt CC).

Definition lower (d : nat) (L : array CC) : Prop :=
  (forall i j, i < j -> j < d -> L i j = 0) /\ (forall i, i < d -> snd (L i i) = 0%R /\ (0 < fst (L i i))%R).
Lemma lower_diag d L i : lower d L -> i < d -> L i i = rc (fst (L i i)).
Proof. intros [_ H] Hi. apply CC_eq; [reflexivity|]. apply H, Hi. Qed.
Lemma rc_cancel x z : x <> 0%R -> rc x * (z * rc (/ x)) = z.
Proof. intros N. transitivity (rc x * rc (/ x) * z); [ring|]. rewrite rc_mul, Rinv_r by exact N. change (rc 1) with (1 : CC). ring. Qed.
Lemma bsum_beyond d m (f : nat -> CC) : m <= d -> (forall k, m <= k -> k < d -> f k = 0) -> bsum d f = bsum m f.
Proof.
  intros H Z. replace d with (m + (d - m))%nat by lia. rewrite bsum_split. rewrite (bsum_zero (d - m)); [ring|]. intros k Hk. apply Z; lia.
Qed.

(** forward and backward substitution *)
Lemma solve_lower d : forall (L : array CC) b, lower d L -> exists y : nat -> CC, forall i, i < d -> bsum d (fun j => L i j * y j) = b i.
Proof.
  induction d as [|d IH]; intros L b LO; [exists (fun _ => 0); intros; lia|].
  destruct (IH L b) as (y & Y). { destruct LO as [T P]. split; [intros; apply T; lia|intros; apply P; lia]. }
  set (yd := (b d - bsum d (fun j => L d j * y j)) * rc (/ fst (L d d))).
  exists (fun j => if Nat.eqb j d then yd else y j). intros i Hi. cbn [bsum].
  assert (E : bsum d (fun j => L i j * (if Nat.eqb j d then yd else y j)) = bsum d (fun j => L i j * y j)).
  { apply bsum_ext; intros j Hj. destruct (Nat.eqb_spec j d); [lia|reflexivity]. }
  rewrite E, Nat.eqb_refl. destruct (Nat.eq_dec i d) as [->|N].
  - rewrite (lower_diag (S d) L d LO) by lia. unfold yd. rewrite rc_cancel; [ring|]. destruct LO as [_ P]. specialize (P d ltac:(lia)). lra.
  - rewrite Y by lia. destruct LO as [T _]. rewrite (T i d) by lia. ring.
Qed.
Lemma solve_upper d : forall (L : array CC) b, lower d L -> exists x : nat -> CC, forall k, k < d -> bsum d (fun i => (L i k)^* * x i) = b k.
Proof.
  induction d as [|d IH]; intros L b LO; [exists (fun _ => 0); intros; lia|].
  set (xd := b d * rc (/ fst (L d d))).
  destruct (IH L (fun k => b k - (L d k)^* * xd)) as (x & X). { destruct LO as [T P]. split; [intros; apply T; lia|intros; apply P; lia]. }
  exists (fun i => if Nat.eqb i d then xd else x i). intros k Hk. cbn [bsum]. rewrite Nat.eqb_refl.
  assert (E : bsum d (fun i => (L i k)^* * (if Nat.eqb i d then xd else x i)) = bsum d (fun i => (L i k)^* * x i)).
  { apply bsum_ext; intros i Hi. destruct (Nat.eqb_spec i d); [lia|reflexivity]. }
  rewrite E. destruct (Nat.eq_dec k d) as [->|N].
  - rewrite (bsum_zero d). + rewrite (lower_diag (S d) L d LO), rc_conj by lia. unfold xd. rewrite rc_cancel; [ring|]. destruct LO as [_ P]. specialize (P d ltac:(lia)). lra.
    + intros i Hi. destruct LO as [T _]. rewrite (T i d) by lia. rewrite sconj_0. ring.
  - rewrite X by lia. ring.
Qed.

(** ** a Cholesky factor makes a matrix positive definite *)
Lemma upper_kernel d (L : array CC) v : lower d L -> (forall k, k < d -> bsum d (fun i => (L i k)^* * v i) = 0) -> forall i, i < d -> v i = 0.
Proof.
  intros LO H. assert (G : forall m i, i < d -> d - i <= m -> v i = 0).
  { induction m as [|m IH]; intros i Hi Hm; [lia|]. specialize (H i Hi). rewrite (bsum_one d i) in H; [|exact Hi|].
    - rewrite (lower_diag d L i LO Hi), rc_conj in H. destruct LO as [_ P]. specialize (P i Hi).
      rewrite <- (rc_cancel (fst (L i i)) (v i)) by lra. transitivity (rc (fst (L i i)) * v i * rc (/ fst (L i i))); [ring|]. rewrite H. ring.
    - intros j Hj N. destruct (Nat.lt_ge_cases j i) as [Lt|Ge].
      + destruct LO as [T _]. rewrite (T j i) by lia. rewrite sconj_0. ring.
      + rewrite (IH j) by lia. ring. }
  intros i Hi. apply (G d i Hi). lia.
Qed.
Lemma factor_positive d A L : cholesky_factor d A L -> positive_definite d A.
Proof.
  intros (E & T & P). assert (LO : lower d L) by (split; assumption). split.
  - intros i j Hi Hj. unfold adj. rewrite (E i j Hi Hj), (E j i Hj Hi). apply (gram_herm d d L i j Hi Hj).
  - intros v (i & Hi & N). change (0 < fst (quad d A v))%R. rewrite (quad_ext d A _ v E), gram_quad.
    set (w := fun k => bsum d (fun i => (L i k)^* * v i)). pose proof (dot_self_nonneg d w) as NN. destruct (Req_EM_T (fst (dot d w w)) 0) as [Z|NZ]; [|lra].
    exfalso. apply N. apply (upper_kernel d L v LO); [|exact Hi]. intros k Hk. apply (dot_self_zero d w Z k Hk).
Qed.

(** ** existence *)
Theorem cholesky_exists d : forall A, positive_definite d A -> exists L, cholesky_factor d A L.
Proof.
  induction d as [|d IH]; intros A (HA & PA).
  - exists (fun _ _ => 0). split; [intros i j Hi; lia|]; split; intros; lia.
  - destruct (IH A) as (L & E & T & P).
    { split; [intros i j Hi Hj; apply HA; lia|]. intros v (i & Hi & N). specialize (PA (fun k => if Nat.eqb k d then 0 else v k)). cbn [bsum] in PA.
      match type of PA with _ -> (0 < fst ?x)%R => assert (Q : x = bsum d (fun i => bsum d (fun j => (v i)^* * A i j * v j))) end.
      { rewrite Nat.eqb_refl, sconj_0. rewrite (bsum_ext d _ (fun i => bsum d (fun j => (v i)^* * A i j * v j))); [|intros a Ha; rewrite (bsum_ext d _ (fun j => (v a)^* * A a j * v j)); [|intros b Hb; destruct (Nat.eqb_spec a d); [lia|]; destruct (Nat.eqb_spec b d); [lia|reflexivity]]; ring].
        rewrite (bsum_zero d (fun j => 0 * A d j * _)) by (intros; ring). ring. }
      rewrite Q in PA. apply PA. exists i. split; [lia|]. destruct (Nat.eqb_spec i d); [lia|exact N]. }
    assert (LO : lower d L) by (split; assumption).
    destruct (solve_lower d L (fun i => A i d) LO) as (y & Y). destruct (solve_upper d L y LO) as (x & X).
    set (s := (fst (A d d) - fst (dot d y y))%R).
    assert (Cr : A d d = rc (fst (A d d))). { specialize (HA d d ltac:(lia) ltac:(lia)). unfold adj in HA. apply CC_eq; [reflexivity|]. apply (f_equal snd) in HA. cbn in *. lra. }
    assert (AX : forall i, i < d -> app d A x i = A i d).
    { intros i Hi. rewrite <- (Y i Hi). unfold app. transitivity (bsum d (fun j => bsum d (fun k => L i k * ((L j k)^* * x j)))).
      - apply bsum_ext; intros j Hj. rewrite (E i j Hi Hj). unfold mm, adj. rewrite <- bsum_mul_r. apply bsum_ext; intros; ring.
      - rewrite bsum_swap. apply bsum_ext; intros k Hk. rewrite bsum_mul_l, X by exact Hk. reflexivity. }
    assert (XA : dot d x (app d A x) = dot d y y).
    { transitivity (quad d A x). { unfold quad, dot, app. apply bsum_ext; intros i Hi. rewrite <- bsum_mul_l. apply bsum_ext; intros; ring. }
      rewrite (quad_ext d A _ x E), gram_quad. apply dot_ext; intros k Hk; apply X, Hk. }
    assert (S0 : (0 < s)%R).
    { specialize (PA (fun k => if Nat.eqb k d then 1 else - x k)). cbn [bsum] in PA.
      match type of PA with _ -> (0 < fst ?u)%R => assert (Q : u = rc s) end.
      { rewrite Nat.eqb_refl, sconj_1.
        rewrite (bsum_ext d _ (fun i => (- x i)^* * (- app d A x i) + (- x i)^* * A i d)).
        2:{ intros i Hi. destruct (Nat.eqb_spec i d); [lia|]. f_equal; [|ring]. unfold app. rewrite <- bsum_opp, <- bsum_mul_l. apply bsum_ext; intros j Hj. destruct (Nat.eqb_spec j d); [lia|ring]. }
        rewrite (bsum_zero d (fun i => (- x i)^* * (- app d A x i) + (- x i)^* * A i d)) by (intros i Hi; rewrite (AX i Hi); ring).
        rewrite (bsum_ext d _ (fun j => - ((app d A x j)^* * x j))).
        2:{ intros j Hj. destruct (Nat.eqb_spec j d); [lia|]. rewrite (AX j Hj). pose proof (HA d j ltac:(lia) ltac:(lia)) as HJ. unfold adj in HJ. rewrite HJ. ring. }
        rewrite bsum_opp. change (bsum d (fun j => (app d A x j)^* * x j)) with (dot d (app d A x) x). rewrite <- dot_conj, XA, dot_conj.
        rewrite Cr, (dot_self_re d y). unfold s. apply CC_eq; cbn; ring. }
      rewrite Q in PA. apply PA. exists d. split; [lia|]. rewrite Nat.eqb_refl. intros Z. apply (f_equal fst) in Z. cbn in Z. lra. }
    exists (fun i j => if Nat.eqb i d then (if Nat.eqb j d then rc (sqrt s) else (y j)^*) else if Nat.eqb j d then 0 else L i j).
    split; [|split].
    + intros i j Hi Hj. unfold mm, adj. cbn [bsum]. rewrite Nat.eqb_refl. destruct (Nat.eqb_spec i d) as [->|Ni], (Nat.eqb_spec j d) as [->|Nj].
      * rewrite (bsum_ext d _ (fun k => (y k)^* * y k)); [|intros k Hk; destruct (Nat.eqb_spec k d); [lia|]; rewrite sconj_conj; reflexivity].
        change (bsum d (fun k => (y k)^* * y k)) with (dot d y y). rewrite rc_conj, rc_mul, sqrt_sqrt by lra. rewrite Cr, (dot_self_re d y). unfold s. apply CC_eq; cbn; ring.
      * rewrite (bsum_ext d _ (fun k => (L j k * y k)^*)); [|intros k Hk; destruct (Nat.eqb_spec k d); [lia|]; rewrite sconj_mul; ring].
        rewrite <- bsum_conj, Y by lia. rewrite <- (HA d j) by lia. unfold adj. rewrite sconj_0. ring.
      * rewrite (bsum_ext d _ (fun k => L i k * y k)); [|intros k Hk; destruct (Nat.eqb_spec k d); [lia|]; rewrite sconj_conj; reflexivity]. rewrite Y by lia. ring.
      * rewrite (bsum_ext d _ (fun k => L i k * (L j k)^*)); [|intros k Hk; destruct (Nat.eqb_spec k d); [lia|reflexivity]]. rewrite (E i j) by lia. unfold mm, adj. ring.
    + intros i j Hij Hj. destruct (Nat.eqb_spec i d); [lia|]. destruct (Nat.eqb_spec j d); [reflexivity|]. apply T; lia.
    + intros i Hi. destruct (Nat.eqb_spec i d); [split; [reflexivity|]; cbn; apply sqrt_lt_R0, S0|]. apply P. lia.
Qed.

(** ** uniqueness *)
Lemma factor_prefix d A L i j : cholesky_factor d A L -> j <= i -> i < d -> A i j = bsum j (fun k => L i k * (L j k)^*) + L i j * (L j j)^*.
Proof.
  intros (E & T & P) Hj Hi. rewrite (E i j Hi ltac:(lia)). unfold mm, adj. rewrite (bsum_beyond d (S j)); [reflexivity|lia|]. intros k Hk Hd. rewrite (T j k) by lia. rewrite sconj_0. ring.
Qed.
Theorem cholesky_unique d A L M : cholesky_factor d A L -> cholesky_factor d A M -> eqm d d L M.
Proof.
  intros FL FM. pose proof FL as (_ & TL & PL). pose proof FM as (_ & TM & PM).
  assert (G : forall j, j < d -> forall i, j <= i -> i < d -> L i j = M i j).
  { intros j. induction j as [j IH] using lt_wf_ind. intros Hj.
    assert (D : fst (L j j) = fst (M j j)).
    { pose proof (factor_prefix d A L j j FL ltac:(lia) Hj) as E1. pose proof (factor_prefix d A M j j FM ltac:(lia) Hj) as E2. rewrite E1 in E2.
      rewrite (bsum_ext j (fun k => L j k * (L j k)^*) (fun k => M j k * (M j k)^*)) in E2 by (intros k Hk; rewrite (IH k) by lia; reflexivity).
      assert (E3 : L j j * (L j j)^* = M j j * (M j j)^*).
      { transitivity (bsum j (fun k => M j k * (M j k)^*) + L j j * (L j j)^* - bsum j (fun k => M j k * (M j k)^*)); [ring|]. rewrite E2. ring. }
      destruct (PL j Hj) as [IL RL], (PM j Hj) as [IM RM]. apply (f_equal fst) in E3. cbn in E3. rewrite IL, IM in E3. nra. }
    assert (DD : L j j = M j j). { apply CC_eq; [exact D|]. destruct (PL j Hj) as [-> _], (PM j Hj) as [-> _]. reflexivity. }
    intros i Hij Hi. destruct (Nat.eq_dec i j) as [->|N]; [exact DD|].
    pose proof (factor_prefix d A L i j FL Hij Hi) as E1. pose proof (factor_prefix d A M i j FM Hij Hi) as E2. rewrite E1 in E2.
    rewrite (bsum_ext j (fun k => L i k * (L j k)^*) (fun k => M i k * (M j k)^*)) in E2 by (intros k Hk; rewrite !(IH k) by lia; reflexivity).
    assert (E3 : L i j * (L j j)^* = M i j * (L j j)^*).
    { rewrite DD at 2. transitivity (bsum j (fun k => M i k * (M j k)^*) + L i j * (L j j)^* - bsum j (fun k => M i k * (M j k)^*)); [ring|]. rewrite E2. ring. }
    destruct (PL j Hj) as [IL RL]. assert (C : (L j j)^* = rc (fst (L j j))) by (apply CC_eq; cbn; [reflexivity|rewrite IL; ring]). rewrite C in E3.
    rewrite <- (rc_cancel (fst (L j j)) (L i j)), <- (rc_cancel (fst (L j j)) (M i j)) by lra.
    transitivity (L i j * rc (fst (L j j)) * rc (/ fst (L j j))); [ring|]. rewrite E3. ring. }
  intros i j Hi Hj. destruct (Nat.lt_ge_cases i j) as [Lt|Ge]; [rewrite (TL i j), (TM i j) by assumption; reflexivity|apply G; assumption].
Qed.
