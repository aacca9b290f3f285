(** Commutative rings with an involution, finite sums and matrices over them.
    Instances: the complex numbers over the standard reals and the Gaussian
    integers (executable). *)
From Verif Require Import Py.
From Coq Require Import Reals Ring Lra.

Record StarRing := SR {
  car :> Type;
  s0 : car; s1 : car;
  sadd : car -> car -> car; smul : car -> car -> car; ssub : car -> car -> car; sopp : car -> car;
  sconj : car -> car;
  s_rt : ring_theory s0 s1 sadd smul ssub sopp (@eq car);
  sconj_add : forall a b, sconj (sadd a b) = sadd (sconj a) (sconj b);
  sconj_mul : forall a b, sconj (smul a b) = smul (sconj a) (sconj b);
  sconj_conj : forall a, sconj (sconj a) = a;
  s1_neq : s1 <> sopp s1
}.
Arguments s0 {_}. Arguments s1 {_}. Arguments sadd {_}. Arguments smul {_}. Arguments ssub {_}.
Arguments sopp {_}. Arguments sconj {_}. Arguments sconj_add {_}. Arguments sconj_mul {_}.
Arguments sconj_conj {_}. Arguments s1_neq {_}.

Declare Scope K_scope.
Delimit Scope K_scope with K.
Bind Scope K_scope with car.
Notation "0" := s0 : K_scope.
Notation "1" := s1 : K_scope.
Infix "+" := sadd : K_scope.
Infix "*" := smul : K_scope.
Infix "-" := ssub : K_scope.
Notation "- x" := (sopp x) : K_scope.
Notation "x ^*" := (sconj x) (at level 2, format "x ^*") : K_scope.

Definition array (K : StarRing) := nat -> nat -> K.

Fixpoint bsum {K : StarRing} (n : nat) (f : nat -> K) : K :=
  match n with O => 0 | S m => bsum m f + f m end%K.

Section Sums.
Context {K : StarRing}.
Add Ring Kring : (s_rt K).
Open Scope K_scope.
Implicit Types f g : nat -> K.

Lemma sconj_0 : (0 : K)^* = 0.
Proof.
  assert (H : (0 : K)^* + 0^* = 0^*) by (rewrite <- sconj_add; f_equal; ring).
  replace ((0 : K)^*) with ((0 : K)^* + 0^* - 0^*) at 1 by ring. rewrite H. ring.
Qed.
Lemma sconj_1 : (1 : K)^* = 1.
Proof.
  replace ((1 : K)^*) with (1^* * 1 : K) by ring. rewrite <- (sconj_conj 1) at 2. rewrite <- sconj_mul.
  replace ((1 : K) * 1^*) with ((1 : K)^*) by ring. apply sconj_conj.
Qed.
Lemma sconj_opp (a : K) : (- a)^* = - a^*.
Proof.
  replace ((- a)^*) with ((- a)^* + a^* - a^*) by ring. rewrite <- sconj_add. replace (- a + a) with (0 : K) by ring.
  rewrite sconj_0. ring.
Qed.
Lemma sconj_sub (a b : K) : (a - b)^* = a^* - b^*.
Proof. replace (a - b) with (a + - b) by ring. rewrite sconj_add, sconj_opp. ring. Qed.

Lemma bsum_ext n f g : (forall i, (i < n)%nat -> f i = g i) -> bsum n f = bsum n g.
Proof. induction n as [|n IH]; intros H; [reflexivity|]. simpl. rewrite IH, H; auto. Qed.
Lemma bsum_0 n : bsum n (fun _ => 0 : K) = 0.
Proof. induction n as [|n IH]; [reflexivity|]. simpl. rewrite IH. ring. Qed.
Lemma bsum_zero n f : (forall i, (i < n)%nat -> f i = 0) -> bsum n f = 0.
Proof. intros H. rewrite (bsum_ext n f (fun _ => 0)) by exact H. apply bsum_0. Qed.
Lemma bsum_add n f g : bsum n (fun i => f i + g i) = bsum n f + bsum n g.
Proof. induction n as [|n IH]; simpl; [ring|]. rewrite IH. ring. Qed.
Lemma bsum_opp n f : bsum n (fun i => - f i) = - bsum n f.
Proof. induction n as [|n IH]; simpl; [ring|]. rewrite IH. ring. Qed.
Lemma bsum_sub n f g : bsum n (fun i => f i - g i) = bsum n f - bsum n g.
Proof. induction n as [|n IH]; simpl; [ring|]. rewrite IH. ring. Qed.
Lemma bsum_mul_l n a f : bsum n (fun i => a * f i) = a * bsum n f.
Proof. induction n as [|n IH]; simpl; [ring|]. rewrite IH. ring. Qed.
Lemma bsum_mul_r n a f : bsum n (fun i => f i * a) = bsum n f * a.
Proof. induction n as [|n IH]; simpl; [ring|]. rewrite IH. ring. Qed.
Lemma bsum_conj n f : (bsum n f)^* = bsum n (fun i => (f i)^*).
Proof. induction n as [|n IH]; simpl; [apply sconj_0|]. rewrite sconj_add, IH. reflexivity. Qed.
Lemma bsum_swap n m (f : nat -> nat -> K) :
  bsum n (fun i => bsum m (fun j => f i j)) = bsum m (fun j => bsum n (fun i => f i j)).
Proof.
  induction n as [|n IH]; simpl; [symmetry; apply bsum_0|]. rewrite IH, <- bsum_add. reflexivity.
Qed.
Lemma bsum_split a b f : bsum (a + b) f = bsum a f + bsum b (fun i => f (a + i)%nat).
Proof.
  induction b as [|b IH]; simpl; [rewrite Nat.add_0_r; ring|]. rewrite Nat.add_succ_r. simpl. rewrite IH. ring.
Qed.
Lemma bsum_blocks n m f : bsum (n * m) f = bsum n (fun b => bsum m (fun i => f (b * m + i)%nat)).
Proof.
  induction n as [|n IH]; [reflexivity|]. cbn [bsum]. rewrite <- IH.
  replace (S n * m)%nat with (n * m + m)%nat by lia. apply bsum_split.
Qed.
Lemma bsum_one n k f : (k < n)%nat -> (forall i, (i < n)%nat -> i <> k -> f i = 0) -> bsum n f = f k.
Proof.
  induction n as [|n IH]; intros Hk H; [lia|]. simpl. destruct (Nat.eq_dec k n) as [->|N].
  - rewrite bsum_zero; [ring|]. intros i Hi. apply H; lia.
  - rewrite IH by (lia || (intros; apply H; lia)). rewrite (H n) by lia. ring.
Qed.
Lemma bsum_delta n k f : (k < n)%nat -> bsum n (fun i => if Nat.eqb i k then f i else 0) = f k.
Proof.
  intros Hk. rewrite (bsum_one n k); [|exact Hk|intros i Hi Hne; destruct (Nat.eqb_spec i k); [contradiction|reflexivity]].
  rewrite Nat.eqb_refl. reflexivity.
Qed.
Lemma bsum_two f : bsum 2 f = f 0%nat + f 1%nat.
Proof. simpl. ring. Qed.

(** sums are invariant under a permutation of the indices *)
Definition bsk (k i : nat) : nat := if Nat.ltb i k then i else S i.
Lemma bsum_bsk n k f : (k < S n)%nat -> bsum (S n) f = f k + bsum n (fun i => f (bsk k i)).
Proof.
  revert k f. induction n as [|n IH]; intros k f Hk.
  - replace k with 0%nat by lia. simpl. ring.
  - destruct (Nat.eq_dec k (S n)) as [->|N].
    + change (bsum (S (S n)) f) with (bsum (S n) f + f (S n)).
      rewrite (bsum_ext (S n) f (fun i => f (bsk (S n) i))); [ring|].
      intros i Hi. unfold bsk. destruct (Nat.ltb_spec i (S n)); [reflexivity|lia].
    + change (bsum (S (S n)) f) with (bsum (S n) f + f (S n)). rewrite (IH k f) by lia.
      cbn [bsum]. unfold bsk at 3. destruct (Nat.ltb_spec n k); [lia|]. ring.
Qed.
Lemma bsum_perm n (p q : nat -> nat) f :
  (forall i, (i < n)%nat -> (p i < n)%nat /\ (q i < n)%nat /\ p (q i) = i /\ q (p i) = i) ->
  bsum n (fun i => f (p i)) = bsum n f.
Proof.
  revert p q f. induction n as [|n IH]; intros p q f H; [reflexivity|].
  set (k := p n). assert (Hk : (k < S n)%nat) by (apply H; lia).
  rewrite (bsum_bsk n k f Hk). cbn [bsum]. fold k.
  set (us := fun i => if Nat.ltb i k then i else Nat.pred i).
  assert (Uk : forall i, i <> k -> bsk k (us i) = i).
  { intros i Hi. unfold bsk, us. destruct (Nat.ltb_spec i k); [destruct (Nat.ltb_spec i k); lia|].
    destruct (Nat.ltb_spec (Nat.pred i) k); lia. }
  assert (Ku : forall i, us (bsk k i) = i).
  { intros i. unfold bsk, us. destruct (Nat.ltb_spec i k); [destruct (Nat.ltb_spec i k); lia|].
    destruct (Nat.ltb_spec (S i) k); lia. }
  assert (Ks : forall i, bsk k i <> k) by (intros i; unfold bsk; destruct (Nat.ltb_spec i k); lia).
  assert (Nq : q k = n) by (unfold k; apply H; lia).
  rewrite <- (IH (fun i => us (p i)) (fun i => q (bsk k i)) (fun i => f (bsk k i))).
  - rewrite (bsum_ext n (fun i => f (bsk k (us (p i)))) (fun i => f (p i))); [ring|].
    intros i Hi. rewrite Uk; [reflexivity|]. intros E. unfold k in E.
    assert (i = n); [|lia]. rewrite <- (proj2 (proj2 (proj2 (H i ltac:(lia))))), E. apply H; lia.
  - intros i Hi.
    assert (P1 : (p i < S n)%nat) by (apply H; lia).
    assert (P2 : p i <> k).
    { intros E. unfold k in E. assert (i = n); [|lia].
      rewrite <- (proj2 (proj2 (proj2 (H i ltac:(lia))))), E. apply H; lia. }
    assert (B1 : (us (p i) < n)%nat) by (unfold us; destruct (Nat.ltb_spec (p i) k); lia).
    assert (B2 : (bsk k i < S n)%nat) by (unfold bsk; destruct (Nat.ltb_spec i k); lia).
    assert (B3 : (q (bsk k i) < S n)%nat) by (apply H; exact B2).
    assert (B4 : q (bsk k i) <> n).
    { intros E. apply (Ks i). rewrite <- (proj1 (proj2 (proj2 (H _ B2)))), E. reflexivity. }
    split; [exact B1|]. split; [lia|]. split.
    + rewrite (proj1 (proj2 (proj2 (H _ B2)))). apply Ku.
    + rewrite Uk by exact P2. apply H; lia.
Qed.

(** ** Matrices as index functions with explicit sizes *)
Definition eqm (r c : nat) (A B : array K) : Prop := forall i j, (i < r)%nat -> (j < c)%nat -> A i j = B i j.
Definition mm (d : nat) (A B : array K) : array K := fun i j => bsum d (fun l => A i l * B l j).
Definition adj (A : array K) : array K := fun i j => (A j i)^*.
Definition eye : array K := fun i j => if Nat.eqb i j then 1 else 0.
Definition tr (d : nat) (A : array K) : K := bsum d (fun i => A i i).

Lemma eqm_refl r c A : eqm r c A A. Proof. intros i j _ _; reflexivity. Qed.
Lemma eqm_sym r c A B : eqm r c A B -> eqm r c B A. Proof. intros H i j Hi Hj; symmetry; auto. Qed.
Lemma eqm_trans r c A B C : eqm r c A B -> eqm r c B C -> eqm r c A C.
Proof. intros H1 H2 i j Hi Hj. rewrite H1, H2 by assumption. reflexivity. Qed.
Lemma mm_eqm r d c A A' B B' : eqm r d A A' -> eqm d c B B' -> eqm r c (mm d A B) (mm d A' B').
Proof. intros HA HB i j Hi Hj. apply bsum_ext; intros l Hl. rewrite HA, HB by assumption. reflexivity. Qed.
Lemma mm_assoc d e A B C i j : mm e (mm d A B) C i j = mm d A (mm e B C) i j.
Proof.
  unfold mm. rewrite (bsum_ext e _ (fun l => bsum d (fun m => A i m * B m l * C l j))).
  - rewrite bsum_swap. apply bsum_ext; intros m Hm. rewrite <- bsum_mul_l. apply bsum_ext; intros l Hl. ring.
  - intros l Hl. rewrite <- bsum_mul_r. reflexivity.
Qed.
Lemma mm_eye_l d A i j : (i < d)%nat -> mm d eye A i j = A i j.
Proof.
  intros Hi. unfold mm, eye. rewrite (bsum_one d i); [|exact Hi|intros l _ Hne; destruct (Nat.eqb_spec i l); [congruence|ring]].
  rewrite Nat.eqb_refl. ring.
Qed.
Lemma mm_eye_r d A i j : (j < d)%nat -> mm d A eye i j = A i j.
Proof.
  intros Hj. unfold mm, eye. rewrite (bsum_one d j); [|exact Hj|intros l _ Hne; destruct (Nat.eqb_spec l j); [congruence|ring]].
  rewrite Nat.eqb_refl. ring.
Qed.
Lemma adj_mm d A B i j : adj (mm d A B) i j = mm d (adj B) (adj A) i j.
Proof. unfold adj, mm. rewrite bsum_conj. apply bsum_ext; intros l _. rewrite sconj_mul. ring. Qed.
Lemma adj_adj A i j : adj (adj A) i j = A i j.
Proof. apply sconj_conj. Qed.
Lemma adj_eye i j : adj eye i j = eye i j.
Proof. unfold adj, eye. rewrite Nat.eqb_sym. destruct (Nat.eqb i j); [apply sconj_1|apply sconj_0]. Qed.
Lemma adj_eqm r c A B : eqm r c A B -> eqm c r (adj A) (adj B).
Proof. intros H i j Hi Hj. unfold adj. rewrite H by assumption. reflexivity. Qed.
Lemma mm_add_r d A B C i j : mm d A (fun a b => B a b + C a b) i j = mm d A B i j + mm d A C i j.
Proof. unfold mm. rewrite <- bsum_add. apply bsum_ext; intros; ring. Qed.
Lemma mm_add_l d A B C i j : mm d (fun a b => B a b + C a b) A i j = mm d B A i j + mm d C A i j.
Proof. unfold mm. rewrite <- bsum_add. apply bsum_ext; intros; ring. Qed.
Lemma mm_scale_r d a A B i j : mm d A (fun p q => a * B p q) i j = a * mm d A B i j.
Proof. unfold mm. rewrite <- bsum_mul_l. apply bsum_ext; intros; ring. Qed.
Lemma mm_scale_l d a A B i j : mm d (fun p q => a * A p q) B i j = a * mm d A B i j.
Proof. unfold mm. rewrite <- bsum_mul_l. apply bsum_ext; intros; ring. Qed.
Lemma tr_mm r c A B : tr r (mm c A B) = tr c (mm r B A).
Proof. unfold tr, mm. rewrite bsum_swap. apply bsum_ext; intros i _. apply bsum_ext; intros j _. ring. Qed.
Lemma tr_eqm d A B : eqm d d A B -> tr d A = tr d B.
Proof. intros H. apply bsum_ext; intros i Hi. apply H; exact Hi. Qed.

(** signs *)
Definition sgn (b : bool) : K := if b then - (1) else 1.
Lemma sgn_xorb a b : sgn (xorb a b) = sgn a * sgn b.
Proof. destruct a, b; simpl; ring. Qed.
Lemma sgn_sq a : sgn a * sgn a = 1.
Proof. destruct a; simpl; ring. Qed.
Lemma sgn_conj a : (sgn a)^* = sgn a.
Proof. destruct a; simpl; [rewrite sconj_opp, sconj_1; reflexivity|apply sconj_1]. Qed.
Lemma sgn_inj a b : sgn a = sgn b -> a = b.
Proof. destruct a, b; simpl; intros H; try reflexivity; exfalso; apply (@s1_neq K); congruence. Qed.
End Sums.

(** ** The complex numbers *)
Definition CC_add (a b : R * R) : R * R := (fst a + fst b, snd a + snd b)%R.
Definition CC_mul (a b : R * R) : R * R := (fst a * fst b - snd a * snd b, fst a * snd b + snd a * fst b)%R.
Definition CC_opp (a : R * R) : R * R := (- fst a, - snd a)%R.
Definition CC_sub (a b : R * R) : R * R := CC_add a (CC_opp b).
Definition CC_conj (a : R * R) : R * R := (fst a, - snd a)%R.
Lemma CC_rt : ring_theory (0, 0)%R (1, 0)%R CC_add CC_mul CC_sub CC_opp (@eq (R * R)).
Proof.
  constructor; unfold CC_sub, CC_add, CC_mul, CC_opp; intros; repeat match goal with x : (R * R)%type |- _ => destruct x end;
    simpl; try reflexivity; f_equal; ring.
Qed.
Definition CC : StarRing.
Proof.
  refine (SR (R * R) (0, 0)%R (1, 0)%R CC_add CC_mul CC_sub CC_opp CC_conj CC_rt _ _ _ _).
  - intros [a b] [c d]. unfold CC_conj, CC_add; simpl. f_equal; ring.
  - intros [a b] [c d]. unfold CC_conj, CC_mul; simpl. f_equal; ring.
  - intros [a b]. unfold CC_conj; simpl. f_equal; ring.
  - intros H. injection H as H _. lra.
Defined.

(** ** The Gaussian integers *)
Definition GI_add (a b : Z * Z) : Z * Z := (fst a + fst b, snd a + snd b)%Z.
Definition GI_mul (a b : Z * Z) : Z * Z := (fst a * fst b - snd a * snd b, fst a * snd b + snd a * fst b)%Z.
Definition GI_opp (a : Z * Z) : Z * Z := (- fst a, - snd a)%Z.
Definition GI_sub (a b : Z * Z) : Z * Z := GI_add a (GI_opp b).
Definition GI_conj (a : Z * Z) : Z * Z := (fst a, - snd a)%Z.
Lemma GI_rt : ring_theory (0, 0)%Z (1, 0)%Z GI_add GI_mul GI_sub GI_opp (@eq (Z * Z)).
Proof.
  constructor; unfold GI_sub, GI_add, GI_mul, GI_opp; intros; repeat match goal with x : (Z * Z)%type |- _ => destruct x end;
    cbn [fst snd]; try reflexivity; f_equal; ring.
Qed.
Definition GI : StarRing.
Proof.
  refine (SR (Z * Z) (0, 0)%Z (1, 0)%Z GI_add GI_mul GI_sub GI_opp GI_conj GI_rt _ _ _ _).
  - intros [a b] [c d]. unfold GI_conj, GI_add; cbn [fst snd]. f_equal; ring.
  - intros [a b] [c d]. unfold GI_conj, GI_mul; cbn [fst snd]. f_equal; ring.
  - intros [a b]. unfold GI_conj; cbn [fst snd]. f_equal; ring.
  - intros H. discriminate.
Defined.
