(** One round of the design: what remains of the state after averaging over the phases (C144). *)
From Verif Require Import Py Scalar PauliModel PauliSpec EncoderProofs CircuitModel CircuitSpec CircuitProofs CircuitProofs2 OptimModel ChoiProofs2 DeviceModel DeviceSpec DeviceProofs DeviceProofs2 DeviceProofs3 DeviceProofs6 TwirlSpec.
From Coq Require Import Reals Lra Permutation.
Open Scope nat_scope.
Open Scope K_scope.
Add Ring CCring76 : (s_rt CC).

(** ** expected values of complex numbers *)
Fixpoint cmean (ranges : list nat) (f : list nat -> CC) : CC :=
  match ranges with
  | [] => f []
  | k :: r => rc (/ INR k) * bsum k (fun i => cmean r (fun d => f (i :: d)))
  end.
Lemma cmean_ext r : forall f g, (forall d, length d = length r -> f d = g d) -> cmean r f = cmean r g.
Proof. induction r as [|k r IH]; intros f g H; cbn [cmean]; [apply H; reflexivity|]. f_equal. apply bsum_ext; intros i _. apply IH. intros d Hd. apply H. cbn. lia. Qed.
Lemma cmean_add r : forall f g, cmean r (fun d => f d + g d) = cmean r f + cmean r g.
Proof. induction r as [|k r IH]; intros f g; cbn [cmean]; [reflexivity|]. rewrite (bsum_ext _ _ (fun i => cmean r (fun d => f (i :: d)) + cmean r (fun d => g (i :: d)))) by (intros; apply IH). rewrite bsum_add. ring. Qed.
Lemma cmean_mul r : forall a f, cmean r (fun d => a * f d) = a * cmean r f.
Proof. induction r as [|k r IH]; intros a f; cbn [cmean]; [reflexivity|]. rewrite (bsum_ext _ _ (fun i => a * cmean r (fun d => f (i :: d)))) by (intros; apply IH). rewrite bsum_mul_l. ring. Qed.
Lemma cmean_app r s : forall f, cmean (r ++ s) f = cmean r (fun d => cmean s (fun e => f (d ++ e))).
Proof. induction r as [|k r IH]; intros f; cbn [app cmean]; [reflexivity|]. f_equal. apply bsum_ext; intros i _. apply IH. Qed.
Lemma cmean_isum n r : forall f, cmean r (fun d => isum n (f d)) = isum n (fun x => cmean r (fun d => f d x)).
Proof.
  induction n as [|n IH]; intros f; cbn [isum]; [reflexivity|]. rewrite cmean_add, !IH. reflexivity.
Qed.
Lemma bsum_const k (a : CC) : bsum k (fun _ => a) = rc (INR k) * a.
Proof. induction k as [|k IH]; [cbn [bsum]; apply CC_eq; cbn; ring|]. cbn [bsum]. rewrite IH, S_INR. rewrite <- rc_add, rc_1. ring. Qed.
Lemma cmean_const r a : Forall (fun k => 0 < k)%nat r -> cmean r (fun _ => a) = a.
Proof.
  intros H. induction H as [|k r Hk H IH]; cbn [cmean]; [reflexivity|]. rewrite IH, bsum_const. transitivity ((rc (/ INR k) * rc (INR k)) * a); [ring|]. rewrite rc_mul, Rinv_l by (apply not_0_INR; lia). rewrite rc_1. ring.
Qed.
Lemma cmean_expected r : forall f, cmean r (fun d => rc (f d)) = rc (expected r f).
Proof.
  induction r as [|k r IH]; intros f; cbn [cmean expected]; [reflexivity|]. rewrite (bsum_ext _ _ (fun i => rc (expected r (fun d => f (i :: d))))) by (intros; apply IH).
  assert (S : forall m, bsum m (fun i => rc (expected r (fun d => f (i :: d)))) = rc (fold_right Rplus 0%R (map (fun i => expected r (fun d => f (i :: d))) (seq 0 m)))).
  { induction m as [|m IHm]; [reflexivity|]. cbn [bsum]. rewrite IHm, seq_S, map_app, fold_right_app. cbn [map fold_right plus].
    assert (G : forall l x, fold_right Rplus x l = (fold_right Rplus 0 l + x)%R) by (induction l as [|y l IHl]; intros x; cbn [fold_right]; [ring|rewrite IHl; ring]).
    rewrite (G _ (_ + 0)%R), rc_add. f_equal. ring. }
  rewrite S, rc_mul. f_equal. unfold Rdiv. ring.
Qed.

(** ** products *)
Definition prodl {A} (l : list A) (f : A -> CC) : CC := fold_right (fun x acc => f x * acc) 1 l.
Lemma prodl_mul {A} (l : list A) f g : prodl l f * prodl l g = prodl l (fun x => f x * g x).
Proof. unfold prodl. induction l as [|x l IH]; cbn [fold_right]; [ring|]. rewrite <- IH. ring. Qed.
Lemma prodl_conj {A} (l : list A) f : (prodl l f)^* = prodl l (fun x => (f x)^*).
Proof. unfold prodl. induction l as [|x l IH]; cbn [fold_right]; [apply sconj_1|]. rewrite <- IH. apply sconj_mul. Qed.
Lemma prodl_ext {A} (l : list A) f g : (forall x, In x l -> f x = g x) -> prodl l f = prodl l g.
Proof. unfold prodl. induction l as [|x l IH]; intros H; cbn [fold_right]; [reflexivity|]. rewrite H by (left; reflexivity). rewrite IH by (intros; apply H; right; assumption). reflexivity. Qed.
Lemma prodl_map {A B} (g : A -> B) (l : list A) f : prodl (map g l) f = prodl l (fun x => f (g x)).
Proof. unfold prodl. induction l as [|x l IH]; cbn [fold_right map]; [reflexivity|]. rewrite IH. reflexivity. Qed.
Lemma prodl_01 {A} (l : list A) (c : A -> bool) : prodl l (fun x => if c x then 1 else 0) = if forallb c l then 1 else 0.
Proof. unfold prodl. induction l as [|x l IH]; cbn [fold_right forallb]; [reflexivity|]. rewrite IH. destruct (c x), (forallb c l); cbn [andb]; ring. Qed.
Lemma mean_prod {A} k (g : A -> nat -> CC) (l : list A) : cmean (repeat k (length l)) (fun d => prodl (combine l d) (fun ik => g (fst ik) (snd ik))) = prodl l (fun i => rc (/ INR k) * bsum k (g i)).
Proof.
  induction l as [|i l IH]; [reflexivity|]. cbn [length repeat cmean]. unfold prodl in *. cbn [combine fold_right fst snd].
  rewrite (bsum_ext _ _ (fun j => g i j * cmean (repeat k (length l)) (fun d => fold_right (fun x acc => g (fst x) (snd x) * acc) 1 (combine l d)))) by (intros; apply cmean_mul). rewrite IH, bsum_mul_r. ring.
Qed.

(** ** the phases of one round *)
Definition phase3 (k : nat) : CC := cexp (nth (k mod 3) phases3 0%R).
Definition phase2 (k : nat) : CC := cexp (nth (k mod 2) phases2 0%R).
Lemma cos_sin_23 : cos (2 * PI / 3) = (-1 / 2)%R /\ sin (2 * PI / 3) = (sqrt 3 / 2)%R.
Proof. replace (2 * PI / 3)%R with (2 * (PI / 3))%R by field. split; [rewrite cos_2PI3|rewrite sin_2PI3]; reflexivity. Qed.
Lemma cos_sin_43 : cos (4 * PI / 3) = (-1 / 2)%R /\ sin (4 * PI / 3) = (- (sqrt 3 / 2))%R.
Proof.
  replace (4 * PI / 3)%R with (PI / 3 + PI)%R by field. rewrite neg_cos, neg_sin, cos_PI3, sin_PI3. split; lra.
Qed.
Lemma singles_mean x x' y y' : rc (/ INR 3) * bsum 3 (fun k => (if x : bool then phase3 k else 1) * (if x' : bool then phase3 k else 1) * (if y : bool then phase3 k else 1)^* * (if y' : bool then phase3 k else 1)^*) = if (Nat.eqb (Nat.b2n x + Nat.b2n x') (Nat.b2n y + Nat.b2n y')) then 1 else 0.
Proof.
  assert (P0 : phase3 0 = 1) by (unfold phase3; cbn [Nat.modulo Nat.divmod nth phases3 fst snd Nat.sub]; apply cexp_0).
  destruct cos_sin_23 as [C1 S1], cos_sin_43 as [C2 S2].
  assert (P1 : phase3 1 = ((-1 / 2)%R, (sqrt 3 / 2)%R)) by (unfold phase3, cexp; change (nth (1 mod 3) phases3 0%R) with (2 * PI / 3)%R; rewrite C1, S1; reflexivity).
  assert (P2 : phase3 2 = ((-1 / 2)%R, (- (sqrt 3 / 2))%R)) by (unfold phase3, cexp; change (nth (2 mod 3) phases3 0%R) with (4 * PI / 3)%R; rewrite C2, S2; reflexivity).
  cbn [bsum]. rewrite P0, P1, P2. pose proof (sqrt_sqrt 3 ltac:(lra)) as Q. set (s := sqrt 3) in *.
  assert (Q2 : (s ^ 2 = 3)%R) by (rewrite <- Q; ring). assert (Q3 : (s ^ 3 = 3 * s)%R) by (rewrite <- Q at 1; ring). assert (Q4 : (s ^ 4 = 9)%R) by (replace (s ^ 4)%R with ((s * s) * (s * s))%R by ring; rewrite Q; ring).
  destruct x, x', y, y'; apply CC_eq; cbn [Nat.b2n Nat.add Nat.eqb INR]; cbn; field_simplify; rewrite ?Q2, ?Q3, ?Q4; try field; try lra.
Qed.
Lemma doubles_mean x x' y y' : rc (/ INR 2) * bsum 2 (fun k => (if x : bool then phase2 k else 1) * (if x' : bool then phase2 k else 1) * (if y : bool then phase2 k else 1)^* * (if y' : bool then phase2 k else 1)^*) = if (Bool.eqb (xorb x x') (xorb y y')) then 1 else 0.
Proof.
  assert (P0 : phase2 0 = 1) by (unfold phase2; cbn [Nat.modulo Nat.divmod nth phases2 fst snd Nat.sub]; apply cexp_0).
  assert (P1 : phase2 1 = ((-1)%R, 0%R)) by (unfold phase2, cexp; change (nth (1 mod 2) phases2 0%R) with PI; rewrite cos_PI, sin_PI; reflexivity).
  cbn [bsum]. rewrite P0, P1. destruct x, x', y, y'; apply CC_eq; cbn [xorb Bool.eqb INR]; cbn; field.
Qed.
(** the two strings x, x' are y, y' in some order *)
Definition same_pair (x x' y y' : list bool) : bool :=
  if list_eq_dec bool_dec x y then (if list_eq_dec bool_dec x' y' then true else false) else if list_eq_dec bool_dec x y' then (if list_eq_dec bool_dec x' y then true else false) else false.
Section Positions.
Variables (n : nat) (at_ : nat -> nat).
Hypothesis ONTO : forall p, p < n -> exists i, i < n /\ at_ i = p.
Let X (x : list bool) i := getb x (at_ i).
Definition single_ok (x x' y y' : list bool) : bool := forallb (fun i => Nat.eqb (Nat.b2n (X x i) + Nat.b2n (X x' i)) (Nat.b2n (X y i) + Nat.b2n (X y' i)))%nat (seq 0 n).
Definition pair_ok (x x' y y' : list bool) : bool := forallb (fun ij => Bool.eqb (xorb (X x (fst ij) && X x (snd ij)) (X x' (fst ij) && X x' (snd ij))) (xorb (X y (fst ij) && X y (snd ij)) (X y' (fst ij) && X y' (snd ij)))) (pairs n).
Lemma all_bits x y : length x = n -> length y = n -> (forall i, i < n -> X x i = X y i) -> x = y.
Proof. intros L1 L2 H. apply (nth_ext _ _ false false); [congruence|]. intros p Hp. destruct (ONTO p) as (i & Hi & <-); [lia|]. apply (H i Hi). Qed.
Lemma pairs_all i j : i < n -> j < n -> i <> j -> In (i, j) (pairs n).
Proof. intros Hi Hj NE. unfold pairs. apply in_flat_map. exists i. split; [apply in_seq; lia|]. apply in_map, filter_In. split; [apply in_seq; lia|]. apply negb_true_iff, Nat.eqb_neq, NE. Qed.
Lemma pair_conditions x x' y y' : length x = n -> length x' = n -> length y = n -> length y' = n -> (single_ok x x' y y' && pair_ok x x' y y')%bool = same_pair x x' y y'.
Proof.
  intros Lx Lx' Ly Ly'. destruct (single_ok x x' y y' && pair_ok x x' y y')%bool eqn:E; symmetry.
  - apply andb_true_iff in E. destruct E as [E1 E2]. unfold single_ok in E1. unfold pair_ok in E2. rewrite forallb_forall in E1, E2.
    assert (S : forall i, i < n -> (Nat.b2n (X x i) + Nat.b2n (X x' i) = Nat.b2n (X y i) + Nat.b2n (X y' i))%nat) by (intros i Hi; apply Nat.eqb_eq, E1, in_seq; lia).
    assert (D : forall i j, i < n -> j < n -> i <> j -> xorb (X x i && X x j) (X x' i && X x' j) = xorb (X y i && X y j) (X y' i && X y' j)) by (intros i j Hi Hj NE; apply eqb_prop, (E2 (i, j)), pairs_all; assumption).
    assert (G : (x = y /\ x' = y') \/ (x = y' /\ x' = y)).
    { destruct (existsb (fun i => xorb (X x i) (X x' i)) (seq 0 n)) eqn:EX.
      - apply existsb_exists in EX. destruct EX as (i & Hi & EX). apply in_seq in Hi.
        destruct (Bool.bool_dec (X x i) (X y i)) as [EQ|NE]; [left|right]; split; (apply all_bits; [assumption|assumption|]); intros j Hj; destruct (Nat.eq_dec i j) as [<-|NJ];
          try (pose proof (S i ltac:(lia)) as SI; pose proof (S j Hj) as SJ; pose proof (D i j ltac:(lia) Hj NJ) as DD); try (pose proof (S i ltac:(lia)) as SI);
          repeat match goal with |- context[X ?a ?b] => generalize dependent (X a b); intros end; repeat match goal with H : context[X ?a ?b] |- _ => generalize dependent (X a b); intros end;
          repeat match goal with b : bool |- _ => destruct b end; cbn in *; try reflexivity; try discriminate; try lia; try congruence.
      - assert (N : forall i, i < n -> X x i = X x' i).
        { intros i Hi. destruct (xorb (X x i) (X x' i)) eqn:Q; [|apply xorb_eq, Q]. exfalso. rewrite <- not_true_iff_false in EX. apply EX, existsb_exists. exists i. split; [apply in_seq; lia|exact Q]. }
        left. split; (apply all_bits; [assumption|assumption|]); intros j Hj; pose proof (N j Hj) as NJ; pose proof (S j Hj) as SJ; destruct (X x j), (X x' j), (X y j), (X y' j); cbn in *; try reflexivity; try discriminate; lia. }
    unfold same_pair. destruct G as [[-> ->]|[-> ->]].
    + destruct (list_eq_dec bool_dec y y); [|contradiction]. destruct (list_eq_dec bool_dec y' y'); [reflexivity|contradiction].
    + destruct (list_eq_dec bool_dec y' y) as [->|]; [destruct (list_eq_dec bool_dec y y); [reflexivity|contradiction]|]. destruct (list_eq_dec bool_dec y' y'); [|contradiction]. destruct (list_eq_dec bool_dec y y); [reflexivity|contradiction].
  - unfold same_pair. destruct (list_eq_dec bool_dec x y) as [->|N1]; [destruct (list_eq_dec bool_dec x' y') as [->|]; [|reflexivity]|destruct (list_eq_dec bool_dec x y') as [->|]; [|reflexivity]; destruct (list_eq_dec bool_dec x' y) as [->|]; [|reflexivity]]; exfalso; rewrite <- not_true_iff_false in E; apply E, andb_true_iff; split; apply forallb_forall; intros i Hi.
    + apply Nat.eqb_refl.
    + apply Bool.eqb_reflx.
    + rewrite Nat.add_comm. apply Nat.eqb_refl.
    + rewrite xorb_comm. apply Bool.eqb_reflx.
Qed.
Lemma same_pair_sum x x' y y' : (if same_pair x x' y y' then 1 else 0 : CC) = ket x y * ket x' y' + ket x y' * ket x' y + - (ket x y * ket x' y' * ket x x').
Proof.
  unfold same_pair, ket. repeat match goal with |- context[list_eq_dec bool_dec ?a ?b] => destruct (list_eq_dec bool_dec a b) end; subst; try contradiction; try ring.
Qed.
End Positions.

(** ** one round as a sum over bit strings *)
Lemma gacts_phases {A} ids (l : list A) (cs : A -> list nat) (ang : A -> R) (t : A -> nat) : forall psi y,
  gacts ids (map (fun e => PhaseGate (cs e) (ang e) (t e)) l) psi y = prodl l (fun e => if (forallb (getb y) (map (qpos ids) (cs e)) && getb y (qpos ids (t e)))%bool then cexp (ang e) else 1) * psi y.
Proof.
  unfold prodl. induction l as [|e l IH]; intros psi y; cbn [map fold_right]; [unfold gacts; cbn [fold_left]; ring|].
  unfold gacts. cbn [fold_left]. fold (gacts ids (map (fun e => PhaseGate (cs e) (ang e) (t e)) l) (gact ids (PhaseGate (cs e) (ang e) (t e)) psi)). rewrite IH. cbn [gact]. unfold apply_phase. destruct (_ && _)%bool; ring.
Qed.
(** the entries of the Hadamard transform on the qubits at the positions l *)
Definition hsign (l : list nat) (a x : list bool) : CC := prodl l (fun p => if (getb a p && getb x p)%bool then - (1) else 1).
Lemma hsign_sq l a x : hsign l a x * hsign l a x = 1.
Proof. unfold hsign. rewrite prodl_mul. unfold prodl. induction l as [|p l IH]; cbn [fold_right]; [reflexivity|]. rewrite IH. destruct (_ && _)%bool; ring. Qed.
Lemma hsign_conj l a x : (hsign l a x)^* = hsign l a x.
Proof. unfold hsign. rewrite prodl_conj. apply prodl_ext. intros p _. destruct (_ && _)%bool; rewrite ?sconj_opp, sconj_1; reflexivity. Qed.
Lemma hsign_sym l a x : hsign l a x = hsign l x a.
Proof. unfold hsign. apply prodl_ext. intros p _. rewrite andb_comm. reflexivity. Qed.
Fixpoint hpow (m : nat) : CC := match m with O => 1 | S k => hh * hpow k end.
Lemma hpow_rc m : hpow m = rc (/ sqrt (2 ^ m)).
Proof.
  induction m as [|m IH]; cbn [hpow]; [cbn [pow]; rewrite sqrt_1, Rinv_1; reflexivity|]. rewrite IH. change hh with (rc (/ sqrt 2)). rewrite rc_mul. f_equal. cbn [pow]. rewrite sqrt_mult_alt by lra. rewrite Rinv_mult. reflexivity.
Qed.
Definition agrees (n : nat) (l : list nat) (a x : list bool) : bool := forallb (fun p => (existsb (Nat.eqb p) l || Bool.eqb (getb a p) (getb x p)))%bool (seq 0 n).
Lemma hsign_setb l a x p b : ~ In p l -> Forall (fun q => q < length a)%nat l -> hsign l (setb a p b) x = hsign l a x.
Proof. intros N F. unfold hsign. apply prodl_ext. intros q Hq. rewrite Forall_forall in F. rewrite getb_setb by (apply F, Hq). destruct (Nat.eqb_spec q p) as [->|]; [contradiction|reflexivity]. Qed.
Lemma existsb_app1 p l q : existsb (Nat.eqb p) (l ++ [q]) = (existsb (Nat.eqb p) l || Nat.eqb p q)%bool.
Proof. rewrite existsb_app. cbn [existsb]. rewrite orb_false_r. reflexivity. Qed.
Lemma hadamards_entries ids l : NoDup (map (qpos ids) l) -> incl l ids -> forall x a, length x = length ids -> length a = length ids ->
  gacts ids (map Hadamard l) (ket x) a = (if agrees (length ids) (map (qpos ids) l) a x then hpow (length l) * hsign (map (qpos ids) l) a x else 0).
Proof.
  revert l. apply (rev_ind (fun l => NoDup (map (qpos ids) l) -> incl l ids -> forall x a, length x = length ids -> length a = length ids ->
  gacts ids (map Hadamard l) (ket x) a = (if agrees (length ids) (map (qpos ids) l) a x then hpow (length l) * hsign (map (qpos ids) l) a x else 0))).
  - intros _ _ x a Lx La. cbn [map gacts fold_left length hpow]. unfold gacts. cbn [fold_left].
    assert (E : agrees (length ids) [] a x = if list_eq_dec bool_dec a x then true else false).
    { unfold agrees. cbn [existsb orb]. destruct (list_eq_dec bool_dec a x) as [->|N]; [apply forallb_forall; intros; apply eqb_reflx|]. apply not_true_iff_false. intros H. apply N. rewrite forallb_forall in H. apply (nth_ext _ _ false false); [congruence|]. intros p Hp. apply eqb_prop, H, in_seq. lia. }
    rewrite E. unfold ket, hsign, prodl. cbn [fold_right]. destruct (list_eq_dec bool_dec a x); ring.
  - intros q l IH ND IN x a Lx La. rewrite map_app in ND. rewrite !map_app. cbn [map] in *. apply NoDup_remove in ND. rewrite app_nil_r in ND. destruct ND as [ND NI].
    assert (IQ : In q ids) by (apply IN, in_or_app; right; left; reflexivity). destruct (pos_ok ids q IQ) as (_ & LQ & _). set (p := qpos ids q) in *.
    rewrite gacts_app. unfold gacts at 1. cbn [fold_left gact]. fold p. unfold apply_gate. cbn [forallb].
    assert (F : forall b, Forall (fun r => r < length (setb a p b))%nat (map (qpos ids) l)).
    { intros b. rewrite setb_length, La. apply Forall_forall. intros r Hr. apply in_map_iff in Hr. destruct Hr as (r' & <- & Hr). apply pos_ok, IN, in_or_app. left. exact Hr. }
    assert (IN' : incl l ids) by (intros r Hr; apply IN, in_or_app; left; exact Hr).
    rewrite !(IH ND IN') by (rewrite ?setb_length; assumption).
    assert (AG : forall b, agrees (length ids) (map (qpos ids) l) (setb a p b) x = (agrees (length ids) (map (qpos ids) l ++ [p]) a x && Bool.eqb b (getb x p))%bool).
    { intros b. unfold agrees. apply eq_true_iff_eq. rewrite andb_true_iff, !forallb_forall. split.
      - intros H. split.
        + intros r Hr. rewrite existsb_app1. specialize (H r Hr). apply in_seq in Hr. rewrite getb_setb in H by lia. destruct (Nat.eqb r p); [rewrite orb_true_r; reflexivity|]. rewrite orb_false_r. exact H.
        + specialize (H p). rewrite getb_setb, Nat.eqb_refl in H by lia. destruct (existsb (Nat.eqb p) (map (qpos ids) l)) eqn:EX; [|apply H, in_seq; lia]. exfalso. apply existsb_exists in EX. destruct EX as (r & Hr & E). apply Nat.eqb_eq in E. subst r. apply NI, Hr.
      - intros [H1 H2] r Hr. specialize (H1 r Hr). rewrite existsb_app1 in H1. apply in_seq in Hr. rewrite getb_setb by lia. destruct (Nat.eqb_spec r p) as [EP|]; [rewrite EP, H2; apply orb_true_r|]. rewrite orb_false_r in H1. exact H1. }
    rewrite !AG. rewrite !hsign_setb by (exact NI || (rewrite La; specialize (F false); rewrite setb_length, La in F; exact F)).
    destruct (agrees (length ids) (map (qpos ids) l ++ [p]) a x); cbn [andb]; [|ring].
    assert (HS : hsign (map (qpos ids) l ++ [p]) a x = (if (getb a p && getb x p)%bool then - (1) else 1) * hsign (map (qpos ids) l) a x).
    { unfold hsign, prodl. rewrite fold_right_app. cbn [fold_right]. generalize (map (qpos ids) l). intros m. induction m as [|r m IHm]; cbn [fold_right]; [ring|]. rewrite IHm. ring. }
    rewrite HS. rewrite app_length. cbn [length]. rewrite Nat.add_1_r. cbn [hpow].
    destruct (getb a p), (getb x p); cbn [gate_entry Bool.eqb andb]; ring.
Qed.
Lemma prodl_perm {A} (l m : list A) f : Permutation l m -> prodl l f = prodl m f.
Proof. unfold prodl. intros P. induction P as [|x l m P IH|x y l|l m k P1 IH1 P2 IH2]; cbn [fold_right]; [reflexivity|rewrite IH; reflexivity|ring|congruence]. Qed.
Definition hm (n : nat) (a x : list bool) : CC := rc (/ sqrt (2 ^ n)) * hsign (seq 0 n) a x.
Lemma hm_sym n a x : hm n a x = hm n x a. Proof. unfold hm. rewrite hsign_sym. reflexivity. Qed.
Lemma hm_conj n a x : (hm n a x)^* = hm n a x. Proof. unfold hm. rewrite sconj_mul, hsign_conj. f_equal. apply CC_eq; cbn; ring. Qed.
Lemma hm_sq n a x : hm n a x * hm n a x = rc (/ 2 ^ n).
Proof.
  transitivity (rc (/ sqrt (2 ^ n)) * rc (/ sqrt (2 ^ n)) * (hsign (seq 0 n) a x * hsign (seq 0 n) a x)); [unfold hm; ring|]. rewrite hsign_sq, rc_mul. rewrite <- Rinv_mult, sqrt_sqrt; [ring|]. apply Rlt_le, pow_lt; lra.
Qed.

Section Twirl.
Variables (register ids : list nat) (n : nat).
Hypothesis L : length register = n.
Hypothesis PE : Permutation register ids.
Hypothesis ND : NoDup register.
Lemma ids_len : length ids = n. Proof. rewrite <- L. symmetry. apply Permutation_length, PE. Qed.
Lemma reg_incl : incl register ids. Proof. intros q Hq. apply (Permutation_in _ PE), Hq. Qed.
Lemma positions : Permutation (map (qpos ids) register) (seq 0 n).
Proof.
  apply NoDup_Permutation_bis.
  - apply (proj2 (NoDup_nth (map (qpos ids) register) O)). rewrite map_length. intros i j Hi Hj E. rewrite !(nth_indep _ O (qpos ids O)) in E by (rewrite map_length; assumption). rewrite !map_nth in E.
    apply (proj1 (NoDup_nth register O) ND); [assumption|assumption|]. apply (pos_inj ids); [apply reg_incl, nth_In; assumption|apply reg_incl, nth_In; assumption|exact E].
  - rewrite map_length, seq_length. lia.
  - intros p Hp. apply in_map_iff in Hp. destruct Hp as (q & E & Hq). subst p. apply in_seq. destruct (pos_ok ids q (reg_incl q Hq)) as (_ & LQ & _). rewrite ids_len in LQ. lia.
Qed.
Lemma positions_nodup : NoDup (map (qpos ids) register). Proof. apply (Permutation_NoDup (Permutation_sym positions)), seq_NoDup. Qed.
Definition HW (psi : @state CC) : @state CC := gacts ids (map Hadamard register) psi.
Lemma HW_ket x a : length x = n -> length a = n -> HW (ket x) a = hm n a x.
Proof.
  intros Lx La. unfold HW. rewrite hadamards_entries by (try exact positions_nodup; try exact reg_incl; rewrite ids_len; assumption).
  assert (AG : agrees (length ids) (map (qpos ids) register) a x = true).
  { apply forallb_forall. intros p Hp. apply orb_true_iff. left. apply existsb_exists. exists p. split; [|apply Nat.eqb_refl]. apply (Permutation_in _ (Permutation_sym positions)). rewrite <- ids_len. exact Hp. }
  rewrite AG, L, hpow_rc. unfold hm. f_equal. apply prodl_perm, positions.
Qed.
Lemma h_on : Forall (on_qubits ids) (map Hadamard register).
Proof. apply Forall_forall. intros c Hc. apply in_map_iff in Hc. destruct Hc as (q & <- & Hq). apply reg_incl, Hq. Qed.
Lemma HW_inner psi phi : inner n (HW psi) (HW phi) = inner n psi phi.
Proof. unfold HW. rewrite <- ids_len. apply gacts_inner, h_on. Qed.
Lemma HW_form psi a : length a = n -> HW psi a = isum n (fun x => hm n a x * psi x).
Proof.
  intros La. transitivity (inner n (ket a) (HW psi)).
  - unfold inner. rewrite (isum_ext n _ (fun y => ket a y * HW psi y)); [rewrite isum_ket by exact La; reflexivity|]. intros y _. f_equal. unfold ket. destruct (list_eq_dec bool_dec y a); [apply sconj_1|apply sconj_0].
  - rewrite (inner_ext n (ket a) (HW psi) (HW (HW (ket a))) (HW psi)).
    + rewrite HW_inner. unfold inner. apply isum_ext. intros x Lx. rewrite HW_ket by assumption. rewrite hm_conj, hm_sym. reflexivity.
    + intros y Ly. symmetry. unfold HW. apply (h_block ids register ND reg_incl). rewrite ids_len. exact Ly.
    + intros y _. reflexivity.
Qed.
Lemma hm_orth a c : length a = n -> length c = n -> isum n (fun x => hm n a x * hm n c x) = ket c a.
Proof.
  intros La Lc. rewrite <- (inner_ket n a c La). rewrite <- HW_inner. unfold inner. apply isum_ext. intros x Lx. rewrite !HW_ket by assumption. rewrite hm_conj, (hm_sym n x a), (hm_sym n x c). reflexivity.
Qed.

(** the phases of one round with the draws d1 and d2 *)
Definition at_ (i : nat) : nat := qpos ids (reg register i).
Lemma at_range i : i < n -> at_ i < n.
Proof. intros Hi. unfold at_. destruct (pos_ok ids (reg register i)) as (_ & LQ & _); [apply reg_incl, nth_In; lia|]. rewrite ids_len in LQ. exact LQ. Qed.
Lemma at_onto p : p < n -> exists i, i < n /\ at_ i = p.
Proof.
  intros Hp. assert (In p (map (qpos ids) register)) as H by (apply (Permutation_in _ (Permutation_sym positions)), in_seq; lia). apply in_map_iff in H. destruct H as (q & E & Hq). apply (In_nth _ _ O) in Hq. destruct Hq as (i & Hi & Eq). exists i. split; [lia|]. unfold at_, reg. rewrite Eq. exact E.
Qed.
Definition phi3 (d : list nat) (x : list bool) : CC := prodl (combine (seq 0 n) d) (fun ik => if getb x (at_ (fst ik)) then phase3 (snd ik) else 1).
Definition phi2 (d : list nat) (x : list bool) : CC := prodl (combine (pairs n) d) (fun ik => if (getb x (at_ (fst (fst ik))) && getb x (at_ (snd (fst ik))))%bool then phase2 (snd ik) else 1).
Lemma choices_draws l m : forall d rest, length d = m -> choices l m (d ++ rest) = (map (fun k => nth (k mod length l) l 0%R) d, rest).
Proof.
  induction m as [|m IH]; intros [|k d] rest Ld; try discriminate; [reflexivity|]. cbn [choices app]. unfold choice. cbn [hd tl]. rewrite IH by (injection Ld; auto). reflexivity.
Qed.
Lemma round_draws d1 d2 rest : length d1 = n -> length d2 = length (pairs n) ->
  round_phases n (d1 ++ d2 ++ rest) = (map (fun k => nth (k mod 3) phases3 0%R) d1, map (fun k => nth (k mod 2) phases2 0%R) d2, rest).
Proof. intros L1 L2. unfold round_phases. rewrite choices_draws by exact L1. rewrite choices_draws by exact L2. reflexivity. Qed.
Definition rnd (d1 d2 : list nat) (psi : @state CC) : @state CC := gacts ids (forward register n (map (fun k => nth (k mod 3) phases3 0%R) d1) (map (fun k => nth (k mod 2) phases2 0%R) d2)) psi.
Lemma rnd_form d1 d2 psi a : length a = n -> rnd d1 d2 psi a = isum n (fun x => hm n a x * (phi3 d1 x * phi2 d2 x * psi x)).
Proof.
  intros La. unfold rnd, forward. rewrite !gacts_app. fold (HW (gacts ids (pair_cmds register (pairs n) (map (fun k => nth (k mod 2) phases2 0%R) d2)) (gacts ids (single_cmds register (seq 0 n) (map (fun k => nth (k mod 3) phases3 0%R) d1)) psi))).
  rewrite HW_form by exact La. apply isum_ext. intros x Lx. f_equal. unfold pair_cmds, single_cmds. rewrite !combine_map_r, !map_map. cbn [fst snd].
  rewrite (gacts_phases ids (combine (pairs n) d2) (fun e => [reg register (fst (fst e))]) (fun e => nth (snd e mod 2) phases2 0%R) (fun e => reg register (snd (fst e)))).
  rewrite (gacts_phases ids (combine (seq 0 n) d1) (fun e => []) (fun e => nth (snd e mod 3) phases3 0%R) (fun e => reg register (fst e))).
  cbn [map forallb]. unfold phi3, phi2, at_, phase2, phase3. rewrite (prodl_ext (combine (pairs n) d2) _ (fun e => if (getb x (qpos ids (reg register (fst (fst e)))) && getb x (qpos ids (reg register (snd (fst e)))))%bool then cexp (nth (snd e mod 2) phases2 0%R) else 1)); [cbn [andb]; ring|]. intros e _. rewrite andb_true_r. reflexivity.
Qed.
(** averaged over the phases *)
Lemma phases_mean x x' y y' : length x = n -> length x' = n -> length y = n -> length y' = n ->
  cmean (repeat 3 n) (fun d1 => cmean (repeat 2 (length (pairs n))) (fun d2 => (phi3 d1 x * phi2 d2 x) * (phi3 d1 x' * phi2 d2 x') * (phi3 d1 y * phi2 d2 y)^* * (phi3 d1 y' * phi2 d2 y')^*)) =
  ket x y * ket x' y' + ket x y' * ket x' y + - (ket x y * ket x' y' * ket x x').
Proof.
  intros Lx Lx' Ly Ly'. rewrite <- same_pair_sum. rewrite <- (pair_conditions n at_ at_onto) by assumption.
  transitivity (cmean (repeat 3 n) (fun d1 => (phi3 d1 x * phi3 d1 x' * (phi3 d1 y)^* * (phi3 d1 y')^*) * cmean (repeat 2 (length (pairs n))) (fun d2 => phi2 d2 x * phi2 d2 x' * (phi2 d2 y)^* * (phi2 d2 y')^*))).
  { apply cmean_ext. intros d1 _. rewrite <- cmean_mul. apply cmean_ext. intros d2 _. rewrite !sconj_mul. ring. }
  rewrite (cmean_ext _ _ (fun d1 => cmean (repeat 2 (length (pairs n))) (fun d2 => phi2 d2 x * phi2 d2 x' * (phi2 d2 y)^* * (phi2 d2 y')^*) * (phi3 d1 x * phi3 d1 x' * (phi3 d1 y)^* * (phi3 d1 y')^*))) by (intros; ring). rewrite cmean_mul.
  assert (M3 : cmean (repeat 3 n) (fun d1 => phi3 d1 x * phi3 d1 x' * (phi3 d1 y)^* * (phi3 d1 y')^*) = if single_ok n at_ x x' y y' then 1 else 0).
  { replace (repeat 3 n) with (repeat 3 (length (seq 0 n))) by (rewrite seq_length; reflexivity).
    rewrite (cmean_ext _ _ (fun d => prodl (combine (seq 0 n) d) (fun ik => (fun i k => (if getb x (at_ i) then phase3 k else 1) * (if getb x' (at_ i) then phase3 k else 1) * (if getb y (at_ i) then phase3 k else 1)^* * (if getb y' (at_ i) then phase3 k else 1)^*) (fst ik) (snd ik)))).
    - etransitivity; [exact (mean_prod 3 (fun i k => (if getb x (at_ i) then phase3 k else 1) * (if getb x' (at_ i) then phase3 k else 1) * (if getb y (at_ i) then phase3 k else 1)^* * (if getb y' (at_ i) then phase3 k else 1)^*) (seq 0 n))|]. unfold single_ok. rewrite <- prodl_01. apply prodl_ext. intros i _. apply singles_mean.
    - intros d _. unfold phi3. rewrite !prodl_conj, !prodl_mul. reflexivity. }
  assert (M2 : cmean (repeat 2 (length (pairs n))) (fun d2 => phi2 d2 x * phi2 d2 x' * (phi2 d2 y)^* * (phi2 d2 y')^*) = if pair_ok n at_ x x' y y' then 1 else 0).
  { rewrite (cmean_ext _ _ (fun d => prodl (combine (pairs n) d) (fun ik => (fun ij k => (if (getb x (at_ (fst ij)) && getb x (at_ (snd ij)))%bool then phase2 k else 1) * (if (getb x' (at_ (fst ij)) && getb x' (at_ (snd ij)))%bool then phase2 k else 1) * (if (getb y (at_ (fst ij)) && getb y (at_ (snd ij)))%bool then phase2 k else 1)^* * (if (getb y' (at_ (fst ij)) && getb y' (at_ (snd ij)))%bool then phase2 k else 1)^*) (fst ik) (snd ik)))).
    - etransitivity; [exact (mean_prod 2 (fun ij k => (if (getb x (at_ (fst ij)) && getb x (at_ (snd ij)))%bool then phase2 k else 1) * (if (getb x' (at_ (fst ij)) && getb x' (at_ (snd ij)))%bool then phase2 k else 1) * (if (getb y (at_ (fst ij)) && getb y (at_ (snd ij)))%bool then phase2 k else 1)^* * (if (getb y' (at_ (fst ij)) && getb y' (at_ (snd ij)))%bool then phase2 k else 1)^*) (pairs n))|]. unfold pair_ok. rewrite <- prodl_01. apply prodl_ext. intros [i j] _. apply doubles_mean.
    - intros d _. unfold phi2. rewrite !prodl_conj, !prodl_mul. reflexivity. }
  rewrite M2, M3. destruct (single_ok n at_ x x' y y'), (pair_ok n at_ x x' y y'); cbn [andb]; ring.
Qed.
End Twirl.
