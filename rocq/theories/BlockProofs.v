(** Pauli operators on states whose qubits were each encoded once more (C156). *)
From Verif Require Import Py ZMat CodesModel BoolLin Scalar CircuitModel CircuitSpec CircuitProofs BlockSpec.
From Coq Require Import Bool Lia.
Open Scope nat_scope.

Lemma getb_firstn m y j : j < m -> getb (firstn m y) j = getb y j.
Proof. intros H. unfold getb. revert y j H. induction m as [|m IH]; intros y j H; [lia|]. destruct y as [|b y]; [rewrite firstn_nil; reflexivity|]. destruct j; [reflexivity|]. cbn. apply IH. lia. Qed.
Lemma getb_skipn m y j : getb (skipn m y) j = getb y (m + j).
Proof. unfold getb. revert y. induction m as [|m IH]; intros y; [reflexivity|]. destruct y as [|b y]; [destruct j; reflexivity|]. cbn. apply IH. Qed.
Lemma xorv_firstn m q x y : length y = m + q -> firstn m (xorv (m + q) x y) = xorv m x (firstn m y).
Proof.
  intros L. apply bits_eq; [rewrite firstn_length, !xorv_length, firstn_length; reflexivity|]. rewrite firstn_length, xorv_length. intros j Hj.
  rewrite getb_firstn, getb_xorv, getb_xorv, getb_firstn by (rewrite ?firstn_length; lia). destruct (Nat.ltb_spec j m), (Nat.ltb_spec j (m + q)); try lia; reflexivity.
Qed.
Lemma xorv_skipn m q x y : length y = m + q -> skipn m (xorv (m + q) x y) = xorv q (fun j => x (m + j)) (skipn m y).
Proof.
  intros L. apply bits_eq; [rewrite skipn_length, !xorv_length, skipn_length; reflexivity|]. rewrite skipn_length, xorv_length. intros j Hj.
  rewrite getb_skipn, getb_xorv, getb_xorv, getb_skipn by (rewrite ?skipn_length; lia). destruct (Nat.ltb_spec j q), (Nat.ltb_spec (m + j) (m + q)); try lia; reflexivity.
Qed.
Lemma xorv_cons n x b y : length y = n -> xorv (S n) x (b :: y) = xorb b (x 0) :: xorv n (fun j => x (S j)) y.
Proof.
  intros L. apply bits_eq; [cbn [length]; rewrite !xorv_length; reflexivity|]. rewrite xorv_length. cbn [length]. intros j Hj. rewrite getb_xorv by (cbn; lia).
  destruct j as [|j]; [reflexivity|]. change (getb (xorb b (x 0) :: xorv n (fun j => x (S j)) y) (S j)) with (getb (xorv n (fun j => x (S j)) y) j). rewrite getb_xorv by lia. reflexivity.
Qed.
Lemma xsum_first n f : xsum (S n) f = xorb (f 0) (xsum n (fun j => f (S j))).
Proof. change (S n) with (1 + n). rewrite xsum_split. cbn [xsum]. rewrite xorb_false_l. reflexivity. Qed.

Section Block.
Context {K : StarRing}.
Add Ring Kringblock : (s_rt K).
Open Scope K_scope.
Variable m : nat.
Variable e : bool -> @state K.
(** an operator that acts on block j as the encoded X^(bx j) Z^(bz j) *)
Definition acts_as (n : nat) (x z bx bz : nat -> bool) : Prop :=
  forall j b, (j < n)%nat -> eqs m (pact m (fun p => x (j * m + p)%nat) (fun p => z (j * m + p)%nat) (e b)) (sscale (sgn (bz j && b)) (e (xorb b (bx j)))).
Lemma acts_product n : forall x z bx bz i y, acts_as n x z bx bz -> length i = n -> length y = (n * m)%nat ->
  pact (n * m) x z (product_state m e i) y = sgn (xsum n (fun j => bz j && getb i j)) * product_state m e (xorv n bx i) y.
Proof.
  induction n as [|n IH]; intros x z bx bz i y A Li Ly.
  - destruct i; [|discriminate]. unfold pact. cbn. ring.
  - destruct i as [|b i]; [discriminate|]. injection Li as Li. rewrite xorv_cons by exact Li. cbn [product_state]. cbn [Nat.mul] in *.
    assert (A' : acts_as n (fun j => x (m + j)%nat) (fun j => z (m + j)%nat) (fun j => bx (S j)) (fun j => bz (S j))).
    { intros j c Hj w Hw. rewrite <- (A (S j) c ltac:(lia) w Hw). apply pact_ext. intros p Hp. cbn [Nat.mul]. rewrite !Nat.add_assoc. split; reflexivity. }
    pose proof (IH _ _ _ _ i (skipn m y) A' Li ltac:(rewrite skipn_length; lia)) as P.
    pose proof (A 0%nat b ltac:(lia) (firstn m y) ltac:(rewrite firstn_length; lia)) as Q.
    unfold pact in *. unfold sscale in Q. rewrite xorv_firstn, xorv_skipn by exact Ly. rewrite xsum_split, sgn_xorb, (xsum_first n), sgn_xorb.
    rewrite (xsum_ext m (fun j => z j && xorb (getb y j) (x j)) (fun j => z (0 * m + j)%nat && xorb (getb (firstn m y) j) (x (0 * m + j)%nat))) by (intros j Hj; rewrite getb_firstn by exact Hj; reflexivity).
    rewrite (xsum_ext (n * m) (fun i0 => z (m + i0)%nat && xorb (getb y (m + i0)) (x (m + i0)%nat)) (fun j => z (m + j)%nat && xorb (getb (skipn m y) j) (x (m + j)%nat))) by (intros j Hj; rewrite getb_skipn; reflexivity).
    change (xorv m x (firstn m y)) with (xorv m (fun p => x (0 * m + p)%nat) (firstn m y)).
    cbv beta in P, Q |- *. cbn [getb nth] in *. change (nth 0 (b :: i) false) with b. 
    match goal with |- ?a * ?c * (?u * ?v) = _ => transitivity ((a * u) * (c * v)); [ring|] end. rewrite Q, P.
    change (xsum n (fun j => bz (S j) && nth j i false)) with (xsum n (fun j => bz (S j) && getb i j)). ring.
Qed.
Lemma isum_xorv n : forall bx (f : list bool -> K), isum n (fun i => f (xorv n bx i)) = isum n f.
Proof.
  induction n as [|n IH]; intros bx f; [reflexivity|]. cbn [isum].
  rewrite (isum_ext n (fun y => f (xorv (S n) bx (false :: y))) (fun y => f (xorb false (bx 0%nat) :: xorv n (fun j => bx (S j)) y))) by (intros y Hy; rewrite xorv_cons by exact Hy; reflexivity).
  rewrite (isum_ext n (fun y => f (xorv (S n) bx (true :: y))) (fun y => f (xorb true (bx 0%nat) :: xorv n (fun j => bx (S j)) y))) by (intros y Hy; rewrite xorv_cons by exact Hy; reflexivity).
  rewrite (IH (fun j => bx (S j)) (fun y => f (xorb false (bx 0%nat) :: y))), (IH (fun j => bx (S j)) (fun y => f (xorb true (bx 0%nat) :: y))).
  destruct (bx 0%nat); cbn [xorb]; ring.
Qed.
(** it acts on the encoded state as X^bx Z^bz on the state *)
Theorem acts_encoded n x z bx bz psi : acts_as n x z bx bz -> eqs (n * m) (pact (n * m) x z (encode_each n m e psi)) (encode_each n m e (pact n bx bz psi)).
Proof.
  intros A y Ly. unfold encode_each. unfold pact at 1. rewrite <- isum_mul. rewrite <- (isum_xorv n bx (fun i => pact n bx bz psi i * product_state m e i y)).
  apply isum_ext. intros i Li. pose proof (acts_product n x z bx bz i y A Li Ly) as P. unfold pact in P.
  match goal with |- ?a * (?b * ?c) = _ => transitivity (b * (a * c)); [ring|] end. rewrite P. unfold pact. rewrite xorv_xorv.
  rewrite (xorv_ext n (fun j => xorb (bx j) (bx j)) (fun _ => false)) by (intros; apply xorb_nilpotent). rewrite xorv_false.
  rewrite (xsum_ext n (fun j => bz j && xorb (getb (xorv n bx i) j) (bx j)) (fun j => bz j && getb i j)); [ring|].
  intros j Hj. rewrite getb_xorv_in by lia. rewrite xorb_assoc, xorb_nilpotent, xorb_false_r. reflexivity.
Qed.
(** ** inner products *)
Lemma isum_app a : forall b (f : list bool -> K), isum (a + b) f = isum a (fun u => isum b (fun v => f (u ++ v)%list)).
Proof. induction a as [|a IH]; intros b f; [reflexivity|]. cbn [Nat.add isum]. rewrite !IH. reflexivity. Qed.
Lemma isum_comm a : forall b (f : list bool -> list bool -> K), isum a (fun u => isum b (f u)) = isum b (fun v => isum a (fun u => f u v)).
Proof. induction a as [|a IH]; intros b f; [reflexivity|]. cbn [isum]. rewrite !IH, <- isum_add. reflexivity. Qed.
Lemma isum_star n : forall f : list bool -> K, (isum n f)^* = isum n (fun y => (f y)^*).
Proof. induction n as [|n IH]; intros f; [reflexivity|]. cbn [isum]. rewrite sconj_add, !IH. reflexivity. Qed.
Lemma isum_mulr n (a : K) f : isum n (fun y => f y * a) = isum n f * a.
Proof. rewrite (isum_ext n _ (fun y => a * f y)) by (intros; ring). rewrite isum_mul. ring. Qed.
Hypothesis OE : forall a b, inner m (e a) (e b) = if Bool.eqb a b then 1 else 0.
Lemma product_inner n : forall i i', length i = n -> length i' = n -> inner (n * m) (product_state m e i) (product_state m e i') = ket i i'.
Proof.
  induction n as [|n IH]; intros i i' Li Li'.
  - destruct i; [|discriminate]. destruct i'; [|discriminate]. unfold inner. cbn. rewrite sconj_1. unfold ket. destruct (list_eq_dec bool_dec [] []); [ring|congruence].
  - destruct i as [|a i]; [discriminate|]. destruct i' as [|b i']; [discriminate|]. injection Li as Li. injection Li' as Li'. unfold inner. cbn [Nat.mul]. rewrite isum_app.
    rewrite (isum_ext m _ (fun u => ((e a u)^* * e b u) * inner (n * m) (product_state m e i) (product_state m e i'))).
    + rewrite isum_mulr, (IH i i' Li Li'). fold (inner m (e a) (e b)). rewrite OE. unfold ket. destruct (Bool.eqb a b) eqn:E.
      * apply Bool.eqb_prop in E. subst b. destruct (list_eq_dec bool_dec i' i) as [Q0|N], (list_eq_dec bool_dec (a :: i') (a :: i)) as [Q|Q]; try ring; exfalso; congruence.
      * destruct (list_eq_dec bool_dec (b :: i') (a :: i)) as [Q|Q]; [|ring]. injection Q as -> _. rewrite Bool.eqb_reflx in E. discriminate.
    + intros u Hu. unfold inner. rewrite <- isum_mul. apply isum_ext. intros v Hv. cbn [product_state].
      rewrite !firstn_app, !skipn_app, Hu, Nat.sub_diag, !firstn_all2, !skipn_all2 by lia. cbn [firstn skipn]. rewrite app_nil_r, app_nil_l. rewrite sconj_mul. ring.
Qed.
Theorem encode_each_inner n psi phi : inner (n * m) (encode_each n m e psi) (encode_each n m e phi) = inner n psi phi.
Proof.
  unfold inner at 1. unfold encode_each.
  rewrite (isum_ext (n * m) _ (fun y => isum n (fun i => isum n (fun i' => ((psi i)^* * phi i') * ((product_state m e i y)^* * product_state m e i' y))))).
  - rewrite isum_comm. unfold inner. apply isum_ext. intros i Li. rewrite isum_comm.
    rewrite (isum_ext n _ (fun i' => ket i i' * ((psi i)^* * phi i'))).
    + apply (isum_ket n i (fun i' => (psi i)^* * phi i') Li).
    + intros i' Li'. rewrite isum_mul. fold (inner (n * m) (product_state m e i) (product_state m e i')). rewrite (product_inner n i i' Li Li'). ring.
  - intros y _. rewrite isum_star, <- isum_mulr. apply isum_ext. intros i _. rewrite <- isum_mul. apply isum_ext. intros i' _. rewrite sconj_mul. ring.
Qed.
End Block.
