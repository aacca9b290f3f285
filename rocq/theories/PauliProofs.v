(** Pauli matrices: C03, C05. *)
From Verif Require Import Py ZMat CodesModel CodesSpec BoolLin Rank CodesProofs CodesProofs2 Scalar PauliModel.
Open Scope nat_scope.

Section Pauli.
Context {K : StarRing}.
Add Ring Kring : (s_rt K).
Open Scope K_scope.

(** entry of the one-qubit matrix X^x Z^z *)
Definition q (x z : bool) : array K := fun i j =>
  match i, j with
  | 0%nat, 0%nat => if x then 0 else 1
  | 0%nat, 1%nat => if x then sgn z else 0
  | 1%nat, 0%nat => if x then 1 else 0
  | 1%nat, 1%nat => if x then 0 else sgn z
  | _, _ => 0
  end.

Fixpoint pm (n : nat) (x z : nat -> bool) : array K :=
  match n with
  | O => fun _ _ => 1
  | S m => fun i j => pm m x z (i / 2)%nat (j / 2)%nat * q (x m) (z m) (i mod 2)%nat (j mod 2)%nat
  end.

Lemma index_to_qubit_spec x z : (x = 0 \/ x = 1)%Z -> (z = 0 \/ z = 1)%Z ->
  exists f, index_to_qubit_pauli (K := K) x z = Ok (MA 2 2 f) /\ forall i j, (i < 2)%nat -> (j < 2)%nat -> f i j = q (Z.odd x) (Z.odd z) i j.
Proof.
  intros [-> | ->] [-> | ->]; eexists; (split; [reflexivity|]);
    intros [|[|i]] [|[|j]] Hi Hj; try lia; cbn; reflexivity.
Qed.

Lemma kron_pm m x z A (B : array K) : eqm (2 ^ m) (2 ^ m) A (pm m x z) -> 
  (forall i j, (i < 2)%nat -> (j < 2)%nat -> B i j = q (x m) (z m) i j) ->
  eqm (2 ^ S m) (2 ^ S m) (me (np_kron (MA (2 ^ m) (2 ^ m) A) (MA 2 2 B))) (pm (S m) x z).
Proof.
  intros HA HB i j Hi Hj. simpl mr; simpl mc. cbn [np_kron me pm mr mc].
  rewrite HA, HB; [reflexivity| | | | ]; try (apply Nat.mod_upper_bound; lia);
    apply Nat.div_lt_upper_bound; rewrite ?Nat.pow_succ_r' in *; lia.
Qed.

Lemma pauli_fold n row (f : nat -> bool) (g : nat -> bool) : (1 <= n)%nat -> binary row ->
  (forall j, (j < n)%nat -> Z.odd (nth j row 0%Z) = f j) -> (forall j, (j < n)%nat -> Z.odd (nth (j + n) row 0%Z) = g j) ->
  forall m A, (m + 1 <= n)%nat -> eqm (2 ^ 1) (2 ^ 1) A (pm 1 f g) ->
  exists B, foldM (fun acc j => do q <- index_to_qubit_pauli (K := K) (nth j row 0%Z) (nth (j + n) row 0%Z); Ok (np_kron acc q))
        (seq 1 m) (MA (2 ^ 1) (2 ^ 1) A) = Ok (MA (2 ^ (m + 1)) (2 ^ (m + 1)) B) /\ eqm (2 ^ (m + 1)) (2 ^ (m + 1)) B (pm (m + 1) f g).
Proof.
  intros Hn Bi Hf Hg. induction m as [|m IH]; intros A Hm HA.
  - exists A. split; [reflexivity|exact HA].
  - destruct (IH A ltac:(lia) HA) as (B & E & HB).
    rewrite seq_S, foldM_app. rewrite E. cbn [bind foldM].
    destruct (index_to_qubit_spec (nth (1 + m) row 0%Z) (nth (1 + m + n) row 0%Z)) as (q0 & E0 & H0);
      [apply binary_nth; exact Bi|apply binary_nth; exact Bi|].
    rewrite E0. cbn [bind].
    replace (S m + 1)%nat with (S (m + 1)) by lia. unfold np_kron. cbn [mr mc me].
    rewrite (Nat.mul_comm (2 ^ (m + 1)) 2), <- Nat.pow_succ_r'.
    eexists; split; [reflexivity|].
    apply (kron_pm (m + 1) f g B q0 HB). intros i j Hi Hj. rewrite H0 by assumption. 
    replace (m + 1)%nat with (1 + m)%nat by lia. rewrite Hf, Hg by lia. reflexivity.
Qed.

Definition xp (row : list Z) (j : nat) : bool := brow row j.
Definition zp (n : nat) (row : list Z) (j : nat) : bool := brow row (n + j).

Theorem pauli_row_mat_spec n row : (1 <= n)%nat -> length row = (2 * n)%nat -> binary row ->
  exists A, pauli_row_mat n row = Ok (MA (2 ^ n) (2 ^ n) A) /\ eqm (2 ^ n) (2 ^ n) A (pm n (xp row) (zp n row)).
Proof.
  intros Hn L B. unfold pauli_row_mat.
  rewrite (nth_error_nth' row 0%Z) by lia. rewrite (nth_error_nth' row 0%Z) by lia. cbn [bind].
  destruct (index_to_qubit_spec (nth 0 row 0%Z) (nth n row 0%Z)) as (q0 & E0 & H0);
      [apply binary_nth; exact B|apply binary_nth; exact B|].
  rewrite E0. cbn [bind].
  destruct (pauli_fold n row (xp row) (zp n row) Hn B (fun j _ => eq_refl)
              (fun j _ => f_equal Z.odd (f_equal (fun t => nth t row 0%Z) (Nat.add_comm j n))) (n - 1) q0 ltac:(lia)) as (A & E & HA).
  - intros i j Hi Hj. simpl in Hi, Hj. rewrite H0 by lia. cbn [pm]. rewrite !Nat.mod_small by lia. unfold xp, zp, brow. rewrite Nat.add_0_r. ring.
  - replace (n - 1 + 1)%nat with n in * by lia. exists A. split; [exact E|exact HA].
Qed.

(** ** algebra *)
Lemma q_mul x z x' z' i j : (i < 2)%nat -> (j < 2)%nat ->
  mm 2 (q x z) (q x' z') i j = sgn (z && x') * q (xorb x x') (xorb z z') i j.
Proof.
  intros Hi Hj. unfold mm. rewrite bsum_two. destruct i as [|[|i]], j as [|[|j]]; try lia; cbn [q];
    destruct x, z, x', z'; cbn [xorb andb sgn]; ring.
Qed.

Lemma div2_lt i n : (i < 2 ^ S n -> i / 2 < 2 ^ n)%nat.
Proof. intros H. apply Nat.div_lt_upper_bound; rewrite ?Nat.pow_succ_r' in *; lia. Qed.
Lemma mod2_lt i : (i mod 2 < 2)%nat. Proof. apply Nat.mod_upper_bound; lia. Qed.
Lemma divmod2 l t : (t < 2 -> (l * 2 + t) / 2 = l /\ (l * 2 + t) mod 2 = t)%nat.
Proof. intros H. split; [symmetry; apply (Nat.div_unique _ 2 l t); lia|symmetry; apply (Nat.mod_unique _ 2 l t); lia]. Qed.

Lemma pm_ext n x z x' z' : (forall j, (j < n)%nat -> x j = x' j /\ z j = z' j) -> forall i j, pm n x z i j = pm n x' z' i j.
Proof.
  induction n as [|n IH]; intros H i j; [reflexivity|]. cbn [pm]. rewrite IH by (intros; apply H; lia).
  destruct (H n ltac:(lia)) as [-> ->]. reflexivity.
Qed.

Lemma pm_mul n x z x' z' : forall i j, (i < 2 ^ n)%nat -> (j < 2 ^ n)%nat ->
  mm (2 ^ n) (pm n x z) (pm n x' z') i j =
  sgn (xsum n (fun l => z l && x' l)) * pm n (fun l => xorb (x l) (x' l)) (fun l => xorb (z l) (z' l)) i j.
Proof.
  induction n as [|n IH]; intros i j Hi Hj; [cbn; ring|].
  unfold mm. replace (2 ^ S n)%nat with (2 ^ n * 2)%nat by (rewrite Nat.pow_succ_r'; lia).
  rewrite bsum_blocks.
  rewrite (bsum_ext _ _ (fun l => pm n x z (i / 2)%nat l * pm n x' z' l (j / 2)%nat * mm 2 (q (x n) (z n)) (q (x' n) (z' n)) (i mod 2)%nat (j mod 2)%nat)).
  - rewrite bsum_mul_r. fold (mm (2 ^ n) (pm n x z) (pm n x' z') (i / 2)%nat (j / 2)%nat).
    rewrite IH by (apply div2_lt; assumption). rewrite q_mul by apply mod2_lt. cbn [xsum pm]. rewrite sgn_xorb. ring.
  - intros l Hl. unfold mm. rewrite <- bsum_mul_l. apply bsum_ext; intros t Ht. cbn [pm].
    destruct (divmod2 l t Ht) as [-> ->]. ring.
Qed.

Lemma q_adj x z i j : (i < 2)%nat -> (j < 2)%nat -> (q x z j i)^* = sgn (x && z) * q x z i j.
Proof.
  intros Hi Hj. destruct i as [|[|i]], j as [|[|j]]; try lia; cbn [q]; destruct x, z; cbn [andb sgn];
    rewrite ?sconj_opp, ?sconj_1, ?sconj_0; ring.
Qed.
Lemma pm_adj n x z : forall i j, adj (pm n x z) i j = sgn (xsum n (fun l => x l && z l)) * pm n x z i j.
Proof.
  induction n as [|n IH]; intros i j; unfold adj; cbn [pm xsum]; [cbn; rewrite sconj_1; ring|].
  rewrite sconj_mul. fold (adj (pm n x z) (i / 2)%nat (j / 2)%nat). rewrite IH, q_adj by apply mod2_lt. rewrite sgn_xorb. ring.
Qed.

Lemma pm_id n : forall i j, (i < 2 ^ n)%nat -> (j < 2 ^ n)%nat -> pm n (fun _ => false) (fun _ => false) i j = eye i j.
Proof.
  induction n as [|n IH]; intros i j Hi Hj.
  - simpl in Hi, Hj. replace i with 0%nat by lia. replace j with 0%nat by lia. reflexivity.
  - cbn [pm]. rewrite IH by (apply div2_lt; assumption). unfold eye.
    pose proof (Nat.div_mod i 2 ltac:(lia)) as Ei. pose proof (Nat.div_mod j 2 ltac:(lia)) as Ej.
    pose proof (mod2_lt i) as Mi. pose proof (mod2_lt j) as Mj.
    destruct (Nat.eqb_spec i j) as [->|N].
    + rewrite Nat.eqb_refl. destruct (j mod 2)%nat as [|[|]] eqn:E; [cbn; ring|cbn; ring|lia].
    + destruct (Nat.eqb_spec (i / 2) (j / 2)) as [E|E].
      * destruct (i mod 2)%nat as [|[|]] eqn:E1, (j mod 2)%nat as [|[|]] eqn:E2; cbn; try ring; exfalso; lia.
      * ring.
Qed.

Lemma pm_tr n x z : tr (2 ^ n) (pm n x z) = if (existsb (fun l => x l || z l) (seq 0 n))%bool then 0 else bsum (2 ^ n) (fun _ => 1).
Proof.
  induction n as [|n IH]; [cbn; ring|]. unfold tr.
  replace (2 ^ S n)%nat with (2 ^ n * 2)%nat by (rewrite Nat.pow_succ_r'; lia). rewrite bsum_blocks.
  rewrite (bsum_ext _ _ (fun l => pm n x z l l * tr 2 (q (x n) (z n)))).
  - rewrite bsum_mul_r. fold (tr (2 ^ n) (pm n x z)). rewrite IH, seq_S, existsb_app. cbn [existsb]. rewrite orb_false_r.
    rewrite bsum_blocks. cbn [Nat.add]. unfold tr. rewrite bsum_two. cbn [q].
    destruct (existsb _ _), (x n), (z n); cbn [orb sgn]; try ring.
    rewrite <- bsum_mul_r. apply bsum_ext; intros l _. rewrite bsum_two. ring.
  - intros l Hl. unfold tr. rewrite <- bsum_mul_l. apply bsum_ext; intros t Ht. cbn [pm].
    destruct (divmod2 l t Ht) as [-> ->]. ring.
Qed.

(** every row of pm is a single sign: some entry is non-zero *)
Lemma pm_witness n x z : exists i, (i < 2 ^ n)%nat /\ exists s, pm n x z i 0%nat = sgn s.
Proof.
  induction n as [|n (i & Hi & s & E)]; [exists 0%nat; split; [simpl; lia|exists false; reflexivity]|].
  exists (i * 2 + Nat.b2n (x n))%nat. split; [rewrite Nat.pow_succ_r'; destruct (x n); simpl; lia|].
  exists s. cbn [pm]. destruct (divmod2 i (Nat.b2n (x n)) ltac:(destruct (x n); simpl; lia)) as [-> ->].
  change (0 / 2)%nat with 0%nat. change (0 mod 2)%nat with 0%nat. rewrite E.
  destruct (x n); cbn; ring.
Qed.

(** entries in terms of the bits of the indices; qubit l is bit n-1-l *)
Lemma pm_entry n x z : forall i j,
  pm n x z i j = if forallb (fun l => Bool.eqb (Nat.testbit i (n - 1 - l)) (xorb (Nat.testbit j (n - 1 - l)) (x l))) (seq 0 n)
                 then sgn (xsum n (fun l => z l && Nat.testbit j (n - 1 - l))) else 0.
Proof.
  induction n as [|n IH]; intros i j; [reflexivity|]. cbn [pm xsum]. rewrite seq_S, forallb_app. cbn [forallb Nat.add].
  rewrite IH. replace (S n - 1 - n)%nat with 0%nat by lia.
  assert (T : forall a l, (l < n)%nat -> Nat.testbit (a / 2) (n - 1 - l) = Nat.testbit a (S n - 1 - l)).
  { intros a l Hl. replace (S n - 1 - l)%nat with (S (n - 1 - l)) by lia. rewrite <- Nat.div2_div. reflexivity. }
  assert (E : forall a, Nat.testbit a 0 = Nat.eqb (a mod 2) 1).
  { intros a. pose proof (Nat.bit0_mod a) as B. rewrite <- B. destruct (Nat.testbit a 0); reflexivity. }
  rewrite (xsum_ext n _ (fun l => z l && Nat.testbit j (S n - 1 - l))) by (intros l Hl; rewrite T by exact Hl; reflexivity).
  assert (F : forallb (fun l => Bool.eqb (Nat.testbit (i / 2) (n - 1 - l)) (xorb (Nat.testbit (j / 2) (n - 1 - l)) (x l))) (seq 0 n) =
              forallb (fun l => Bool.eqb (Nat.testbit i (S n - 1 - l)) (xorb (Nat.testbit j (S n - 1 - l)) (x l))) (seq 0 n)).
  { apply eq_true_iff_eq. rewrite !forallb_forall. split; intros H l Hl; specialize (H l Hl); apply in_seq in Hl;
      [rewrite !T in H by lia; exact H|rewrite !T by lia; exact H]. }
  rewrite F, !E. pose proof (mod2_lt i). pose proof (mod2_lt j).
  clear F. match goal with |- (if ?b then _ else _) * _ = _ => destruct b end; cbn [andb]; [|ring]. rewrite andb_true_r.
  destruct (i mod 2)%nat as [|[|]], (j mod 2)%nat as [|[|]]; try lia; destruct (x n), (z n), (xsum n _); cbn; ring.
Qed.
End Pauli.
