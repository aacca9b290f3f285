(** C03, C05 at the level of the API. *)
From Verif Require Import Py ZMat CodesModel CodesSpec BoolLin Rank CodesProofs CodesProofs2 Scalar PauliModel PauliSpec PauliProofs.
Open Scope nat_scope.

Section P2.
Context {K : StarRing}.
Add Ring Kring2 : (s_rt K).
Open Scope K_scope.

Lemma pm1_sgn m : (pm1 m : K) = sgn (Z.odd m).
Proof. unfold pm1. rewrite <- Z.negb_odd. destruct (Z.odd m); reflexivity. Qed.

Lemma zx_dot_xsum n a b : Z.odd (zx_dot n a b) = xsum n (fun l => zp n a l && xp b l).
Proof.
  unfold zx_dot. rewrite fold_add_zsum, Logical.odd_zsum. apply xsum_ext; intros j Hj. rewrite Z.odd_mul. reflexivity.
Qed.


Lemma odd_count (f : nat -> bool) n : Nat.odd (length (filter f (seq 0 n))) = xsum n f.
Proof.
  induction n as [|n IH]; [reflexivity|]. rewrite seq_S, filter_app, app_length, Nat.odd_add, IH. cbn [xsum filter Nat.add].
  destruct (f n); reflexivity.
Qed.
Lemma odd_bit x : (x = 0 \/ x = 1)%Z -> Z.odd x = Z.eqb x 1.
Proof. intros [-> | ->]; reflexivity. Qed.
Lemma y_count_xsum n row : binary row -> Nat.odd (y_count n row) = xsum n (fun l => xp row l && zp n row l).
Proof.
  intros B. unfold y_count. rewrite odd_count. apply xsum_ext; intros l Hl. unfold xp, zp, brow.
  rewrite !odd_bit by (apply binary_nth; exact B). reflexivity.
Qed.

Lemma rowmats n rows : (1 <= n)%nat -> Forall (fun r => length r = (2 * n)%nat) rows -> Forall binary rows ->
  exists Ms, mapM (pauli_row_mat (K := K) n) rows = Ok Ms /\
    Forall2 (fun r M => mr M = (2 ^ n)%nat /\ mc M = (2 ^ n)%nat /\ eqm (2 ^ n) (2 ^ n) (me M) (pm n (xp r) (zp n r))) rows Ms.
Proof.
  intros Hn L B. induction rows as [|r rows IH]; [exists []; split; [reflexivity|constructor]|].
  apply Forall_cons_iff in L, B. destruct L as [Lr L], B as [Br B]. destruct (IH L B) as (Ms & E & F).
  destruct (pauli_row_mat_spec (K := K) n r Hn Lr Br) as (A & EA & HA).
  exists (MA (2 ^ n) (2 ^ n) A :: Ms). split; [cbn [mapM]; rewrite EA, E; reflexivity|]. constructor; [auto|exact F].
Qed.

Lemma pauli_mats n rows : (1 <= n)%nat -> Forall (fun r => length r = (2 * n)%nat) rows -> Forall binary rows ->
  exists Ms, binary_rep_to_pauli_mat (K := K) (ZM (length rows) (2 * n) rows) = Ok Ms /\
    Forall2 (fun r M => mr M = (2 ^ n)%nat /\ mc M = (2 ^ n)%nat /\ eqm (2 ^ n) (2 ^ n) (me M) (pm n (xp r) (zp n r))) rows Ms.
Proof. intros. unfold binary_rep_to_pauli_mat. cbn [zc zd]. rewrite div2_double. apply rowmats; assumption. Qed.

Lemma pow2_pos n : (0 < 2 ^ n)%nat. Proof. induction n; simpl; lia. Qed.

Lemma sgn_nonzero (s : bool) : (sgn s : K) <> - sgn s.
Proof. intros H. assert (E : (sgn s : K) * sgn s = - sgn s * sgn s) by congruence.
  rewrite sgn_sq in E. apply (@s1_neq K). rewrite E at 1. replace (- sgn s * sgn s : K) with (- (sgn s * sgn s) : K) by ring.
  rewrite sgn_sq. reflexivity. Qed.

Section Two.
Variables (n : nat) (a b : list Z) (A B : array K).
Hypothesis La : length a = (2 * n)%nat.
Hypothesis Lb : length b = (2 * n)%nat.
Hypothesis HA : eqm (2 ^ n) (2 ^ n) A (pm n (xp a) (zp n a)).
Hypothesis HB : eqm (2 ^ n) (2 ^ n) B (pm n (xp b) (zp n b)).
Let N := (2 ^ n)%nat.

Lemma prod_entry i j : (i < N)%nat -> (j < N)%nat ->
  mm N A B i j = sgn (xsum n (fun l => zp n a l && xp b l)) *
    pm n (fun l => xorb (xp a l) (xp b l)) (fun l => xorb (zp n a l) (zp n b l)) i j.
Proof.
  intros Hi Hj. rewrite (mm_eqm N N N A _ B _ HA HB i j Hi Hj). apply pm_mul; assumption.
Qed.
End Two.

Lemma commute_sign n a b (A B : array K) : 
  eqm (2 ^ n) (2 ^ n) A (pm n (xp a) (zp n a)) -> eqm (2 ^ n) (2 ^ n) B (pm n (xp b) (zp n b)) ->
  eqm (2 ^ n) (2 ^ n) (mm (2 ^ n) A B) (scale (sgn (ip n (brow a) (brow b)) : K) (mm (2 ^ n) B A)).
Proof.
  intros HA HB i j Hi Hj. unfold scale. rewrite (prod_entry n a b A B HA HB i j Hi Hj), (prod_entry n b a B A HB HA i j Hi Hj).
  rewrite (pm_ext n (fun l => xorb (xp b l) (xp a l)) (fun l => xorb (zp n b l) (zp n a l))
             (fun l => xorb (xp a l) (xp b l)) (fun l => xorb (zp n a l) (zp n b l)))
    by (intros; split; apply xorb_comm).
  unfold ip. rewrite xsum_xor, sgn_xorb.
  rewrite (xsum_ext n (fun j0 => brow a j0 && brow b (n + j0)) (fun l => zp n b l && xp a l)) by (intros; unfold zp, xp; apply andb_comm).
  unfold zp, xp. 
  replace (sgn (xsum n (fun l => brow a (n + l) && brow b l))) with
    (sgn (xsum n (fun l => brow a (n + l) && brow b l)) * (sgn (xsum n (fun l => brow b (n + l) && brow a l)) * sgn (xsum n (fun l => brow b (n + l) && brow a l))) : K) at 1
    by (rewrite sgn_sq; ring).
  ring.
Qed.

Lemma prod_nonzero n a b (A B : array K) : 
  eqm (2 ^ n) (2 ^ n) A (pm n (xp a) (zp n a)) -> eqm (2 ^ n) (2 ^ n) B (pm n (xp b) (zp n b)) ->
  exists i s, (i < 2 ^ n)%nat /\ mm (K := K) (2 ^ n) A B i 0%nat = sgn s.
Proof.
  intros HA HB. destruct (pm_witness (K := K) n (fun l => xorb (xp a l) (xp b l)) (fun l => xorb (zp n a l) (zp n b l))) as (i & Hi & s & E).
  exists i, (xorb (xsum n (fun l => zp n a l && xp b l)) s). split; [exact Hi|].
  rewrite (prod_entry n a b A B HA HB i 0%nat Hi (pow2_pos n)), E, sgn_xorb. reflexivity.
Qed.

Theorem commutation_decided n a b : (1 <= n)%nat -> length a = (2 * n)%nat -> length b = (2 * n)%nat -> binary a -> binary b ->
  exists A B : array K, binary_rep_to_pauli_mat (ZM 2 (2 * n) [a; b]) = Ok [MA (2 ^ n) (2 ^ n) A; MA (2 ^ n) (2 ^ n) B] /\
    (inner_prod a b = 0%Z \/ inner_prod a b = 1%Z) /\
    eqm (2 ^ n) (2 ^ n) (mm (2 ^ n) A B) (scale (pm1 (inner_prod a b) : K) (mm (2 ^ n) B A)) /\
    (inner_prod a b = 0%Z <-> eqm (2 ^ n) (2 ^ n) (mm (2 ^ n) A B) (mm (2 ^ n) B A)) /\
    (inner_prod a b = 1%Z <-> eqm (2 ^ n) (2 ^ n) (mm (2 ^ n) A B) (scale (- (1)) (mm (2 ^ n) B A))).
Proof.
  intros Hn La Lb Ba Bb.
  destruct (pauli_row_mat_spec (K := K) n a Hn La Ba) as (A & EA & HA).
  destruct (pauli_row_mat_spec (K := K) n b Hn Lb Bb) as (B & EB & HB).
  exists A, B. split. { unfold binary_rep_to_pauli_mat. cbn [zc zd mapM]. rewrite div2_double, EA, EB. reflexivity. }
  rewrite (inner_prod_ip n a b La Lb), pm1_sgn.
  pose proof (commute_sign n a b A B HA HB) as C.
  destruct (prod_nonzero n b a B A HB HA) as (i & s & Hi & E).
  pose proof (C i 0%nat Hi (pow2_pos n)) as C0. unfold scale in C0. rewrite E in C0.
  destruct (ip n (brow a) (brow b)); cbn [Z.b2z Z.odd sgn] in *.
  - split; [right; reflexivity|]. split; [exact C|]. split; split; intros H; try discriminate; try reflexivity.
    + exfalso. specialize (H i 0%nat Hi (pow2_pos n)). rewrite C0, E in H. apply (sgn_nonzero s). rewrite <- H at 1. ring.
    + exact C.
  - split; [left; reflexivity|]. split; [exact C|]. split; split; intros H; try discriminate; try reflexivity.
    + intros i' j' Hi' Hj'. rewrite (C i' j' Hi' Hj'). unfold scale. ring.
    + exfalso. specialize (H i 0%nat Hi (pow2_pos n)). unfold scale in H. rewrite C0, E in H. apply (sgn_nonzero s).
      transitivity (1 * sgn s : K); [ring|]. rewrite H. ring.
Qed.

Lemma xp_add n a b l : length a = (2 * n)%nat -> length b = (2 * n)%nat -> (l < n)%nat -> xp (row_add a b) l = xorb (xp a l) (xp b l).
Proof. intros La Lb Hl. unfold xp. apply (brow_row_add a b (2 * n)); assumption || lia. Qed.
Lemma zp_add n a b l : length a = (2 * n)%nat -> length b = (2 * n)%nat -> (l < n)%nat -> zp n (row_add a b) l = xorb (zp n a l) (zp n b l).
Proof. intros La Lb Hl. unfold zp. apply (brow_row_add a b (2 * n)); assumption || lia. Qed.
Lemma binary_row_add a b : binary (row_add a b).
Proof.
  unfold row_add, binary. apply Forall_forall. intros x Hx. apply in_map_iff in Hx. destruct Hx as (xy & <- & _).
  pose proof (Z.mod_pos_bound (fst xy + snd xy) 2 ltac:(lia)). lia.
Qed.

Lemma pm_unitary n x z : unitary (2 ^ n) (pm (K := K) n x z).
Proof.
  assert (S : eqm (2 ^ n) (2 ^ n) (mm (2 ^ n) (pm n x z) (pm n x z)) (scale (sgn (xsum n (fun l => x l && z l)) : K) eye)).
  { intros i j Hi Hj. rewrite pm_mul by assumption. unfold scale.
    rewrite (pm_ext n _ _ (fun _ => false) (fun _ => false)) by (intros; split; apply xorb_nilpotent).
    rewrite pm_id by assumption. rewrite (xsum_ext n _ (fun l => x l && z l)) by (intros; apply andb_comm). reflexivity. }
  assert (AD : eqm (2 ^ n) (2 ^ n) (adj (pm n x z)) (scale (sgn (xsum n (fun l => x l && z l)) : K) (pm n x z))).
  { intros i j _ _. apply pm_adj. }
  split; intros i j Hi Hj.
  - transitivity (sgn (xsum n (fun l => x l && z l)) * mm (2 ^ n) (pm n x z) (pm n x z) i j : K).
    + unfold mm. rewrite <- bsum_mul_l. apply bsum_ext; intros l Hl. rewrite AD by assumption. unfold scale. ring.
    + rewrite S by assumption. unfold scale. transitivity ((sgn (xsum n (fun l => x l && z l)) * sgn (xsum n (fun l => x l && z l))) * eye i j : K); [ring|].
      rewrite sgn_sq. ring.
  - transitivity (sgn (xsum n (fun l => x l && z l)) * mm (2 ^ n) (pm n x z) (pm n x z) i j : K).
    + unfold mm. rewrite <- bsum_mul_l. apply bsum_ext; intros l Hl. rewrite AD by assumption. unfold scale. ring.
    + rewrite S by assumption. unfold scale. transitivity ((sgn (xsum n (fun l => x l && z l)) * sgn (xsum n (fun l => x l && z l))) * eye i j : K); [ring|].
      rewrite sgn_sq. ring.
Qed.

Lemma unitary_ext d A B : eqm d d A B -> unitary d B -> unitary d (K := K) A.
Proof.
  intros H [U1 U2]. split.
  - eapply eqm_trans; [|exact U1]. apply mm_eqm; [apply adj_eqm; exact H|exact H].
  - eapply eqm_trans; [|exact U2]. apply mm_eqm; [exact H|apply adj_eqm; exact H].
Qed.

Theorem pauli_product n a b : (1 <= n)%nat -> length a = (2 * n)%nat -> length b = (2 * n)%nat -> binary a -> binary b ->
  exists A B C : array K, binary_rep_to_pauli_mat (ZM 3 (2 * n) [a; b; map (fun xy => (fst xy + snd xy) mod 2)%Z (combine a b)]) =
      Ok [MA (2 ^ n) (2 ^ n) A; MA (2 ^ n) (2 ^ n) B; MA (2 ^ n) (2 ^ n) C] /\
    eqm (2 ^ n) (2 ^ n) (mm (2 ^ n) A B) (scale (pm1 (zx_dot n a b) : K) C).
Proof.
  intros Hn La Lb Ba Bb.
  destruct (pauli_row_mat_spec (K := K) n a Hn La Ba) as (A & EA & HA).
  destruct (pauli_row_mat_spec (K := K) n b Hn Lb Bb) as (B & EB & HB).
  destruct (pauli_row_mat_spec (K := K) n (row_add a b) Hn) as (C & EC & HC);
    [rewrite length_row_add; lia|apply binary_row_add|].
  exists A, B, C. split. { unfold binary_rep_to_pauli_mat. cbn [zc zd mapM]. rewrite div2_double, EA, EB. unfold row_add in EC. rewrite EC. reflexivity. }
  intros i j Hi Hj. rewrite (prod_entry n a b A B HA HB i j Hi Hj). unfold scale. rewrite HC by assumption.
  rewrite pm1_sgn, zx_dot_xsum. f_equal. apply pm_ext. intros l Hl. rewrite (xp_add n), (zp_add n) by assumption. auto.
Qed.

Theorem pauli_square n a : (1 <= n)%nat -> length a = (2 * n)%nat -> binary a ->
  exists A : array K, binary_rep_to_pauli_mat (ZM 1 (2 * n) [a]) = Ok [MA (2 ^ n) (2 ^ n) A] /\
    unitary (2 ^ n) A /\
    eqm (2 ^ n) (2 ^ n) (mm (2 ^ n) A A) (scale (if Nat.even (y_count n a) then 1 else - (1) : K) eye) /\
    (hermitian (2 ^ n) A <-> Nat.even (y_count n a) = true).
Proof.
  intros Hn La Ba. destruct (pauli_row_mat_spec (K := K) n a Hn La Ba) as (A & EA & HA).
  exists A. split. { unfold binary_rep_to_pauli_mat. cbn [zc zd mapM]. rewrite div2_double, EA. reflexivity. }
  split; [eapply unitary_ext; [exact HA|apply pm_unitary]|].
  assert (Y : (if Nat.even (y_count n a) then 1 else - (1) : K) = sgn (xsum n (fun l => xp a l && zp n a l))).
  { rewrite <- y_count_xsum by exact Ba. rewrite <- Nat.negb_odd. destruct (Nat.odd _); reflexivity. }
  split.
  - intros i j Hi Hj. rewrite (prod_entry n a a A A HA HA i j Hi Hj). unfold scale. rewrite Y.
    rewrite (pm_ext n _ _ (fun _ => false) (fun _ => false)) by (intros; split; apply xorb_nilpotent).
    rewrite pm_id by assumption. rewrite (xsum_ext n _ (fun l => xp a l && zp n a l)) by (intros; apply andb_comm). reflexivity.
  - assert (AD : eqm (2 ^ n) (2 ^ n) (adj A) (scale (sgn (xsum n (fun l => xp a l && zp n a l)) : K) A)).
    { intros i j Hi Hj. rewrite (adj_eqm _ _ _ _ HA i j Hi Hj), pm_adj. unfold scale. rewrite HA by assumption. reflexivity. }
    rewrite <- Nat.negb_odd, y_count_xsum by exact Ba. split.
    + intros H. destruct (pm_witness (K := K) n (xp a) (zp n a)) as (i & Hi & s & E).
      specialize (H i 0%nat Hi (pow2_pos n)). rewrite (AD i 0%nat Hi (pow2_pos n)) in H. unfold scale in H.
      rewrite HA, E in H by (assumption || apply pow2_pos).
      destruct (xsum n _); [|reflexivity]. exfalso. apply (sgn_nonzero s). rewrite <- H at 1. cbn [sgn]. ring.
    + intros H. apply negb_true_iff in H. rewrite H in AD. intros i j Hi Hj. rewrite AD by assumption. unfold scale; cbn [sgn]. ring.
Qed.

(** matrix entries in terms of the bits of the indices, qubit 0 most significant *)
Theorem pauli_entries n a : (1 <= n)%nat -> length a = (2 * n)%nat -> binary a ->
  exists A : array K, binary_rep_to_pauli_mat (ZM 1 (2 * n) [a]) = Ok [MA (2 ^ n) (2 ^ n) A] /\
    forall r c, (r < 2 ^ n)%nat -> (c < 2 ^ n)%nat ->
      let bit i l := if Nat.testbit i (n - 1 - l) then 1%Z else 0%Z in
      A r c = if forallb (fun l => Z.eqb (bit r l) ((bit c l + nth l a 0%Z) mod 2)) (seq 0 n)
              then pm1 (fold_right Z.add 0 (map (fun l => nth (n + l) a 0 * bit c l) (seq 0 n)))%Z else (0 : K).
Proof.
  intros Hn La Ba. destruct (pauli_row_mat_spec (K := K) n a Hn La Ba) as (A & EA & HA).
  exists A. split. { unfold binary_rep_to_pauli_mat. cbn [zc zd mapM]. rewrite div2_double, EA. reflexivity. }
  intros r c Hr Hc bit. rewrite HA, pm_entry by assumption.
  assert (F : forallb (fun l => Bool.eqb (Nat.testbit r (n - 1 - l)) (xorb (Nat.testbit c (n - 1 - l)) (xp a l))) (seq 0 n) =
              forallb (fun l => Z.eqb (bit r l) ((bit c l + nth l a 0%Z) mod 2)) (seq 0 n)).
  { apply eq_true_iff_eq. rewrite !forallb_forall. split; intros H l Hl; specialize (H l Hl); revert H; unfold bit, xp, brow;
      destruct (binary_nth a l Ba) as [-> | ->]; destruct (Nat.testbit r (n - 1 - l)), (Nat.testbit c (n - 1 - l)); cbn; intros H; congruence. }
  rewrite F. destruct (forallb (fun l => Z.eqb (bit r l) ((bit c l + nth l a 0%Z) mod 2)) (seq 0 n)); [|reflexivity].
  rewrite pm1_sgn. f_equal. rewrite fold_add_zsum, Logical.odd_zsum. apply xsum_ext; intros l Hl. rewrite Z.odd_mul.
  unfold zp, brow, bit. f_equal. destruct (Nat.testbit c (n - 1 - l)); reflexivity.
Qed.
End P2.
