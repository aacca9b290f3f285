(** Two sets of generators with the same products have the same code space (C143). *)
From Verif Require Import Py ZMat CodesModel CodesSpec BoolLin Rank CodesProofs CodesProofs2 Scalar PauliModel PauliSpec PauliProofs PauliProofs2 EncoderProofs EighExists PropsPauli KrausProofs2 GenSetSpec.
From Coq Require Import Reals Lra.
Open Scope nat_scope.
Open Scope K_scope.
Add Ring CCring74 : (s_rt CC).

Section Fixed.
Variables (n : nat) (rows : list (list Z)).
Hypothesis L : Forall (fun r => length r = 2 * n)%nat rows.
Hypothesis B : Forall binary rows.
Lemma product_row s r : product_of n rows s r -> length r = (2 * n)%nat /\ binary r.
Proof.
  intros P. induction P as [r H|s t a b _ [IA _] _ [IB _]]; [rewrite Forall_forall in L, B; auto|]. split; [change (length (row_add a b) = (2 * n)%nat); rewrite length_row_add; congruence|exact (binary_row_add a b)].
Qed.
End Fixed.
Section Mul.
Variables (n : nat) (v : nat -> CC).
Let mat r : array CC := pm n (xp r) (zp n r).
Lemma mul_fix a b s t : length a = (2 * n)%nat -> length b = (2 * n)%nat -> (forall i, i < 2 ^ n -> bsum (2 ^ n) (fun l => mat a i l * v l) = sgn s * v i) -> (forall i, i < 2 ^ n -> bsum (2 ^ n) (fun l => mat b i l * v l) = sgn t * v i) ->
  forall i, i < 2 ^ n -> bsum (2 ^ n) (fun l => mat (times a b) i l * v l) = sgn (xorb (xorb s t) (Z.odd (zx_dot n a b))) * v i.
Proof.
  intros LA LB IA IB i Hi.
  assert (M : forall l, l < 2 ^ n -> mat (times a b) i l = sgn (Z.odd (zx_dot n a b)) * mm (2 ^ n) (mat a) (mat b) i l).
  { intros l Hl. unfold mat at 2 3. rewrite pm_mul by assumption. rewrite zx_dot_xsum. set (q := xsum n _). transitivity ((sgn q * sgn q) * mat (times a b) i l); [rewrite sgn_sq; ring|].
    transitivity (sgn q * (sgn q * mat (times a b) i l)); [ring|]. f_equal. f_equal. apply pm_ext. intros j Hj. change (times a b) with (row_add a b). rewrite (xp_add n), (zp_add n) by assumption. auto. }
  rewrite (bsum_ext _ _ (fun l => sgn (Z.odd (zx_dot n a b)) * (mm (2 ^ n) (mat a) (mat b) i l * v l))) by (intros l Hl; rewrite M by assumption; ring). rewrite bsum_mul_l.
  assert (C : bsum (2 ^ n) (fun l => mm (2 ^ n) (mat a) (mat b) i l * v l) = bsum (2 ^ n) (fun l => mat a i l * bsum (2 ^ n) (fun k => mat b l k * v k))).
  { pose proof (mm_assoc (2 ^ n) (2 ^ n) (mat a) (mat b) (fun l _ => v l) i O) as A. exact A. }
  rewrite C, (bsum_ext _ _ (fun l => sgn t * (mat a i l * v l))) by (intros l Hl; rewrite IB by assumption; ring). rewrite bsum_mul_l, IA by assumption. rewrite !sgn_xorb. ring.
Qed.
End Mul.
Lemma product_fixes n rows (v : nat -> CC) : Forall (fun r => length r = 2 * n)%nat rows -> Forall binary rows -> (forall r, In r rows -> forall i, i < 2 ^ n -> bsum (2 ^ n) (fun l => pm n (xp r) (zp n r) i l * v l) = v i) ->
  forall s r, product_of n rows s r -> forall i, i < 2 ^ n -> bsum (2 ^ n) (fun l => pm n (xp r) (zp n r) i l * v l) = sgn s * v i.
Proof.
  intros L B FIX s r P. induction P as [r H|s t a b PA IA PB IB]; intros i Hi; [rewrite FIX by assumption; cbn [sgn]; ring|].
  destruct (product_row n rows L B _ _ PA) as [LA _]. destruct (product_row n rows L B _ _ PB) as [LB _]. apply mul_fix; assumption.
Qed.

(** the matrices of the generators *)
Lemma code_mats g n k ops c Ss : init g n k ops = Ok c -> (1 <= n)%nat -> Forall binary (zd (stab c)) -> binary_rep_to_pauli_mat (K := CC) (stab c) = Ok Ss ->
  Forall (fun r => length r = 2 * n)%nat (zd (stab c)) /\ Forall2 (fun r S => eqm (2 ^ n) (2 ^ n) (me S) (pm n (xp r) (zp n r))) (zd (stab c)) Ss.
Proof.
  intros I Hn B E. destruct (init_inv _ _ _ _ _ I) as (M & [WL WR] & RL & ZC & EM & _). subst M. rewrite ZC in WR. split; [exact WR|].
  destruct (rowmats (K := CC) n _ Hn WR B) as (Ms & EM & F). unfold binary_rep_to_pauli_mat in E. rewrite ZC, CodesProofs.div2_double in E. rewrite EM in E. injection E as <-.
  clear -F. induction F as [|r S l m H F IH]; constructor; [apply H|exact IH].
Qed.
Lemma forall2_in {A B} (P : A -> B -> Prop) l m : Forall2 P l m -> (forall x, In x l -> exists y, In y m /\ P x y) /\ (forall y, In y m -> exists x, In x l /\ P x y).
Proof.
  intros F. induction F as [|x y l m H F [I1 I2]]; [split; intros ? []|]. split.
  - intros z [<-|Hz]; [exists y; split; [left; reflexivity|exact H]|]. destruct (I1 z Hz) as (w & W1 & W2). exists w. split; [right; exact W1|exact W2].
  - intros z [<-|Hz]; [exists x; split; [left; reflexivity|exact H]|]. destruct (I2 z Hz) as (w & W1 & W2). exists w. split; [right; exact W1|exact W2].
Qed.
(** what the code fixes, the generators of the other fix *)
Lemma transfer g n k ops c Ss g' k' ops' c' Ss' (v : nat -> CC) : init g n k ops = Ok c -> init g' n k' ops' = Ok c' -> (1 <= n)%nat -> Forall binary (zd (stab c)) -> Forall binary (zd (stab c')) ->
  binary_rep_to_pauli_mat (stab c) = Ok Ss -> binary_rep_to_pauli_mat (stab c') = Ok Ss' -> (forall r, In r (zd (stab c')) -> product_of n (zd (stab c)) false r) ->
  (forall S, In S Ss -> forall i, i < 2 ^ n -> bsum (2 ^ n) (fun l => me S i l * v l) = v i) -> forall S, In S Ss' -> forall i, i < 2 ^ n -> bsum (2 ^ n) (fun l => me S i l * v l) = v i.
Proof.
  intros I I' Hn B B' E E' P FIX S HS i Hi. destruct (code_mats _ _ _ _ _ _ I Hn B E) as [L F]. destruct (code_mats _ _ _ _ _ _ I' Hn B' E') as [_ F'].
  destruct (proj2 (forall2_in _ _ _ F') S HS) as (r & Hr & ES). rewrite (bsum_ext _ _ (fun l => pm n (xp r) (zp n r) i l * v l)) by (intros l Hl; rewrite ES by assumption; reflexivity).
  rewrite (product_fixes n (zd (stab c)) v L B) with (s := false); [cbn [sgn]; ring| |exact (P r Hr)|exact Hi].
  intros q Hq j Hj. destruct (proj1 (forall2_in _ _ _ F) q Hq) as (T & HT & ET). rewrite <- (FIX T HT j Hj). apply bsum_ext; intros l Hl. rewrite ET by assumption. reflexivity.
Qed.
Lemma projector_absorbs N m m' (E E' : array CC) : (forall t, t < m -> forall i, i < N -> bsum m' (fun u => E' i u * bsum N (fun l => (E' l u)^* * E l t)) = E i t) ->
  eqm N N (mm N (mm m' E' (adj E')) (mm m E (adj E))) (mm m E (adj E)).
Proof.
  intros H i j Hi Hj. rewrite <- mm_assoc. apply mm_ext; [|intros; reflexivity]. intros t Ht. rewrite mm_assoc. rewrite <- (H t Ht i Hi). reflexivity.
Qed.
Theorem same_projector N m m' (E E' : array CC) : eqm m m (mm N (adj E) E) eye -> eqm m' m' (mm N (adj E') E') eye ->
  (forall t, t < m -> forall i, i < N -> bsum m' (fun u => E' i u * bsum N (fun l => (E' l u)^* * E l t)) = E i t) ->
  (forall t, t < m' -> forall i, i < N -> bsum m (fun u => E i u * bsum N (fun l => (E l u)^* * E' l t)) = E' i t) ->
  m = m' /\ eqm N N (mm m E (adj E)) (mm m' E' (adj E')).
Proof.
  intros IS IS' H H'. pose proof (projector_absorbs N m m' E E' H) as P. pose proof (projector_absorbs N m' m E' E H') as P'.
  assert (HE : forall k (F : array CC) i j, adj (mm k F (adj F)) i j = mm k F (adj F) i j). { intros k F i j. rewrite adj_mm. apply mm_ext; [|intros; reflexivity]. intros l Hl. apply adj_adj. }
  assert (EQ : eqm N N (mm m E (adj E)) (mm m' E' (adj E'))).
  { intros i j Hi Hj. rewrite <- (P i j Hi Hj). rewrite <- (HE m' E' i j). unfold adj at 3. rewrite <- (P' j i Hj Hi). change ((mm N (mm m E (adj E)) (mm m' E' (adj E')) j i)^*) with (adj (mm N (mm m E (adj E)) (mm m' E' (adj E'))) i j). rewrite adj_mm.
    apply mm_ext; intros l Hl; symmetry; apply HE. }
  split; [|exact EQ]. apply INR_eq. apply rc_inj. rewrite <- !bsum_ones.
  assert (TR : forall k (F : array CC), eqm k k (mm N (adj F) F) eye -> tr N (mm k F (adj F)) = bsum k (fun _ => 1)).
  { intros k F G. rewrite tr_mm, (tr_eqm k _ eye) by exact G. unfold tr. apply bsum_ext; intros i _. unfold eye. rewrite Nat.eqb_refl. reflexivity. }
  rewrite <- (TR m E IS), <- (TR m' E' IS'). apply tr_eqm, EQ.
Qed.

(** ** the textbook's matrices *)
Definition iu : CC := (0, 1)%R.
Lemma letter_form x z i j : (x = 0 \/ x = 1)%Z -> (z = 0 \/ z = 1)%Z ->
  letter x z i j = (if ((x =? 1) && (z =? 1))%Z then iu else 1) * (if Z.eqb (if i then 1 else 0)%Z (((if j then 1 else 0) + x) mod 2)%Z then pm1 (z * (if j then 1 else 0))%Z else 0).
Proof. intros [-> | ->] [-> | ->]; destruct i, j; apply CC_eq; cbn; lra. Qed.
Lemma prod_split {A} (l : list A) (f g h : A -> CC) : (forall x, In x l -> f x = g x * h x) -> fold_right smul 1 (map f l) = fold_right smul 1 (map g l) * fold_right smul 1 (map h l).
Proof. intros H. induction l as [|x l IH]; cbn [map fold_right]; [ring|]. rewrite H by (left; reflexivity). rewrite IH by (intros; apply H; right; assumption). ring. Qed.
Lemma prod_cond {A} (l : list A) (b : A -> bool) (e : A -> Z) : fold_right smul 1 (map (fun x => if b x then pm1 (e x) else 0 : CC) l) = if forallb b l then pm1 (fold_right Z.add 0%Z (map e l)) else 0.
Proof.
  induction l as [|x l IH]; cbn [map fold_right forallb]; [reflexivity|]. rewrite IH. destruct (b x); cbn [andb]; [|ring]. destruct (forallb b l); [|ring].
  unfold pm1. rewrite Z.even_add. destruct (Z.even (e x)), (Z.even (fold_right Z.add 0%Z (map e l))); cbn [Bool.eqb]; ring.
Qed.
Fixpoint ipow (m : nat) : CC := match m with O => 1 | S k => iu * ipow k end.
Lemma prod_ipow {A} (l : list A) (b : A -> bool) : fold_right smul 1 (map (fun x => if b x then iu else 1 : CC) l) = ipow (length (filter b l)).
Proof. induction l as [|x l IH]; cbn [map fold_right filter]; [reflexivity|]. rewrite IH. destruct (b x); cbn [length ipow]; [reflexivity|ring]. Qed.
Theorem textbook_matrix n r : (1 <= n)%nat -> length r = (2 * n)%nat -> binary r -> forall i j, i < 2 ^ n -> j < 2 ^ n -> textbook n r i j = ipow (y_count n r) * pm n (xp r) (zp n r) i j.
Proof.
  intros Hn L B i j Hi Hj. destruct (pauli_entries (K := CC) n r Hn L B) as (A & EA & H). destruct (pauli_row_mat_spec (K := CC) n r Hn L B) as (A' & EA' & H').
  assert (A = A'). { unfold binary_rep_to_pauli_mat in EA. cbn [zc zd mapM] in EA. rewrite CodesProofs.div2_double, EA' in EA. cbn [bind] in EA. injection EA as ->. reflexivity. } subst A'.
  rewrite <- H' by assumption. rewrite H by assumption. unfold textbook.
  rewrite (prod_split _ _ (fun l => if (Z.eqb (nth l r 0%Z) 1 && Z.eqb (nth (n + l)%nat r 0%Z) 1)%bool then iu else 1)
    (fun l => if Z.eqb (if Nat.testbit i (n - 1 - l)%nat then 1 else 0)%Z (((if Nat.testbit j (n - 1 - l)%nat then 1 else 0) + nth l r 0) mod 2)%Z then pm1 (nth (n + l)%nat r 0 * (if Nat.testbit j (n - 1 - l)%nat then 1 else 0))%Z else 0)).
  - rewrite prod_ipow. fold (y_count n r). f_equal. rewrite (prod_cond (seq 0 n) (fun l => Z.eqb (if Nat.testbit i (n - 1 - l)%nat then 1 else 0)%Z (((if Nat.testbit j (n - 1 - l)%nat then 1 else 0) + nth l r 0) mod 2)%Z) (fun l => nth (n + l) r 0 * (if Nat.testbit j (n - 1 - l) then 1 else 0))%Z). reflexivity.
  - intros l Hl. apply letter_form; apply binary_nth, B.
Qed.
Lemma ipow_mod m : ipow m = match Nat.modulo m 4 with 0%nat => 1 | 1%nat => iu | 2%nat => - (1) | _ => - iu end.
Proof.
  assert (P : forall q r, ipow (4 * q + r) = ipow r). { induction q as [|q IH]; intros r; [reflexivity|]. replace (4 * S q + r)%nat with (S (S (S (S (4 * q + r)))))%nat by lia. cbn [ipow]. rewrite IH. unfold iu. set (z := ipow r). apply CC_eq; destruct z; cbn; ring. }
  rewrite (Nat.div_mod m 4) at 1 by lia. rewrite P. pose proof (Nat.mod_upper_bound m 4 ltac:(lia)). destruct (m mod 4)%nat as [|[|[|[|]]]]; try lia; unfold iu; apply CC_eq; cbn; ring.
Qed.
Lemma stabilised_four n rows : (1 <= n)%nat -> Forall (fun r => length r = 2 * n)%nat rows -> Forall binary rows -> Forall (fun r => Nat.modulo (y_count n r) 4 = 0)%nat rows ->
  forall v, stabilised n rows v <-> (forall r, In r rows -> forall i, i < 2 ^ n -> bsum (2 ^ n) (fun l => pm n (xp r) (zp n r) i l * v l) = v i).
Proof.
  intros Hn L B Y v. rewrite Forall_forall in L, B, Y.
  assert (T : forall r, In r rows -> forall i, i < 2 ^ n -> bsum (2 ^ n) (fun l => textbook n r i l * v l) = bsum (2 ^ n) (fun l => pm n (xp r) (zp n r) i l * v l)).
  { intros r Hr i Hi. apply bsum_ext; intros l Hl. rewrite textbook_matrix by auto. rewrite ipow_mod, (Y r Hr). ring. }
  split; intros H r Hr i Hi; [rewrite <- T by assumption|rewrite T by assumption]; apply H; assumption.
Qed.

(** the encoder's columns and the fixed vectors *)
Lemma encoder_columns g n k ops c Ss m (E : array CC) : init g n k ops = Ok c -> (1 <= n)%nat -> Forall binary (zd (stab c)) -> binary_rep_to_pauli_mat (stab c) = Ok Ss ->
  (forall S, In S Ss -> eqm (2 ^ n) m (mm (2 ^ n) (me S) E) E) -> forall t, t < m -> forall r, In r (zd (stab c)) -> forall i, i < 2 ^ n -> bsum (2 ^ n) (fun l => pm n (xp r) (zp n r) i l * E l t) = E i t.
Proof.
  intros I Hn B EB F t Ht r Hr i Hi. destruct (code_mats _ _ _ _ _ _ I Hn B EB) as [_ F2]. destruct (proj1 (forall2_in _ _ _ F2) r Hr) as (S & HS & ES).
  rewrite <- (F S HS i t Hi Ht). unfold mm. apply bsum_ext; intros l Hl. rewrite ES by assumption. reflexivity.
Qed.
(** what all generators fix is in the encoder's range *)
Lemma encoder_range g n k ops c Ss m (E : array CC) : init g n k ops = Ok c -> (1 <= n)%nat -> Forall binary (zd (stab c)) -> binary_rep_to_pauli_mat (stab c) = Ok Ss ->
  (forall v : nat -> CC, (forall S, In S Ss -> forall i, i < 2 ^ n -> bsum (2 ^ n) (fun l => me S i l * v l) = v i) -> forall i, i < 2 ^ n -> bsum m (fun t => E i t * bsum (2 ^ n) (fun l => (E l t)^* * v l)) = v i) ->
  forall v : nat -> CC, (forall r, In r (zd (stab c)) -> forall i, i < 2 ^ n -> bsum (2 ^ n) (fun l => pm n (xp r) (zp n r) i l * v l) = v i) -> forall i, i < 2 ^ n -> bsum m (fun t => E i t * bsum (2 ^ n) (fun l => (E l t)^* * v l)) = v i.
Proof.
  intros I Hn B EB C v FIX. apply C. intros S HS i Hi. destruct (code_mats _ _ _ _ _ _ I Hn B EB) as [_ F2]. destruct (proj2 (forall2_in _ _ _ F2) S HS) as (r & Hr & ES).
  rewrite <- (FIX r Hr i Hi). apply bsum_ext; intros l Hl. rewrite ES by assumption. reflexivity.
Qed.
(** two isometries with the same range differ by a unitary *)
Lemma same_range_unitary N m (E E' : array CC) : eqm m m (mm N (adj E) E) eye -> eqm m m (mm N (adj E') E') eye -> eqm N N (mm m E (adj E)) (mm m E' (adj E')) ->
  let U := mm N (adj E) E' in eqm m m (mm m (adj U) U) eye /\ eqm m m (mm m U (adj U)) eye /\ eqm N m E' (mm m E U).
Proof.
  intros IS IS' P U.
  assert (R : eqm N m E' (mm m E U)).
  { intros i j Hi Hj. unfold U. rewrite <- mm_assoc. rewrite (mm_ext N (mm m E (adj E)) (mm m E' (adj E')) E' E' i j); [|intros; apply P; assumption|reflexivity].
    rewrite mm_assoc. unfold mm at 1. rewrite (bsum_ext _ _ (fun l => E' i l * eye l j)) by (intros l Hl; rewrite IS' by assumption; reflexivity). symmetry. apply mm_eye_r. exact Hj. }
  assert (R' : eqm N m E (mm m E' (adj U))).
  { intros i j Hi Hj. transitivity (mm N (mm m E (adj E)) E i j).
    - rewrite mm_assoc. unfold mm at 1. rewrite (bsum_ext _ _ (fun l => E i l * eye l j)) by (intros l Hl; rewrite IS by assumption; reflexivity). symmetry. apply mm_eye_r. exact Hj.
    - rewrite (mm_ext N (mm m E (adj E)) (mm m E' (adj E')) E E i j); [|intros; apply P; assumption|reflexivity]. rewrite mm_assoc. apply mm_ext; [reflexivity|]. intros l Hl. unfold U. rewrite adj_mm. apply mm_ext; [reflexivity|]. intros q Hq. rewrite adj_adj. reflexivity. }
  split; [|split; [|exact R]]; intros i j Hi Hj.
  - rewrite <- (IS' i j Hi Hj). unfold U at 2. rewrite <- mm_assoc. apply mm_ext; [|reflexivity]. intros l Hl. transitivity (adj (mm m E U) i l); [rewrite adj_mm; reflexivity|]. unfold adj. rewrite <- R by assumption. reflexivity.
  - rewrite <- (IS i j Hi Hj). unfold U at 1. rewrite mm_assoc. apply mm_ext; [reflexivity|]. intros l Hl. symmetry. apply R'; assumption.
Qed.
(** spaces on which a Hermitian matrix is 1 and -1 are orthogonal *)
Lemma opposite_spaces N m m' (M E E' : array CC) : (forall i j, i < N -> j < N -> adj M i j = M i j) -> (forall t, t < m -> forall i, i < N -> bsum N (fun l => M i l * E l t) = - (1) * E i t) -> (forall t, t < m' -> forall i, i < N -> bsum N (fun l => M i l * E' l t) = E' i t) ->
  eqm m m' (mm N (adj E) E') (fun _ _ => 0).
Proof.
  intros H A B i j Hi Hj.
  assert (X : mm N (adj E) E' i j = - mm N (adj E) E' i j).
  { transitivity (mm N (adj E) (mm N M E') i j); [apply mm_ext; [reflexivity|]; intros l Hl; symmetry; apply B; assumption|]. rewrite <- mm_assoc.
    transitivity (mm N (fun i l => - (1) * adj E i l) E' i j); [|unfold mm; rewrite (bsum_ext _ _ (fun l => - (1) * (adj E i l * E' l j))) by (intros; ring); rewrite bsum_mul_l; ring].
    apply mm_ext; [|reflexivity]. intros l Hl. transitivity (adj (mm N M E) i l).
    - rewrite adj_mm. apply mm_ext; [reflexivity|]. intros q Hq. symmetry. apply H; assumption.
    - unfold adj, mm. rewrite A by assumption. rewrite sconj_mul, sconj_opp, sconj_1. reflexivity. }
  revert X. set (z := mm N (adj E) E' i j). intros X. apply CC_eq; [apply (f_equal fst) in X|apply (f_equal snd) in X]; cbn in *; lra.
Qed.
