(** The distance of a concatenated code (C153). *)
From Verif Require Import Py ZMat CodesModel RankSpec CodesSpec BoolLin Rank Gauss Gauss2 Logical CodesProofs CodesProofs2 ConcatProofs ConcatSpec ConcatAbs ConcatProofs2 StringsProofs Scalar CircuitModel CircuitSpec QecSpec.
Open Scope nat_scope.
Open Scope bool_scope.

(** ** orthogonal complements over GF(2) *)
Definition dot (c : nat) (u w : nat -> bool) : bool := xsum c (fun j => u j && w j).
Lemma dot_xor_l c u v w : dot c (fun j => xorb (u j) (v j)) w = xorb (dot c u w) (dot c v w).
Proof. unfold dot. rewrite <- xsum_xor. apply xsum_ext. intros. destruct (u i), (v i), (w i); reflexivity. Qed.
Lemma dot_xor_r c u w w' : dot c u (fun j => xorb (w j) (w' j)) = xorb (dot c u w) (dot c u w').
Proof. unfold dot. rewrite <- xsum_xor. apply xsum_ext. intros. destruct (u i), (w i), (w' i); reflexivity. Qed.
Lemma separate f c m : forall v, inspan f m c v \/ exists w, (forall i, i < m -> dot c (f i) w = false) /\ dot c v w = true.
Proof.
  induction m as [|m IH]; intros v.
  - destruct (existsb v (seq 0 c)) eqn:E.
    + apply existsb_exists in E. destruct E as (j & Hj & V). apply in_seq in Hj. right. exists (Nat.eqb j). split; [lia|]. unfold dot. rewrite (xsum_one c j); [rewrite V, Nat.eqb_refl; reflexivity|lia|].
      intros i Hi N. destruct (Nat.eqb_spec j i); [congruence|apply andb_false_r].
    + left. exists (fun _ => false). intros j Hj. cbn. destruct (v j) eqn:V; [|reflexivity]. assert (X : existsb v (seq 0 c) = true) by (apply existsb_exists; exists j; split; [apply in_seq; lia|exact V]). congruence.
  - assert (UP : forall u, inspan f m c u -> inspan f (S m) c u).
    { intros u (a & A). exists (fun i => Nat.ltb i m && a i). intros j Hj. rewrite (A j Hj). unfold comb. cbn [xsum]. rewrite Nat.ltb_irrefl. cbn [andb]. rewrite xorb_false_r. apply xsum_ext. intros i Hi. destruct (Nat.ltb_spec i m); [reflexivity|lia]. }
    destruct (IH v) as [S1|(w & W1 & W2)]; [left; apply UP; exact S1|].
    destruct (dot c (f m) w) eqn:D; [|right; exists w; split; [intros i Hi; destruct (Nat.eq_dec i m) as [->|]; [exact D|apply W1; lia]|exact W2]].
    destruct (IH (fun j => xorb (v j) (f m j))) as [S1|(w' & W1' & W2')].
    + left. apply (inspan_ext f (S m) c (fun j => xorb (xorb (v j) (f m j)) (f m j))); [intros j _; destruct (v j), (f m j); reflexivity|]. apply inspan_xor; [apply UP; exact S1|apply inspan_row; lia].
    + right. rewrite dot_xor_l in W2'. destruct (dot c (f m) w') eqn:D'.
      * exists (fun j => xorb (w j) (w' j)). split; [|rewrite dot_xor_r, W2; destruct (dot c v w'); [discriminate W2'|reflexivity]].
        intros i Hi. rewrite dot_xor_r. destruct (Nat.eq_dec i m) as [->|]; [rewrite D, D'; reflexivity|rewrite W1, W1' by lia; reflexivity].
      * exists w'. split; [intros i Hi; destruct (Nat.eq_dec i m) as [->|]; [exact D'|apply W1'; lia]|]. destruct (dot c v w'); [reflexivity|discriminate W2'].
Qed.
Definition swap_halves (n : nat) (w : nat -> bool) (j : nat) : bool := if Nat.ltb j n then w (n + j) else w (j - n).
Lemma dot_swap n u w : dot (2 * n) u w = ip n u (swap_halves n w).
Proof.
  unfold dot, ip. replace (2 * n) with (n + n) by lia. rewrite xsum_split, <- xsum_xor. apply xsum_ext. intros j Hj. unfold swap_halves.
  destruct (Nat.ltb_spec (n + j) n); [lia|]. destruct (Nat.ltb_spec j n); [|lia]. replace (n + j - n) with j by lia. reflexivity.
Qed.
Lemma separate_ip f n m v : inspan f m (2 * n) v \/ exists w, (forall i, i < m -> ip n (f i) w = false) /\ ip n v w = true.
Proof.
  destruct (separate f (2 * n) m v) as [S1|(w & W1 & W2)]; [left; exact S1|right]. exists (swap_halves n w). split; [intros i Hi; rewrite <- dot_swap; apply W1, Hi|rewrite <- dot_swap; exact W2].
Qed.
(** what commutes with everything that commutes with the rows is in their span *)
Lemma double_commutant f n m v : (forall w, (forall i, i < m -> ip n (f i) w = false) -> ip n v w = false) -> inspan f m (2 * n) v.
Proof. intros H. destruct (separate_ip f n m v) as [S1|(w & W1 & W2)]; [exact S1|]. rewrite (H w W1) in W2. discriminate W2. Qed.

Lemma choice_nat {B : Type} (P : nat -> B -> Prop) (b0 : B) s : (forall q, q < s -> exists d, P q d) -> exists D : nat -> B, forall q, q < s -> P q (D q).
Proof.
  induction s as [|s IH]; intros H; [exists (fun _ => b0); lia|]. destruct IH as (D & HD); [intros q Hq; apply H; lia|]. destruct (H s ltac:(lia)) as (d & Hd). exists (fun q => if Nat.eqb q s then d else D q).
  intros q Hq. destruct (Nat.eqb_spec q s) as [->|]; [exact Hd|apply HD; lia].
Qed.
(** dual vectors of independent rows *)
Lemma dual f n s : indepb f s (2 * n) -> exists D, forall q i, q < s -> i < s -> ip n (f i) (D q) = Nat.eqb i q.
Proof.
  intros I. destruct (choice_nat (fun q d => forall i, i < s -> ip n (f i) d = Nat.eqb i q) (fun _ : nat => false) s) as (D & HD); [|exists D; intros q i Hq Hi; apply HD; assumption].
  intros q Hq. destruct (separate_ip (fun i => if Nat.eqb i q then fun _ => false else f i) n s (f q)) as [(a & A)|(w & W1 & W2)].
  - exfalso. assert (X : forall i, i < s -> (fun i => if Nat.eqb i q then true else a i) i = false).
    { apply I. intros j Hj. unfold comb. pose proof (A j Hj) as E. unfold comb in E.
      rewrite (xsum_ext s _ (fun i => xorb (a i && (if Nat.eqb i q then fun _ => false else f i) j) (Nat.eqb i q && f q j))).
      - rewrite xsum_xor, <- E, (xsum_delta s q (fun _ => f q j) Hq). apply xorb_nilpotent.
      - intros i Hi. destruct (Nat.eqb_spec i q) as [->|]; [rewrite andb_false_r, xorb_false_l; reflexivity|]. cbn [andb]. rewrite xorb_false_r. reflexivity. }
    specialize (X q Hq). cbn in X. rewrite Nat.eqb_refl in X. discriminate X.
  - exists w. intros i Hi. destruct (Nat.eqb_spec i q) as [->|N]; [exact W2|]. specialize (W1 i Hi). cbn beta in W1. destruct (Nat.eqb_spec i q); [contradiction|exact W1].
Qed.

Section Max.
Variables (m : nat) (G : nat -> nat -> bool) (X Z : nat -> bool).
Hypothesis M1 : 1 <= m.
Let s := m - 1.
Hypothesis IG : indepb G s (2 * m).
Hypothesis CG : forall q q', q < s -> q' < s -> ip m (G q) (G q') = false.
Hypothesis GL : forall q, q < s -> ip m (G q) X = false /\ ip m (G q) Z = false.
Hypothesis XZ : ip m X Z = true.
Definition normal (v : nat -> bool) : Prop := forall q, q < s -> ip m (G q) v = false.
(** an operator that commutes with m - 1 independent generators and one pair of logical operators commutes with all that commutes with the generators *)
Lemma maximal v w : normal v -> normal w -> ip m v X = false -> ip m v Z = false -> ip m v w = false.
Proof.
  intros NV NW VX VZ. destruct (ip m v w) eqn:VW; [|reflexivity]. exfalso.
  set (w' := fun j => xorb (w j) (xorb (ip m w Z && X j) (ip m w X && Z j))).
  assert (LIN : forall u, ip m u w' = xorb (ip m u w) (xorb (ip m w Z && ip m u X) (ip m w X && ip m u Z))).
  { intros u. unfold w'. rewrite ip_xor_r. f_equal. rewrite (ip_xor_r m (fun j => ip m w Z && X j) (fun j => ip m w X && Z j)). f_equal; unfold ip at 1; [destruct (ip m w Z)|destruct (ip m w X)]; cbn [andb]; try reflexivity; apply xsum_zero; intros; rewrite !andb_false_r; reflexivity. }
  assert (NW' : normal w') by (intros q Hq; rewrite LIN, (NW q Hq); destruct (GL q Hq) as [-> ->]; rewrite !andb_false_r; reflexivity).
  assert (VW' : ip m v w' = true) by (rewrite LIN, VW, VX, VZ, !andb_false_r; reflexivity).
  assert (XW' : ip m X w' = false) by (rewrite LIN, (ip_sym m X w), ip_self, XZ, andb_false_r, andb_true_r, xorb_false_l; apply xorb_nilpotent).
  assert (ZW' : ip m Z w' = false) by (rewrite LIN, (ip_sym m Z w), ip_self, (ip_sym m Z X), XZ, andb_false_r, andb_true_r, xorb_false_r; apply xorb_nilpotent).
  clearbody w'. clear LIN w NW VW.
  destruct (dual G m s IG) as (D & HD).
  set (F := fun i => if i <? s then G i else if i <? 2 * s then D (i - s) else if i =? 2 * s then X else if i =? 2 * s + 1 then Z else if i =? 2 * s + 2 then v else w').
  destruct (homogeneous (2 * m) (2 * s + 4) F) as (a & (i0 & Hi0 & A0) & E); [unfold s; lia|].
  assert (T : forall u, xorb (xsum s (fun i => a i && ip m (G i) u)) (xorb (xsum s (fun i => a (s + i) && ip m (D i) u))
    (xorb (a (2 * s) && ip m X u) (xorb (a (2 * s + 1) && ip m Z u) (xorb (a (2 * s + 2) && ip m v u) (a (2 * s + 3) && ip m w' u))))) = false).
  { intros u. assert (Q : ip m (comb (2 * s + 4) a F) u = false) by (rewrite <- (ip_false_r m u), (ip_sym m u); apply ip_ext; [exact E|reflexivity]). rewrite ip_comb_l in Q. rewrite <- Q. clear Q.
    replace (2 * s + 4) with (s + (s + 4)) by lia. rewrite !xsum_split. f_equal; [apply xsum_ext; intros i Hi; unfold F; destruct (Nat.ltb_spec i s); [reflexivity|lia]|]. f_equal.
    - apply xsum_ext. intros i Hi. unfold F. destruct (Nat.ltb_spec (s + i) s); [lia|]. destruct (Nat.ltb_spec (s + i) (2 * s)); [|lia]. replace (s + i - s) with i by lia. reflexivity.
    - cbn [xsum]. assert (FV : forall t, t < 4 -> F (s + (s + t)) = match t with 0 => X | 1 => Z | 2 => v | _ => w' end).
      { intros t Ht. unfold F. destruct (Nat.ltb_spec (s + (s + t)) s); [lia|]. destruct (Nat.ltb_spec (s + (s + t)) (2 * s)); [lia|]. destruct (Nat.eqb_spec (s + (s + t)) (2 * s)); [destruct t; [reflexivity|lia]|].
        destruct (Nat.eqb_spec (s + (s + t)) (2 * s + 1)); [destruct t as [|[|]]; [lia|reflexivity|lia]|]. destruct (Nat.eqb_spec (s + (s + t)) (2 * s + 2)); [destruct t as [|[|[|]]]; [lia|lia|reflexivity|lia]|]. destruct t as [|[|[|]]]; [lia|lia|lia|reflexivity]. }
      rewrite !FV by lia. rewrite !Nat.add_assoc. replace (s + s + 0) with (2 * s) by lia. replace (s + s) with (2 * s) by lia. rewrite xorb_false_l, !xorb_assoc. reflexivity. }
  assert (A1 : forall q, q < s -> a (s + q) = false).
  { intros q Hq. specialize (T (G q)). rewrite (xsum_zero s (fun i => a i && _)) in T by (intros i Hi; rewrite CG by assumption; apply andb_false_r).
    rewrite (ip_sym m X), (ip_sym m Z), (ip_sym m v), (ip_sym m w'), (NV q Hq), (NW' q Hq) in T. destruct (GL q Hq) as [g1 g2]. rewrite g1, g2, !andb_false_r, !xorb_false_r, xorb_false_l in T.
    rewrite <- T. symmetry. rewrite (xsum_one s q); [rewrite ip_sym, (HD q q Hq Hq), Nat.eqb_refl, andb_true_r; reflexivity|exact Hq|]. intros i Hi N. rewrite ip_sym, (HD i q Hi Hq). destruct (Nat.eqb_spec q i); [congruence|apply andb_false_r]. }
  assert (T' : forall u, normal u -> xorb (a (2 * s) && ip m X u) (xorb (a (2 * s + 1) && ip m Z u) (xorb (a (2 * s + 2) && ip m v u) (a (2 * s + 3) && ip m w' u))) = false).
  { intros u NU. specialize (T u). rewrite (xsum_zero s (fun i => a i && _)) in T by (intros i Hi; rewrite (NU i Hi); apply andb_false_r). rewrite (xsum_zero s (fun i => a (s + i) && _)) in T by (intros i Hi; rewrite (A1 i Hi); reflexivity). rewrite !xorb_false_l in T. exact T. }
  assert (NX : normal X) by (intros q Hq; apply GL, Hq). assert (NZ : normal Z) by (intros q Hq; apply GL, Hq).
  assert (AX : a (2 * s) = false) by (specialize (T' Z NZ); rewrite XZ, ip_self, VZ, (ip_sym m w'), ZW', !andb_false_r, andb_true_r, !xorb_false_r in T'; exact T').
  assert (AZ : a (2 * s + 1) = false) by (specialize (T' X NX); rewrite AX, (ip_sym m Z), XZ, VX, (ip_sym m w'), XW', !andb_false_r, andb_true_r, !xorb_false_r in T'; cbn [andb] in T'; rewrite xorb_false_l in T'; exact T').
  assert (AV : a (2 * s + 2) = false) by (specialize (T' w' NW'); rewrite AX, AZ, VW', ip_self, andb_true_r, andb_false_r, xorb_false_r in T'; cbn [andb] in T'; rewrite !xorb_false_l in T'; exact T').
  assert (AW : a (2 * s + 3) = false) by (specialize (T' v NV); rewrite AX, AZ, AV, (ip_sym m w'), VW', andb_true_r in T'; cbn [andb] in T'; rewrite !xorb_false_l in T'; exact T').
  assert (AG : forall i, i < s -> a i = false).
  { apply IG. intros j Hj. specialize (E j Hj). replace (2 * s + 4) with (s + (s + 4)) in E by lia. rewrite !xsum_split in E. cbn [xsum] in E.
    rewrite (xsum_zero s (fun i => a (s + i) && _)) in E by (intros i Hi; rewrite (A1 i Hi); reflexivity).
    replace (s + (s + 0)) with (2 * s) in E by lia. replace (s + (s + 1)) with (2 * s + 1) in E by lia. replace (s + (s + 2)) with (2 * s + 2) in E by lia. replace (s + (s + 3)) with (2 * s + 3) in E by lia.
    rewrite AX, AZ, AV, AW in E. cbn [andb xorb] in E. rewrite xorb_false_r in E. rewrite <- E. apply xsum_ext. intros i Hi. unfold F. destruct (Nat.ltb_spec i s); [reflexivity|lia]. }
  destruct (Nat.lt_ge_cases i0 s) as [L|L]; [rewrite (AG i0 L) in A0; discriminate A0|].
  destruct (Nat.lt_ge_cases i0 (2 * s)) as [L2|L2]; [pose proof (A1 (i0 - s) ltac:(lia)) as Q; replace (s + (i0 - s)) with i0 in Q by lia; congruence|].
  assert (C4 : i0 = 2 * s \/ i0 = 2 * s + 1 \/ i0 = 2 * s + 2 \/ i0 = 2 * s + 3) by lia. destruct C4 as [->|[->|[->| ->]]]; congruence.
Qed.
(** the commutation of two such operators is decided by the logical operators *)
Lemma logical_ip v w : normal v -> normal w -> ip m v w = xorb (ip m v Z && ip m w X) (ip m v X && ip m w Z).
Proof.
  intros NV NW. set (v' := fun j => xorb (v j) (xorb (ip m v Z && X j) (ip m v X && Z j))).
  assert (LIN : forall u, ip m v' u = xorb (ip m v u) (xorb (ip m v Z && ip m X u) (ip m v X && ip m Z u))).
  { intros u. unfold v'. rewrite ip_xor_l. f_equal. rewrite (ip_xor_l m (fun j => ip m v Z && X j) (fun j => ip m v X && Z j)). f_equal; unfold ip at 1; [destruct (ip m v Z)|destruct (ip m v X)]; cbn [andb]; try reflexivity; apply xsum_zero; intros; reflexivity. }
  assert (Q : ip m v' w = false).
  { apply maximal; [|exact NW| |].
    - intros q Hq. rewrite ip_sym, LIN, (ip_sym m v), (NV q Hq), (ip_sym m X), (ip_sym m Z). destruct (GL q Hq) as [-> ->]. rewrite !andb_false_r. reflexivity.
    - rewrite LIN, ip_self, (ip_sym m Z), XZ, andb_false_r, andb_true_r, xorb_false_l. apply xorb_nilpotent.
    - rewrite LIN, ip_self, XZ, andb_false_r, andb_true_r, xorb_false_r. apply xorb_nilpotent. }
  rewrite LIN, (ip_sym m X w), (ip_sym m Z w) in Q. destruct (ip m v w), (xorb (ip m v Z && ip m w X) (ip m v X && ip m w Z)); cbn in Q; congruence.
Qed.
End Max.

(** ** a code in which every qubit is encoded again *)
Section Concat.
Variables (n m h : nat) (G H R : nat -> nat -> bool) (X Z : nat -> bool).
Hypothesis M1 : 1 <= m.
Let s := m - 1.
Hypothesis IG : indepb G s (2 * m).
Hypothesis CG : forall q q', q < s -> q' < s -> ip m (G q) (G q') = false.
Hypothesis GL : forall q, q < s -> ip m (G q) X = false /\ ip m (G q) Z = false.
Hypothesis XZ : ip m X Z = true.
Hypothesis RB : forall i q b p, i < n -> q < s -> b < n -> p < 2 * m -> R (i * s + q) (pos n m b p) = Nat.eqb b i && G q p.
Hypothesis RE : forall t b p, t < h -> b < n -> p < 2 * m -> R (n * s + t) (pos n m b p) = xorb (H t b && X p) (H t (n + b) && Z p).
Definition part (v : nat -> bool) (b : nat) : nat -> bool := fun p => v (pos n m b p).
(** the operator on the outer qubits that v is on the logical qubits *)
Definition outer_part (v : nat -> bool) (j : nat) : bool := if Nat.ltb j n then ip m (part v j) Z else ip m (part v (j - n)) X.
Definition commutes_rows (v : nat -> bool) : Prop := forall x, x < n * s + h -> ip (n * m) (R x) v = false.
Lemma part_normal v b : commutes_rows v -> b < n -> normal m G (part v b).
Proof.
  intros C Hb q Hq. fold s in Hq. specialize (C (b * s + q) ltac:(nia)). rewrite (ip_pos n m) in C. rewrite (xsum_one n b) in C; [|exact Hb|].
  - rewrite <- C. apply ip_ext; [|reflexivity]. intros p Hp. rewrite RB by assumption. rewrite Nat.eqb_refl. reflexivity.
  - intros i Hi N. transitivity (ip m (fun _ => false) (fun p => v (pos n m i p))); [|rewrite ip_sym; apply ip_false_r]. apply ip_ext; [|reflexivity]. intros p Hp. rewrite RB by assumption. destruct (Nat.eqb_spec i b); [contradiction|reflexivity].
Qed.
Lemma ip_lin2 x z u : ip m (fun p => xorb (x && X p) (z && Z p)) u = xorb (x && ip m X u) (z && ip m Z u).
Proof. rewrite (ip_xor_l m (fun p => x && X p) (fun p => z && Z p)). f_equal; unfold ip at 1; [destruct x|destruct z]; cbn [andb]; try reflexivity; apply xsum_zero; intros; reflexivity. Qed.
Lemma outer_commutes v t : commutes_rows v -> t < h -> ip n (H t) (outer_part v) = false.
Proof.
  intros C Ht. specialize (C (n * s + t) ltac:(lia)). rewrite (ip_pos n m) in C. rewrite <- C. apply xsum_ext. intros b Hb.
  rewrite (ip_ext m _ (fun p => xorb (H t b && X p) (H t (n + b) && Z p)) _ (part v b)); [|intros p Hp; apply RE; assumption|reflexivity]. rewrite ip_lin2. unfold outer_part.
  destruct (Nat.ltb_spec (n + b) n); [lia|]. destruct (Nat.ltb_spec b n); [|lia]. replace (n + b - n) with b by lia. rewrite (ip_sym m X), (ip_sym m Z). reflexivity.
Qed.
Lemma outer_ip v w : commutes_rows v -> commutes_rows w -> ip (n * m) v w = ip n (outer_part v) (outer_part w).
Proof.
  intros CV CW. rewrite (ip_pos n m). apply xsum_ext. intros b Hb. etransitivity; [exact (logical_ip m G X Z M1 IG CG GL XZ (part v b) (part w b) (part_normal v b CV Hb) (part_normal w b CW Hb))|].
  unfold outer_part. destruct (Nat.ltb_spec (n + b) n); [lia|]. destruct (Nat.ltb_spec b n); [|lia]. replace (n + b - n) with b by lia. reflexivity.
Qed.
Lemma concat_span v : commutes_rows v -> inspan H h (2 * n) (outer_part v) -> inspan R (n * s + h) (2 * (n * m)) v.
Proof.
  intros CV (a & A). apply double_commutant. intros w CW. rewrite (outer_ip v w CV CW). rewrite (ip_ext n _ (comb h a H) _ (outer_part w)); [|exact A|reflexivity]. rewrite ip_comb_l. apply xsum_zero. intros t Ht. rewrite (outer_commutes w t CW Ht). apply andb_false_r.
Qed.
End Concat.

(** ** the rows of a concatenation *)
Lemma concatenation_rows n k m XL ZL outer inner rows : valid_generators n k outer -> k <= n -> valid_generators m 1 inner ->
  concatenation n n m (fun j => j) (fun _ => XL) (fun _ => ZL) outer inner rows ->
  let s := length inner in let h := length outer in length rows = n * s + h /\
  (forall i q b p, i < n -> q < s -> b < n -> p < 2 * m -> brows rows (i * s + q) (pos n m b p) = Nat.eqb b i && brows inner q p) /\
  (forall t b p, t < h -> b < n -> p < 2 * m -> brows rows (n * s + t) (pos n m b p) = xorb (brows outer t b && brow XL p) (brows outer t (n + b) && brow ZL p)).
Proof.
  intros _ _ _ (A & B & -> & FA & FB). cbn zeta.
  assert (LA : length A = n * length inner) by (rewrite <- (Forall2_length FA), list_prod_flat, (flat_map_length_const _ (length inner)); [rewrite seq_length; reflexivity|intros; apply map_length]).
  assert (LB : length B = length outer) by (symmetry; apply (Forall2_length FB)).
  split; [rewrite app_length; lia|]. split.
  - intros i q b p Hi Hq Hb Hp. unfold brows, brow. assert (NA : in_block n m i (nth q inner []) (nth (i * length inner + q) (A ++ B) [])).
    { rewrite app_nth1 by nia.
      destruct (flat_map_chunks (0, []) (fun x => map (fun y : list Z => (x, y)) inner) (length inner) (fun b => map_length _ _) n 0) as [E1 E2].
      pose proof (Forall2_nth_2 _ _ _ (0, []) [] (i * length inner + q) FA) as F. rewrite list_prod_flat in F. rewrite E1, E2 in F by assumption. specialize (F ltac:(nia)).
      rewrite (nth_indep _ (0, []) (0 + i, [])) in F by (rewrite map_length; exact Hq). rewrite (map_nth (fun y => (0 + i, y))) in F. exact F. }
    rewrite (in_block_pos n m i _ _ b p NA Hb Hp). destruct (Nat.eqb b i); reflexivity.
  - intros t b p Ht Hb Hp. assert (NB : encodes n n m (fun j => j) (fun _ => XL) (fun _ => ZL) (nth t outer []) (nth (n * length inner + t) (A ++ B) [])) by (rewrite <- LA, app_nth2 by lia; replace (length A + t - length A) with t by lia; apply (Forall2_nth_2 _ _ _ [] [] t FB Ht)).
    unfold brows at 1. rewrite (encodes_brow _ _ _ _ _ _ _ _ _ _ NB Hb Hp). unfold enc, cb, comb. f_equal.
    + rewrite (xsum_one n b); [rewrite Nat.eqb_refl; reflexivity|exact Hb|]. intros j Hj N. destruct (Nat.eqb_spec j b); [contradiction|reflexivity].
    + rewrite (xsum_one n b); [rewrite Nat.eqb_refl; reflexivity|exact Hb|]. intros j Hj N. destruct (Nat.eqb_spec j b); [contradiction|reflexivity].
Qed.

(** ** weights *)
Definition acts (n : nat) (row : list Z) (j : nat) : bool := Z.eqb (nth j row 0%Z) 1 || Z.eqb (nth (n + j) row 0%Z) 1.
Fixpoint nsum (n : nat) (f : nat -> nat) : nat := match n with 0 => 0 | S n => nsum n f + f n end.
Lemma filter_sum n f : length (filter f (seq 0 n)) = nsum n (fun j => if f j then 1 else 0).
Proof. induction n as [|n IH]; [reflexivity|]. rewrite seq_S, filter_app, app_length, IH. cbn [nsum filter plus]. destruct (f n); reflexivity. Qed.
Lemma weight_sum n row : weight n row = nsum n (fun j => if acts n row j then 1 else 0).
Proof. apply (filter_sum n (acts n row)). Qed.
Lemma nsum_ext n f g : (forall i, i < n -> f i = g i) -> nsum n f = nsum n g.
Proof. induction n as [|n IH]; intros E; [reflexivity|]. cbn [nsum]. rewrite IH by (intros; apply E; lia). rewrite E by lia. reflexivity. Qed.
Lemma nsum_le n f g : (forall i, i < n -> f i <= g i) -> nsum n f <= nsum n g.
Proof. induction n as [|n IH]; intros E; [reflexivity|]. cbn [nsum]. specialize (E n ltac:(lia)) as E1. specialize (IH ltac:(intros; apply E; lia)). lia. Qed.
Lemma nsum_scale n c f : nsum n (fun i => c * f i) = c * nsum n f.
Proof. induction n as [|n IH]; [cbn; lia|]. cbn [nsum]. rewrite IH. lia. Qed.
Lemma nsum_split a b f : nsum (a + b) f = nsum a f + nsum b (fun i => f (a + i)).
Proof. induction b as [|b IH]; [rewrite Nat.add_0_r; cbn; lia|]. rewrite Nat.add_succ_r. cbn [nsum]. rewrite IH. lia. Qed.
Lemma nsum_blocks n m f : nsum (n * m) f = nsum n (fun b => nsum m (fun p => f (b * m + p))).
Proof. induction n as [|n IH]; [reflexivity|]. cbn [nsum]. rewrite <- IH. replace (S n * m) with (n * m + m) by lia. apply nsum_split. Qed.
(** the rows of the blocks of a row *)
Definition block_row (n m : nat) (v : list Z) (b : nat) : list Z := map (fun p => nth (pos n m b p) v 0%Z) (seq 0 (2 * m)).
Lemma nth_block_row n m v b p : p < 2 * m -> nth p (block_row n m v b) 0%Z = nth (pos n m b p) v 0%Z.
Proof. intros Hp. unfold block_row. rewrite (nth_indep _ 0%Z (nth (pos n m b 0) v 0%Z)) by (rewrite map_length, seq_length; exact Hp). rewrite (map_nth (fun p => nth (pos n m b p) v 0%Z)), seq_nth by exact Hp. reflexivity. Qed.
Lemma weight_blocks n m v : weight (n * m) v = nsum n (fun b => weight m (block_row n m v b)).
Proof.
  rewrite weight_sum, nsum_blocks. apply nsum_ext. intros b Hb. rewrite weight_sum. apply nsum_ext. intros p Hp. unfold acts. rewrite !nth_block_row by lia. unfold pos.
  destruct (Nat.ltb_spec p m); [|lia]. destruct (Nat.ltb_spec (m + p) m); [lia|]. replace (m + p - m) with p by lia. reflexivity.
Qed.
(** ** distances multiply *)
Theorem concatenation_distance n k m XL ZL outer inner rows d1 d2 : valid_generators n k outer -> k <= n -> valid_generators m 1 inner ->
  (forall r, In r inner -> commute m r XL /\ commute m r ZL) -> ~ commute m XL ZL -> concatenation n n m (fun j => j) (fun _ => XL) (fun _ => ZL) outer inner rows ->
  distance_at_least n outer d1 -> distance_at_least m inner d2 -> distance_at_least (n * m) rows (d1 * d2).
Proof.
  intros VO Hk VI LL XZ CC D1 D2 v Lv Bv Cv W. destruct (concatenation_rows n k m XL ZL outer inner rows VO Hk VI CC) as (LR & RB & RE).
  destruct VI as (P2 & N2 & L2 & B2 & C2 & I2). assert (M1 : 1 <= m) by lia. rewrite N2 in *.
  apply indep2_b in I2. rewrite N2 in I2.
  assert (CG : forall q q', q < m - 1 -> q' < m - 1 -> ip m (brows inner q) (brows inner q') = false) by (intros q q' Hq Hq'; apply commute_ip, C2; apply nth_In; lia).
  assert (GL : forall q, q < m - 1 -> ip m (brows inner q) (brow XL) = false /\ ip m (brows inner q) (brow ZL) = false) by (intros q Hq; assert (HI : In (nth q inner []) inner) by (apply nth_In; lia); destruct (LL _ HI); split; apply commute_ip; assumption).
  assert (XZ' : ip m (brow XL) (brow ZL) = true) by (rewrite commute_ip in XZ; destruct (ip m (brow XL) (brow ZL)); [reflexivity|destruct (XZ eq_refl)]).
  set (bv := brow v). assert (CR : commutes_rows n m (length outer) (brows rows) bv) by (intros x Hx; apply commute_ip, Cv, nth_In; rewrite LR; exact Hx).
  apply in_rowspace_b. rewrite LR. apply (concat_span n m (length outer) (brows inner) (brows outer) (brows rows) (brow XL) (brow ZL) M1 I2 CG GL XZ' RB RE bv CR).
  set (U := outer_part n m (brow XL) (brow ZL) bv). set (u := map (fun j => Z.b2z (U j)) (seq 0 (2 * n))).
  assert (NU : forall j, j < 2 * n -> nth j u 0%Z = Z.b2z (U j)) by (intros j Hj; unfold u; rewrite (nth_indep _ 0%Z (Z.b2z (U 0))) by (rewrite map_length, seq_length; exact Hj); rewrite (map_nth (fun j => Z.b2z (U j))), seq_nth by exact Hj; reflexivity).
  assert (BU : forall j, j < 2 * n -> brow u j = U j) by (intros j Hj; unfold brow; rewrite (NU j Hj); destruct (U j); reflexivity).
  apply (inspan_ext _ _ _ (brow u)); [exact BU|]. apply in_rowspace_b. apply D1.
  - unfold u. rewrite map_length, seq_length. reflexivity.
  - unfold u, binary. apply Forall_map, Forall_forall. intros j _. destruct (U j); auto.
  - intros r Hr. apply (In_nth _ _ []) in Hr. destruct Hr as (t & Ht & <-). apply commute_ip. rewrite (ip_ext n _ (brow (nth t outer [])) _ U); [|reflexivity|exact BU].
    apply (outer_commutes n m (length outer) (brows outer) (brows rows) (brow XL) (brow ZL) M1 RE bv t CR Ht).
  - apply (Nat.mul_lt_mono_pos_r d2); [destruct d2; [rewrite Nat.mul_0_r in W; lia|lia]|]. apply Nat.le_lt_trans with (2 := W). rewrite Nat.mul_comm, weight_sum, <- nsum_scale, weight_blocks. apply nsum_le. intros b Hb.
    destruct (Nat.lt_ge_cases (weight m (block_row n m v b)) d2) as [L|L]; [|destruct (acts n u b); lia].
    assert (BB : forall p, p < 2 * m -> brow (block_row n m v b) p = part n m bv b p) by (intros p Hp; unfold brow, part, bv, brow; rewrite nth_block_row by exact Hp; reflexivity).
    assert (IN : in_rowspace m inner (block_row n m v b)).
    { apply D2; [unfold block_row; rewrite map_length, seq_length; reflexivity| | |exact L].
      - unfold block_row, binary. apply Forall_map, Forall_forall. intros p _. apply nth_bin. exact Bv.
      - intros r Hr. apply (In_nth _ _ []) in Hr. destruct Hr as (q & Hq & <-). apply commute_ip. rewrite (ip_ext m _ (brows inner q) _ (part n m bv b)); [|reflexivity|exact BB].
        apply (part_normal n m (length outer) (brows inner) (brows rows) M1 RB bv b CR Hb). lia. }
    assert (Z0 : forall L0, (forall r, In r inner -> commute m r L0) -> ip m (part n m bv b) (brow L0) = false).
    { intros L0 HL. rewrite (ip_ext m _ (brow (block_row n m v b)) _ (brow L0)); [|intros p Hp; symmetry; apply BB; exact Hp|reflexivity]. apply commute_ip. apply (commute_rowspace m inner); assumption. }
    unfold acts. rewrite (NU b ltac:(lia)), (NU (n + b) ltac:(lia)). unfold U, outer_part. destruct (Nat.ltb_spec b n); [|lia]. destruct (Nat.ltb_spec (n + b) n); [lia|]. replace (n + b - n) with b by lia.
    rewrite !Z0; [cbn; lia| |]; intros r Hr; apply (LL r Hr).
Qed.

(** ** outer codes of distance 2 force both logical operators to be right *)
Definition single (j : nat) (x z : bool) (n : nat) : list Z := map (fun i => Z.b2z ((Nat.eqb i j && x) || (Nat.eqb i (n + j) && z))) (seq 0 (2 * n)).
Lemma brow_single n j x z i : j < n -> i < 2 * n -> brow (single j x z n) i = xorb (Nat.eqb i j && x) (Nat.eqb i (n + j) && z).
Proof.
  intros Hj Hi. unfold brow, single. rewrite (nth_map_seq (fun i => Z.b2z _)) by exact Hi. destruct (Nat.eqb_spec i j), (Nat.eqb_spec i (n + j)), x, z; try reflexivity; lia.
Qed.
Lemma ip_single n j x z u : j < n -> ip n u (brow (single j x z n)) = xorb (u j && z) (u (n + j) && x).
Proof.
  intros Hj. unfold ip. rewrite (xsum_one n j); [|exact Hj|].
  - rewrite !brow_single by lia. rewrite !Nat.eqb_refl. destruct (Nat.eqb_spec (n + j) j); [lia|]. destruct (Nat.eqb_spec j (n + j)); [lia|]. destruct (u j), (u (n + j)), x, z; reflexivity.
  - intros i Hi N. rewrite !brow_single by lia. destruct (Nat.eqb_spec i j); [contradiction|]. destruct (Nat.eqb_spec (n + i) (n + j)); [lia|]. destruct (Nat.eqb_spec (n + i) j); [lia|]. destruct (Nat.eqb_spec i (n + j)); [lia|]. cbn [andb xorb]. rewrite !andb_false_r. reflexivity.
Qed.
Lemma weight_single n j x z : j < n -> weight n (single j x z n) <= 1.
Proof.
  intros Hj. rewrite weight_sum. assert (Q : forall m, nsum m (fun i => if Nat.eqb i j then 1 else 0) <= 1 /\ (m <= j -> nsum m (fun i => if Nat.eqb i j then 1 else 0) = 0)).
  { induction m as [|m [IH1 IH2]]; [cbn; lia|]. cbn [nsum]. destruct (Nat.eqb_spec m j); lia. }
  apply Nat.le_trans with (2 := proj1 (Q n)). apply nsum_le. intros i Hi. unfold acts, single. rewrite !(nth_map_seq (fun i => Z.b2z _)) by lia.
  destruct (Nat.eqb_spec i j) as [->|N]; [destruct (_ || _); lia|]. destruct (Nat.eqb_spec i (n + j)); [lia|]. destruct (Nat.eqb_spec (n + i) (n + j)); [lia|]. destruct (Nat.eqb_spec (n + i) j); [lia|]. reflexivity.
Qed.
(** some qubit sees two different letters *)
Lemma two_letters n k outer d : valid_generators n k outer -> 1 <= k <= n -> 2 <= d -> distance_at_least n outer d ->
  exists j, j < n /\ forall x z, (x || z) = true -> exists t, t < length outer /\ xorb (brows outer t j && z) (brows outer t (n + j) && x) = true.
Proof.
  intros V Hk Hd D. pose proof V as (_ & N & _ & _ & _ & I).
  set (bad := fun j (c : bool * bool) => (fst c || snd c) = true /\ forall t, t < length outer -> xorb (brows outer t j && snd c) (brows outer t (n + j) && fst c) = false).
  assert (DEC : forall j, (exists c, bad j c) \/ (forall x z, (x || z) = true -> exists t, t < length outer /\ xorb (brows outer t j && z) (brows outer t (n + j) && x) = true)).
  { intros j. assert (ONE : forall c, (forall t, t < length outer -> xorb (brows outer t j && snd c) (brows outer t (n + j) && fst c) = false) \/ exists t, t < length outer /\ xorb (brows outer t j && snd c) (brows outer t (n + j) && fst c) = true).
    { intros c. destruct (existsb (fun t => xorb (brows outer t j && snd c) (brows outer t (n + j) && fst c)) (seq 0 (length outer))) eqn:E.
      - right. apply existsb_exists in E. destruct E as (t & Ht & E). apply in_seq in Ht. exists t. split; [lia|exact E].
      - left. intros t Ht. destruct (xorb _ _) eqn:X; [|reflexivity]. assert (Y : existsb (fun t => xorb (brows outer t j && snd c) (brows outer t (n + j) && fst c)) (seq 0 (length outer)) = true) by (apply existsb_exists; exists t; split; [apply in_seq; lia|exact X]). congruence. }
    destruct (ONE (true, false)) as [A|A]; [left; exists (true, false); split; [reflexivity|exact A]|].
    destruct (ONE (false, true)) as [B|B]; [left; exists (false, true); split; [reflexivity|exact B]|].
    destruct (ONE (true, true)) as [C|C]; [left; exists (true, true); split; [reflexivity|exact C]|].
    right. intros [|] [|] E; [exact C|exact A|exact B|discriminate E]. }
  assert (ALL : (exists j, j < n /\ forall x z, (x || z) = true -> exists t, t < length outer /\ xorb (brows outer t j && z) (brows outer t (n + j) && x) = true) \/ (forall j, j < n -> exists c, bad j c)).
  { assert (G : forall m, (exists j, j < m /\ forall x z, (x || z) = true -> exists t, t < length outer /\ xorb (brows outer t j && z) (brows outer t (n + j) && x) = true) \/ (forall j, j < m -> exists c, bad j c)).
    { induction m as [|m [(j & Hj & E)|IH]]; [right; lia|left; exists j; split; [lia|exact E]|]. destruct (DEC m) as [B|B]; [right; intros j Hj; destruct (Nat.eq_dec j m) as [->|]; [exact B|apply IH; lia]|left; exists m; split; [lia|exact B]]. }
    apply G. }
  destruct ALL as [A|A]; [exact A|exfalso]. destruct (choice_nat bad (false, false) n A) as (c & HC).
  assert (n <= length outer); [|lia]. apply (steinitz (brows outer) (length outer) (fun j => brow (single j (fst (c j)) (snd (c j)) n)) n (2 * n)).
  - intros j Hj. destruct (HC j Hj) as [_ B]. apply in_rowspace_b. apply D.
    + unfold single. rewrite map_length, seq_length. reflexivity.
    + unfold single, binary. apply Forall_map, Forall_forall. intros i _. destruct (_ || _); auto.
    + intros r Hr. apply (In_nth _ _ []) in Hr. destruct Hr as (t & Ht & <-). apply commute_ip. rewrite ip_single by exact Hj. exact (B t Ht).
    + pose proof (weight_single n j (fst (c j)) (snd (c j)) Hj). lia.
  - intros a E i Hi. destruct (HC i Hi) as [NZ _].
    assert (EX : forall l, l < 2 * n -> (l = i \/ l = n + i) -> a i && brow (single i (fst (c i)) (snd (c i)) n) l = false).
    { intros l Hl Q. rewrite <- (E l Hl). unfold comb. symmetry. apply (xsum_one n i); [exact Hi|]. intros b Hb NB. rewrite brow_single by assumption. destruct (Nat.eqb_spec l b); [lia|]. destruct (Nat.eqb_spec l (n + b)); [lia|]. apply andb_false_r. }
    pose proof (EX i ltac:(lia) (or_introl eq_refl)) as E1. pose proof (EX (n + i) ltac:(lia) (or_intror eq_refl)) as E2. rewrite brow_single in E1, E2 by lia. rewrite !Nat.eqb_refl in E1, E2.
    destruct (Nat.eqb_spec i (n + i)); [lia|]. destruct (Nat.eqb_spec (n + i) i); [lia|]. destruct (a i); [|reflexivity]. destruct (c i) as [x z]. cbn in *. destruct x, z; discriminate.
Qed.
(** if the rows commute, both operators commute with the inner generators *)
Theorem rows_force n k m XL ZL outer inner rows d : valid_generators n k outer -> 1 <= k <= n -> valid_generators m 1 inner ->
  concatenation n n m (fun j => j) (fun _ => XL) (fun _ => ZL) outer inner rows -> 2 <= d -> distance_at_least n outer d -> all_commute (n * m) rows ->
  forall r, In r inner -> commute m r XL /\ commute m r ZL.
Proof.
  intros V Hk VI CC Hd D AC r Hr. destruct (concatenation_rows n k m XL ZL outer inner rows V (proj2 Hk) VI CC) as (LR & RB & RE).
  destruct (two_letters n k outer d V Hk Hd D) as (j & Hj & TL). apply (In_nth _ _ []) in Hr. destruct Hr as (q & Hq & <-).
  assert (Q : forall t, t < length outer -> xorb (brows outer t j && ip m (brow XL) (brows inner q)) (brows outer t (n + j) && ip m (brow ZL) (brows inner q)) = false).
  { intros t Ht. rewrite <- ip_lin2. assert (C : ip (n * m) (brows rows (j * length inner + q)) (brows rows (n * length inner + t)) = false) by (apply commute_ip, AC; apply nth_In; nia).
    rewrite (ip_pos n m) in C. rewrite (xsum_one n j) in C; [|exact Hj|].
    - rewrite ip_sym. rewrite <- C. apply ip_ext; [intros p Hp; rewrite RB by assumption; rewrite Nat.eqb_refl; reflexivity|intros p Hp; symmetry; apply RE; assumption].
    - intros b Hb N. transitivity (ip m (fun _ => false) (fun p => brows rows (n * length inner + t) (pos n m b p))); [|rewrite ip_sym; apply ip_false_r]. apply ip_ext; [|reflexivity]. intros p Hp. rewrite RB by assumption. destruct (Nat.eqb_spec b j); [contradiction|reflexivity]. }
  rewrite !commute_ip. rewrite (ip_sym m _ (brow XL)), (ip_sym m _ (brow ZL)). fold (brows inner q).
  destruct (ip m (brow XL) (brows inner q)) eqn:EX, (ip m (brow ZL) (brows inner q)) eqn:EZ; try (split; reflexivity); exfalso.
  - destruct (TL true true eq_refl) as (t & Ht & X). specialize (Q t Ht). rewrite !andb_true_r in *. congruence.
  - destruct (TL false true eq_refl) as (t & Ht & X). specialize (Q t Ht). rewrite !andb_true_r, !andb_false_r in *. congruence.
  - destruct (TL true false eq_refl) as (t & Ht & X). specialize (Q t Ht). rewrite !andb_true_r, !andb_false_r in *. congruence.
Qed.
