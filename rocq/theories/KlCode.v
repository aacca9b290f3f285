(** Errors within the distance of a stabilizer code satisfy the Knill-Laflamme conditions on its
    encoder (C139). *)
From Verif Require Import Py ZMat RankSpec BoolLin Rank CodesModel CodesSpec CodesProofs Scalar PauliModel PauliSpec PauliProofs PauliProofs2 EncoderProofs KrausModel KrausSpec KrausProofs QecSpec QecProofs NoCorrectSpec NoCorrectProofs KlSpec.
From Coq Require Import Reals Lra.
Open Scope nat_scope.
Open Scope K_scope.
Add Ring CCring72 : (s_rt CC).

Lemma lcomb_insp n rows : forall c x z, length c = length rows ->
  (forall j, j < n -> x j = Z.odd (lcomb c rows j) /\ z j = Z.odd (lcomb c rows (n + j))) -> insp n rows x z.
Proof.
  induction rows as [|r l IH]; intros c x z L H; cbn [insp].
  - destruct c; [|discriminate]. exact H.
  - destruct c as [|a c]; [discriminate|]. cbn [length] in L. destruct (Z.odd a) eqn:Ea; [right|left]; apply (IH c); try lia; intros j Hj; destruct (H j Hj) as [H1 H2]; cbn [lcomb] in H1, H2; rewrite Z.odd_add, Z.odd_mul, Ea in H1, H2.
    + rewrite H1, H2. unfold xp, zp, brow. cbn [andb]. split; [destruct (Z.odd (nth j r 0%Z)), (Z.odd (lcomb c l j)); reflexivity|destruct (Z.odd (nth (n + j) r 0%Z)), (Z.odd (lcomb c l (n + j))); reflexivity].
    + rewrite H1, H2. cbn [andb]. rewrite !xorb_false_l. split; reflexivity.
Qed.
Lemma rowspace_insp n rows v : in_rowspace n rows v -> insp n rows (xp v) (zp n v).
Proof.
  intros (c & L & H). apply (lcomb_insp n rows c); [exact L|]. intros j Hj. unfold xp, zp, brow.
  assert (G : forall i, i < 2 * n -> Z.odd (nth i v 0%Z) = Z.odd (lcomb c rows i)).
  { intros i Hi. destruct (H i Hi) as [q Hq]. replace (nth i v 0%Z) with (lcomb c rows i + q * 2)%Z by lia. rewrite Z.odd_add, Z.odd_mul, andb_false_r, xorb_false_r. reflexivity. }
  split; apply G; lia.
Qed.
Section Code.
Variables (n m : nat) (E : array CC).
Let N := (2 ^ n)%nat.
Lemma insp_fixes rows : (forall r, In r rows -> eqm N m (mm N (P n r) E) E) -> forall x z, insp n rows x z -> exists s, eqm N m (mm N (pm n x z) E) (scale (sgn s) E).
Proof.
  induction rows as [|r l IH]; intros FX x z H; cbn [insp] in H.
  - exists false. intros i j Hi Hj. unfold scale. cbn [sgn]. transitivity (mm N eye E i j).
    + apply (mm_congr_l N N); [|exact Hi]. intros u v Hu Hv. rewrite (pm_ext n x z (fun _ => false) (fun _ => false) H). apply pm_id; assumption.
    + rewrite mm_eye_l by exact Hi. ring.
  - assert (FL : forall r0, In r0 l -> eqm N m (mm N (P n r0) E) E) by (intros; apply FX; right; assumption).
    destruct H as [H|H]; destruct (IH FL _ _ H) as (s & G); [exists s; exact G|].
    exists (xorb (xsum n (fun t => z t && xp r t)) s). intros i j Hi Hj. unfold scale. rewrite sgn_xorb.
    transitivity (mm N (pm n x z) (mm N (P n r) E) i j).
    + apply mm_congr_r. intros u Hu. symmetry. apply (FX r (or_introl eq_refl)); assumption.
    + rewrite <- mm_assoc. transitivity (mm N (fun u v => sgn (xsum n (fun t => z t && xp r t)) * pm n (fun t => xorb (x t) (xp r t)) (fun t => xorb (z t) (zp n r t)) u v) E i j).
      * apply (mm_congr_l N N); [|exact Hi]. intros u v Hu Hv. apply pm_mul; assumption.
      * rewrite mm_scale_l, G by assumption. unfold scale. ring.
Qed.
Variables (rows : list (list Z)) (Ss : list (marr CC)) (t : nat).
Hypothesis IS : eqm m m (mm N (adj E) E) eye.
Hypothesis FX : forall S, In S Ss -> eqm N m (mm N (me S) E) E.
Hypothesis FS : Forall2 (fun r S => mr S = N /\ mc S = N /\ eqm N N (me S) (P n r)) rows Ss.
Hypothesis DI : distance_at_least n rows (2 * t + 1).
Lemma row_fixes r : In r rows -> eqm N m (mm N (P n r) E) E.
Proof.
  intros Hr. destruct (in_row n rows Ss r FS Hr) as (U & HU & _ & _ & U3). intros i j Hi Hj. rewrite <- (mm_congr_l N N _ _ E i j U3 Hi). apply FX; assumption.
Qed.
(** E^dagger P_v E is a multiple of the identity when v acts on at most 2t qubits *)
Lemma small_multiple v : length v = (2 * n)%nat -> binary v -> weight n v < 2 * t + 1 -> exists z : CC, eqm m m (mm N (adj E) (mm N (P n v) E)) (scale z eye).
Proof.
  intros L B Wv. destruct (existsb (fun r => ip n (brow r) (brow v)) rows) eqn:Ex.
  - apply existsb_exists in Ex. destruct Ex as (r & Hr & Hip). exists 0. intros i j Hi Hj.
    rewrite (detected_orthogonal n m E rows Ss FX FS v r 1 (P n v) Hr Hip); [unfold scale; ring| |exact Hi|exact Hj]. intros u w _ _. unfold scale. ring.
  - assert (C : forall r, In r rows -> commute n r v).
    { intros r Hr. apply commute_ip. destruct (ip n (brow r) (brow v)) eqn:G; [|reflexivity]. rewrite <- Ex. symmetry. apply existsb_exists. exists r. split; assumption. }
    destruct (insp_fixes rows row_fixes _ _ (rowspace_insp n rows v (DI v L B C Wv))) as (s & G). exists (sgn s). intros i j Hi Hj.
    rewrite (mm_congr_r N (adj E) _ (scale (sgn s) E)) by (intros l Hl; apply G; assumption). unfold scale. rewrite mm_scale_r, IS by assumption. reflexivity.
Qed.
Lemma pauli_cross (A B : array CC) (al be : CC) a b : eqm N N A (scale al (P n a)) -> eqm N N B (scale be (P n b)) -> length a = (2 * n)%nat -> length b = (2 * n)%nat -> binary a -> binary b -> weight n a <= t -> weight n b <= t ->
  exists z : CC, eqm m m (mm N (adj (mm N B E)) (mm N A E)) (scale z eye).
Proof.
  intros HA HB La Lb Ba Bb Wa Wb. set (v := xor_row b a). assert (Lv : length v = (2 * n)%nat) by (unfold v; rewrite xor_row_length; lia).
  assert (Wv : weight n v < 2 * t + 1) by (pose proof (weight_xor n b a ltac:(lia) Bb Ba); unfold v; lia).
  destruct (small_multiple v Lv (xor_row_binary b a) Wv) as (z & Hz).
  set (s1 := xsum n (fun l => xp b l && zp n b l)). set (s2 := xsum n (fun l => zp n b l && xp a l)).
  assert (PP : eqm N N (mm N (adj B) A) (scale (be^* * al * sgn s1 * sgn s2) (P n v))).
  { intros i j Hi Hj. transitivity (mm N (scale (be^* * sgn s1) (P n b)) (scale al (P n a)) i j).
    - apply mm_eqm with (r := N) (c := N); [|exact HA|exact Hi|exact Hj]. intros u w Hu Hw. unfold adj. rewrite (HB w u Hw Hu). unfold scale. rewrite sconj_mul. change ((P n b w u)^* ) with (adj (P n b) u w). unfold P. rewrite pm_adj. fold s1. ring.
    - unfold scale. rewrite mm_scale_l, mm_scale_r. unfold P at 1 2. rewrite (pm_mul n (xp b) (zp n b) (xp a) (zp n a)) by assumption. fold s2. unfold P. rewrite (pm_ext n (xp v) (zp n v) (fun l => xorb (xp b l) (xp a l)) (fun l => xorb (zp n b l) (zp n a l))).
      + ring.
      + intros l Hl. unfold xp, zp, v. rewrite !xor_row_nth by lia. split; reflexivity. }
  exists (be^* * al * sgn s1 * sgn s2 * z). intros i j Hi Hj.
  rewrite (mm_congr_l m N _ (mm N (adj E) (adj B)) _ i j) by (try exact Hi; intros u w _ _; apply adj_mm). rewrite mm_assoc.
  transitivity (mm N (adj E) (fun u w => (be^* * al * sgn s1 * sgn s2) * mm N (P n v) E u w) i j).
  - apply mm_congr_r. intros l Hl. rewrite <- mm_assoc. rewrite (mm_congr_l N N _ _ E l j PP Hl). unfold scale. apply mm_scale_l.
  - rewrite mm_scale_r, (Hz i j Hi Hj). unfold scale. ring.
Qed.
Definition few (M : marr CC) : Prop := exists a b, pauli_multiple_of n a b M /\ weight n b <= t.
Hypothesis Hn : 1 <= n.
Lemma few_cross M M' : few M -> few M' -> exists z : CC, eqm m m (mm N (adj (mm N (me M') E)) (mm N (me M) E)) (scale z eye).
Proof.
  intros (al & a & HA & Wa) (be & b & HB & Wb). pose proof (multiple_form n al a M Hn HA) as FA. pose proof (multiple_form n be b M' Hn HB) as FB. destruct HA as (_ & _ & La & Ba & _). destruct HB as (_ & _ & Lb & Bb & _).
  exact (pauli_cross (me M) (me M') al be a b FA FB La Lb Ba Bb Wa Wb).
Qed.
Definition msum (Ms : list (marr CC)) : array CC := fun i j => ksum (map (fun M => me M i j) Ms).
Lemma msum_mm Ms i j : mm N (msum Ms) E i j = ksum (map (fun M => mm N (me M) E i j) Ms).
Proof.
  unfold msum. induction Ms as [|M l IH]; cbn [map]; [apply bsum_zero; intros; unfold ksum; cbn [fold_right]; ring|].
  change (ksum (mm N (me M) E i j :: map (fun M => mm N (me M) E i j) l)) with (mm N (me M) E i j + ksum (map (fun M => mm N (me M) E i j) l)). rewrite <- IH. unfold mm. rewrite <- bsum_add. apply bsum_ext. intros k Hk.
  change (ksum (me M i k :: map (fun M => me M i k) l)) with (me M i k + ksum (map (fun M => me M i k) l)). ring.
Qed.
Lemma cross_l Ms B : Forall few Ms -> few B -> exists z : CC, eqm m m (mm N (adj (mm N (me B) E)) (mm N (msum Ms) E)) (scale z eye).
Proof.
  intros FM HB. induction FM as [|M l HM FM (z & IH)].
  - exists 0. intros i j Hi Hj. transitivity (0 : CC); [|unfold scale; ring]. apply bsum_zero. intros k Hk. rewrite msum_mm. unfold ksum. cbn [map fold_right]. ring.
  - destruct (few_cross M B HM HB) as (y & Hy). exists (y + z). intros i j Hi Hj.
    transitivity (mm N (adj (mm N (me B) E)) (fun u v => mm N (me M) E u v + mm N (msum l) E u v) i j).
    + apply mm_congr_r. intros k Hk. rewrite !msum_mm. reflexivity.
    + rewrite mm_add_r, Hy, IH by assumption. unfold scale. ring.
Qed.
Lemma cross_r Ms Ms' : Forall few Ms -> Forall few Ms' -> exists z : CC, eqm m m (mm N (adj (mm N (msum Ms') E)) (mm N (msum Ms) E)) (scale z eye).
Proof.
  intros FM FM'. induction FM' as [|M l HM FM' (z & IH)].
  - exists 0. intros i j Hi Hj. transitivity (0 : CC); [|unfold scale; ring]. apply bsum_zero. intros k Hk. unfold adj. rewrite msum_mm. unfold ksum. cbn [map fold_right]. rewrite sconj_0. ring.
  - destruct (cross_l Ms M FM HM) as (y & Hy). exists (y + z). intros i j Hi Hj.
    transitivity (mm N (fun u v => adj (mm N (me M) E) u v + adj (mm N (msum l) E) u v) (mm N (msum Ms) E) i j).
    + apply (mm_congr_l m N); [|exact Hi]. intros u v _ _. unfold adj. rewrite <- sconj_add. f_equal. rewrite !msum_mm. reflexivity.
    + rewrite mm_add_l, Hy, IH by assumption. unfold scale. ring.
Qed.
Theorem code_correctable ops : Forall (acts_on_few n t) ops -> correctable N N m ops E.
Proof.
  intros F A B HA HB. rewrite Forall_forall in F. destruct (F A HA) as (_ & _ & Ms & FM & EM). destruct (F B HB) as (_ & _ & Ms' & FM' & EM').
  destruct (cross_r Ms Ms' FM FM') as (z & Hz). exists z. intros i j Hi Hj. rewrite <- (Hz i j Hi Hj).
  apply mm_eqm with (r := m) (c := m); [| |exact Hi|exact Hj].
  - intros u v Hu Hv. unfold adj. f_equal. apply (mm_congr_l N N); [|exact Hv]. exact EM'.
  - intros u v Hu Hv. apply (mm_congr_l N N); [|exact Hu]. exact EM.
Qed.
End Code.
