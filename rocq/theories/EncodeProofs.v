(** Encoded states: h^r prod (I + g_i) |codeword>, for an abstract normal form. *)
From Verif Require Import Py ZMat CodesModel BoolLin Rank Gauss Gauss2 Logical Scalar CircuitModel CircuitSpec CircuitProofs.
Open Scope nat_scope.

(** parity of the number of Ys is preserved by the normal form *)
Definition ypar (n : nat) (u : nat -> bool) : bool := xsum n (fun j => u j && u (n + j)).
Lemma ypar_ext n u v : (forall j, j < 2 * n -> u j = v j) -> ypar n u = ypar n v.
Proof. intros H. apply xsum_ext; intros j Hj. rewrite !H by lia. reflexivity. Qed.
Lemma ypar_xor n u v : ypar n (fun j => xorb (u j) (v j)) = xorb (ypar n u) (xorb (ypar n v) (ip n u v)).
Proof.
  unfold ypar, ip. rewrite <- !xsum_xor. apply xsum_ext; intros j Hj.
  destruct (u j), (v j), (u (n + j)), (v (n + j)); reflexivity.
Qed.
Lemma ypar_comb n s m a f : m <= s -> commuting n s f -> (forall i, i < s -> ypar n (f i) = false) -> ypar n (comb m a f) = false.
Proof.
  intros Hm C E. induction m as [|m IH]; [apply xsum_zero; reflexivity|].
  change (comb (S m) a f) with (fun j => xorb (comb m a f j) (a m && f m j)).
  rewrite ypar_xor, IH by lia.
  assert (Ea : ypar n (fun j => a m && f m j) = false).
  { destruct (a m); cbn [andb]; [apply E; lia|apply xsum_zero; reflexivity]. }
  rewrite Ea, ip_comb_l, xsum_zero; [reflexivity|]. intros i Hi. replace (ip n (f i) (fun j => a m && f m j)) with false; [apply andb_false_r|].
  symmetry. destruct (a m); cbn [andb]; [apply C; lia|apply xsum_zero; intros; rewrite !andb_false_r; reflexivity].
Qed.
Lemma ypar_lift n p q u : perm n p q -> ypar n (fun j => u (Gauss.lift n p j)) = ypar n u.
Proof.
  intros Hp. unfold ypar. rewrite <- (xsum_perm n p q (fun j => u j && u (n + j)) Hp). apply xsum_ext; intros j Hj. unfold Gauss.lift.
  destruct (Nat.ltb_spec j n); [|lia]. destruct (Nat.ltb_spec (n + j) n); [lia|]. replace (n + j - n) with j by lia. reflexivity.
Qed.
Lemma rel_ypar n s f f' : rel n s f f' -> commuting n s f -> (forall i, i < s -> ypar n (f i) = false) -> forall i, i < s -> ypar n (f' i) = false.
Proof.
  intros (p & q & Hp & A & _) C E i Hi. destruct (A i Hi) as (a & Ha). rewrite (ypar_ext n _ _ Ha).
  apply (ypar_comb n s s); [lia| |].
  - intros u v Hu Hv. rewrite (ip_lift n p q) by exact Hp. apply C; assumption.
  - intros l Hl. rewrite (ypar_lift n p q) by exact Hp. apply E; exact Hl.
Qed.

Section Enc.
Context {K : StarRing}.
Variables h im : K.
Add Ring KringE : (s_rt K).
Variables n k s r : nat.
Variable f : nat -> nat -> bool.
Hypothesis Es : s = n - k.
Hypothesis Hk : k <= n.
Hypothesis Hr : r <= s.
Hypothesis U : unitx s r f.
Hypothesis Lx : lowx n s r f.
Hypothesis V : unitz n s r s f.
Hypothesis C : commuting n s f.
Hypothesis EY : forall i, i < s -> ypar n (f i) = false.
Notation fx := (fx n s r f).
Notation fz := (fz n s r f).
Implicit Types psi phi : @state K.

Open Scope K_scope.
Definition prow (v : nat -> bool) psi : state := pact n v (fun j => v (n + j)%nat) psi.
Fixpoint encs (m : nat) phi : state :=
  match m with O => phi | S m' => sscale h (splus (encs m' phi) (prow (f m') (encs m' phi))) end.
Definition cwf (b : nat -> bool) (j : nat) : bool :=
  if Nat.ltb j r then false else if Nat.ltb j s then xsum k (fun i => b i && fx i j) else b (j - s)%nat.
Definition cw b := tab (cwf b) n.
Definition enc (b : nat -> bool) : state := encs r (ket (cw b)).

Lemma prow_eqs v psi phi : eqs n psi phi -> eqs n (prow v psi) (prow v phi).
Proof. apply pact_eqs. Qed.
Lemma encs_eqs m psi phi : eqs n psi phi -> eqs n (encs m psi) (encs m phi).
Proof.
  intros H. induction m as [|m IH]; [exact H|]. intros y Hy. cbn [encs]. unfold sscale, splus. rewrite IH by exact Hy.
  rewrite (prow_eqs _ _ _ IH y Hy). reflexivity.
Qed.
Lemma prow_commute u v psi : ip n u v = false -> eqs n (prow u (prow v psi)) (prow v (prow u psi)).
Proof. intros H. apply pact_commute; [lia|exact H]. Qed.
Lemma encs_commute m v psi : m <= r -> (forall i, i < m -> ip n (f i) v = false) -> eqs n (prow v (encs m psi)) (encs m (prow v psi)).
Proof.
  intros Hm H. induction m as [|m IH]; [apply eqs_refl|]. cbn [encs]. intros y Hy.
  assert (IH' : eqs n (prow v (encs m psi)) (encs m (prow v psi))) by (apply IH; [lia|intros; apply H; lia]).
  unfold prow at 1. rewrite pact_scale, pact_plus. fold (prow v (encs m psi)). fold (prow v (prow (f m) (encs m psi))).
  unfold sscale, splus. rewrite (prow_commute v (f m) (encs m psi)) by (try exact Hy; rewrite ip_sym; apply H; lia).
  rewrite (prow_eqs (f m) _ _ IH' y Hy). rewrite (IH' y Hy). reflexivity.
Qed.
Lemma prow_square v psi : ypar n v = false -> eqs n (prow v (prow v psi)) psi.
Proof. intros H. apply pact_square; [lia|exact H]. Qed.
Lemma encs_fixed m i psi : i < m -> m <= r -> eqs n (prow (f i) (encs m psi)) (encs m psi).
Proof.
  intros Hi Hm. induction m as [|m IH]; [lia|]. intros y Hy. cbn [encs]. unfold prow at 1. rewrite pact_scale, pact_plus.
  fold (prow (f i) (encs m psi)). fold (prow (f i) (prow (f m) (encs m psi))). unfold sscale, splus. f_equal.
  destruct (Nat.eq_dec i m) as [->|Ne].
  - rewrite (prow_square (f m) (encs m psi) (EY m ltac:(lia)) y Hy). ring.
  - rewrite (prow_commute (f i) (f m) (encs m psi) (C i m ltac:(lia) ltac:(lia)) y Hy).
    assert (IH' : eqs n (prow (f i) (encs m psi)) (encs m psi)) by (apply IH; lia).
    rewrite (prow_eqs (f m) _ _ IH' y Hy). rewrite (IH' y Hy). reflexivity.
Qed.

Lemma cw_length b : length (cw b) = n. Proof. apply tab_length. Qed.
Lemma getb_cw b j : j < n -> getb (cw b) j = cwf b j. Proof. apply getb_tab. Qed.
Lemma cwf_lo b j : j < r -> cwf b j = false.
Proof. intros H. unfold cwf. destruct (Nat.ltb_spec j r); [reflexivity|lia]. Qed.
Lemma cwf_hi b l : cwf b (s + l)%nat = b l.
Proof. unfold cwf. destruct (Nat.ltb_spec (s + l) r); [lia|]. destruct (Nat.ltb_spec (s + l) s); [lia|]. f_equal; lia. Qed.
Lemma cwf_mid b j : r <= j < s -> cwf b j = xsum k (fun i => b i && fx i j).
Proof. intros H. unfold cwf. destruct (Nat.ltb_spec j r); [lia|]. destruct (Nat.ltb_spec j s); [reflexivity|lia]. Qed.

Lemma cw_ext b b' : (forall i, i < k -> b i = b' i) -> cw b = cw b'.
Proof.
  intros H. apply bits_eq; [rewrite !cw_length; reflexivity|]. rewrite cw_length. intros j Hj. rewrite !getb_cw by exact Hj.
  destruct (Nat.lt_ge_cases j r) as [L|L]; [rewrite !cwf_lo by exact L; reflexivity|].
  destruct (Nat.lt_ge_cases j s) as [L'|L'].
  - rewrite !cwf_mid by lia. apply xsum_ext; intros i Hi. rewrite H by exact Hi. reflexivity.
  - replace j with (s + (j - s))%nat by lia. rewrite !cwf_hi. apply H. lia.
Qed.

(** rows of the second kind fix the codewords *)
Lemma prow_low b i : r <= i < s -> eqs n (prow (f i) (ket (cw b))) (ket (cw b)).
Proof.
  intros Hi y Hy. unfold prow. rewrite pact_ket by (rewrite cw_length; (lia || exact Hy)).
  rewrite (xorv_ext n (f i) (fun _ => false)) by (intros j Hj; apply Lx; assumption). rewrite xorv_false.
  replace (xsum n (fun j => f i (n + j)%nat && getb (cw b) j)) with false; [cbn [sgn]; ring|]. symmetry.
  rewrite (xsum_ext n _ (fun j => f i (n + j)%nat && cwf b j)) by (intros j Hj; rewrite getb_cw by exact Hj; reflexivity).
  rewrite (Logical.xsum3 n k s r Es Hk Hr).
  rewrite (xsum_zero r) by (intros l Hl; rewrite cwf_lo by exact Hl; apply andb_false_r).
  rewrite (xsum_ext (s - r) _ (fun l => Nat.eqb l (i - r) && cwf b (r + l)%nat)).
  2:{ intros l Hl. rewrite V by lia. f_equal. destruct (Nat.eqb_spec i (r + l)), (Nat.eqb_spec l (i - r)); try reflexivity; lia. }
  rewrite xsum_delta by lia. replace (r + (i - r))%nat with i by lia. rewrite cwf_mid by exact Hi.
  rewrite (xsum_ext k (fun l => f i (n + (s + l))%nat && cwf b (s + l)%nat) (fun l => b l && fx l i)); [apply xorb_nilpotent || (rewrite xorb_false_l; apply xorb_nilpotent)|].
  intros l Hl. rewrite cwf_hi, andb_comm. f_equal. replace i with (r + (i - r))%nat at 2 by lia.
  rewrite (Logical.fx_mid n k s r Es Hk Hr) by lia. f_equal; lia.
Qed.

Theorem enc_stabilized b i : i < s -> eqs n (prow (f i) (enc b)) (enc b).
Proof.
  intros Hi. destruct (Nat.lt_ge_cases i r) as [L|L]; [apply encs_fixed; lia|].
  apply (eqs_trans n _ (encs r (prow (f i) (ket (cw b))))).
  - apply encs_commute; [lia|]. intros j Hj. apply C; lia.
  - apply encs_eqs, prow_low. lia.
Qed.

(** logical operators *)
Definition flip (b : nat -> bool) (i : nat) : nat -> bool := fun j => xorb (b j) (Nat.eqb i j).
Lemma prow_fx_ket b i : i < k -> eqs n (prow (fx i) (ket (cw b))) (ket (cw (flip b i))).
Proof.
  intros Hi y Hy. unfold prow. rewrite pact_ket by (rewrite cw_length; (lia || exact Hy)).
  replace (xsum n (fun j => fx i (n + j)%nat && getb (cw b) j)) with false.
  - cbn [sgn]. replace (xorv n (fx i) (cw b)) with (cw (flip b i)); [ring|].
    apply bits_eq; [rewrite xorv_length, !cw_length; reflexivity|]. rewrite cw_length. intros j Hj.
    rewrite getb_xorv_in by (rewrite ?cw_length; lia). rewrite !getb_cw by exact Hj.
    destruct (Nat.lt_ge_cases j r) as [L|L]; [rewrite !cwf_lo by exact L; rewrite (Logical.fx_lo n k s r Es Hk Hr) by exact L; reflexivity|].
    destruct (Nat.lt_ge_cases j s) as [L'|L'].
    + rewrite !cwf_mid by lia. unfold flip. 
      rewrite (xsum_ext k _ (fun l => xorb (b l && fx l j) (Nat.eqb l i && fx l j))).
      2:{ intros l Hl. rewrite (Nat.eqb_sym i l). destruct (b l), (Nat.eqb l i), (fx l j); reflexivity. }
      rewrite xsum_xor, (xsum_delta k i (fun l => fx l j)) by exact Hi. reflexivity.
    + replace j with (s + (j - s))%nat by lia. rewrite !cwf_hi, (Logical.fx_hi n k s r Es Hk Hr) by lia. reflexivity.
  - symmetry. apply xsum_zero. intros j Hj. rewrite getb_cw by exact Hj.
    destruct (Nat.lt_ge_cases j r) as [L|L]; [rewrite cwf_lo by exact L; apply andb_false_r|]. 
    rewrite (Logical.fx_zhi n k s r Es Hk Hr) by assumption. reflexivity.
Qed.
Lemma prow_fz_ket b i : i < k -> eqs n (prow (fz i) (ket (cw b))) (sscale (sgn (b i)) (ket (cw b))).
Proof.
  intros Hi y Hy. unfold prow, sscale. rewrite pact_ket by (rewrite cw_length; (lia || exact Hy)).
  rewrite (xorv_ext n (fz i) (fun _ => false)) by (intros j Hj; apply (Logical.fz_x n k s r Es Hk Hr f i j Hj)). rewrite xorv_false. f_equal. f_equal.
  rewrite (xsum_ext n _ (fun j => fz i (n + j)%nat && cwf b j)) by (intros j Hj; rewrite getb_cw by exact Hj; reflexivity).
  rewrite (Logical.xsum3 n k s r Es Hk Hr).
  rewrite (xsum_zero r) by (intros l Hl; rewrite cwf_lo by exact Hl; apply andb_false_r).
  rewrite (xsum_zero (s - r)) by (intros l Hl; rewrite (Logical.fz_mid n k s r Es Hk Hr) by assumption; reflexivity).
  rewrite (xsum_ext k _ (fun l => Nat.eqb l i && b l)).
  2:{ intros l Hl. rewrite cwf_hi, (Logical.fz_hi n k s r Es Hk Hr) by assumption. rewrite Nat.eqb_sym. reflexivity. }
  rewrite xsum_delta by exact Hi. rewrite !xorb_false_l. reflexivity.
Qed.
Lemma enc_ext b b' : (forall i, i < k -> b i = b' i) -> enc b = enc b'.
Proof. intros H. unfold enc. rewrite (cw_ext b b' H). reflexivity. Qed.
Theorem enc_fx b i : i < k -> eqs n (prow (fx i) (enc b)) (enc (flip b i)).
Proof.
  intros Hi. apply (eqs_trans n _ (encs r (prow (fx i) (ket (cw b))))).
  - apply encs_commute; [lia|]. intros j Hj. apply (Logical.ip_f_fx n k s r); (assumption || lia).
  - apply encs_eqs, prow_fx_ket, Hi.
Qed.
Lemma encs_scale m a psi : eqs n (encs m (sscale a psi)) (sscale a (encs m psi)).
Proof.
  induction m as [|m IH]; [apply eqs_refl|]. intros y Hy. cbn [encs]. unfold sscale at 1, splus at 1.
  rewrite (prow_eqs (f m) _ _ IH y Hy), (IH y Hy). unfold prow at 1. rewrite pact_scale. fold (prow (f m) (encs m psi)).
  unfold sscale, splus. ring.
Qed.
Theorem enc_fz b i : i < k -> eqs n (prow (fz i) (enc b)) (sscale (sgn (b i)) (enc b)).
Proof.
  intros Hi. apply (eqs_trans n _ (encs r (prow (fz i) (ket (cw b))))).
  - apply encs_commute; [lia|]. intros j Hj. apply (Logical.ip_f_fz n k s r); (assumption || lia).
  - apply (eqs_trans n _ (encs r (sscale (sgn (b i)) (ket (cw b))))); [apply encs_eqs, prow_fz_ket, Hi|apply encs_scale].
Qed.

(** ** the circuit *)
Notation exec := (exec h im).

Lemma stage outs i x z psi : i < n -> x i = true -> (forall y, length y = n -> getb y i = true -> psi y = 0) ->
  eqs n (exec outs (Gate [] GH i :: levs [i] (fun j => negb (Nat.eqb j i) && x j) (fun j => negb (Nat.eqb j i) && z j) (seq O n)) psi)
        (sscale h (splus psi (pact n x z psi))).
Proof.
  intros Hi Xi H0 y Hy. cbn [CircuitSpec.exec].
  rewrite exec_paulis; [|lia|intros c [<-|[]] _; rewrite Nat.eqb_refl; split; reflexivity].
  set (phi := apply_gate h im [] GH i psi).
  assert (P : forall y, length y = n -> phi y = h * psi (setb y i false)).
  { intros w Hw. unfold phi, apply_gate. cbn [forallb]. rewrite (H0 (setb w i true)).
    - destruct (getb w i); cbn [gate_entry]; ring.
    - rewrite setb_length; exact Hw.
    - rewrite getb_setb, Nat.eqb_refl by lia. reflexivity. }
  cbn [forallb]. rewrite andb_true_r. unfold sscale, splus. destruct (getb y i) eqn:E.
  - rewrite (H0 y Hy E). unfold pact. rewrite P by (rewrite xorv_length; exact Hy).
    replace (setb (xorv n (fun j => negb (Nat.eqb j i) && x j) y) i false) with (xorv n x y).
    + rewrite (xsum_ext n _ (fun j => z j && xorb (getb y j) (x j))); [ring|]. intros j Hj.
      destruct (Nat.eqb_spec j i) as [->|Ne]; cbn [negb andb]; [|reflexivity]. rewrite E, Xi. cbn. rewrite andb_false_r. reflexivity.
    + apply bits_eq; [rewrite setb_length, !xorv_length; reflexivity|]. rewrite xorv_length. intros j Hj.
      rewrite getb_setb by (rewrite xorv_length; exact Hj). rewrite !getb_xorv_in by lia.
      destruct (Nat.eqb_spec j i) as [->|Ne]; cbn [negb andb]; [rewrite E, Xi|]; reflexivity.
  - rewrite P by exact Hy. replace (setb y i false) with y by (rewrite <- E; symmetry; apply setb_same).
    unfold pact. rewrite (H0 (xorv n x y)); [ring|rewrite xorv_length; exact Hy|].
    rewrite getb_xorv_in, E, Xi by lia. reflexivity.
Qed.

Definition stage_events (i : nat) : list event :=
  Gate [] GH i :: levs [i] (fun j => negb (Nat.eqb j i) && f i j) (fun j => negb (Nat.eqb j i) && f i (n + j)%nat) (seq O n).
Lemma stage_gate i : forallb gate_only (stage_events i) = true.
Proof. cbn. apply levs_gate. Qed.

(** qubits that the first m stages leave in |0> *)
Lemma encs_support m psi i : m <= i < r -> (forall y, length y = n -> getb y i = true -> psi y = 0) ->
  forall y, length y = n -> getb y i = true -> encs m psi y = 0.
Proof.
  intros Hm H. induction m as [|m IH]; [exact H|]. intros y Hy E. cbn [encs]. unfold sscale, splus, prow, pact.
  rewrite (IH ltac:(lia) y Hy E), (IH ltac:(lia) (xorv n (f m) y)); [ring|rewrite xorv_length; exact Hy|].
  rewrite getb_xorv_in, E by lia. rewrite U by lia. destruct (Nat.eqb_spec m i); [lia|reflexivity].
Qed.
Lemma stages outs m psi : m <= r -> (forall i y, i < r -> length y = n -> getb y i = true -> psi y = 0) ->
  eqs n (exec outs (flat_map stage_events (seq O m)) psi) (encs m psi).
Proof.
  intros Hm H. induction m as [|m IH]; [apply eqs_refl|].
  rewrite seq_S, flat_map_app. cbn [flat_map Nat.add]. rewrite app_nil_r.
  rewrite exec_app by (apply forallb_flat_map; intros; apply stage_gate).
  apply (eqs_trans n _ (exec outs (stage_events m) (encs m psi))).
  - apply exec_eqs; [reflexivity|apply stage_gate|apply IH; lia].
  - cbn [encs]. unfold stage_events. apply (stage outs m (f m) (fun j => f m (n + j)%nat)); [lia| |].
    + rewrite U by lia. apply Nat.eqb_refl.
    + apply encs_support; [lia|]. intros y. apply (H m y). lia.
Qed.

(** first stage: the message in the last k qubits *)
Definition msg_x (b : nat -> bool) (j : nat) : bool := Nat.leb s j && b (j - s)%nat.
Definition cw1 (b : nat -> bool) := tab (msg_x b) n.
Lemma zero_ket_tab : zero_ket (K := K) n = ket (tab (fun _ => false) n).
Proof.
  unfold zero_ket. f_equal. apply bits_eq; [rewrite repeat_length, tab_length; reflexivity|]. rewrite repeat_length. intros j Hj.
  rewrite getb_tab by exact Hj. unfold getb. apply nth_repeat.
Qed.
Lemma stage1 outs b : eqs n (exec outs (levs [] (msg_x b) (fun _ => false) (seq O n)) (zero_ket n)) (ket (cw1 b)).
Proof.
  intros y Hy. rewrite exec_paulis by (lia || intros c []). cbn [forallb]. rewrite zero_ket_tab, pact_ket by (rewrite ?tab_length; lia).
  cbn [andb]. rewrite xsum_0. replace (xorv n (msg_x b) (tab (fun _ => false) n)) with (cw1 b); [cbn [sgn]; ring|].
  unfold cw1. apply bits_eq; [rewrite xorv_length, !tab_length; reflexivity|]. rewrite tab_length. intros j Hj.
  rewrite getb_xorv_in by (rewrite ?tab_length; lia). rewrite !getb_tab by exact Hj. symmetry; apply xorb_false_l.
Qed.

(** second stage: the bits r..s-1, message qubits k-1 .. 0 in turn *)
Definition mid_x (i j : nat) : bool := Nat.leb r j && Nat.ltb j s && fx i j.
Definition mid_events (i : nat) : list event := levs [(s + i)%nat] (mid_x i) (fun _ => false) (seq O n).
(** the codeword once message qubits of index at least i have been used *)
Definition cw2f (b : nat -> bool) (i j : nat) : bool :=
  if Nat.ltb j r then false
  else if Nat.ltb j s then xsum k (fun l => (Nat.leb i l && b l) && fx l j) else b (j - s)%nat.
Lemma stage2_step outs b i : i < k -> eqs n (exec outs (mid_events i) (ket (tab (cw2f b (S i)) n))) (ket (tab (cw2f b i) n)).
Proof.
  intros Hi y Hy. unfold mid_events. rewrite exec_paulis.
  2: lia. 2:{ intros c [<-|[]] _. split; [|reflexivity]. unfold mid_x. destruct (Nat.ltb_spec (s + i) s); [lia|]. rewrite andb_false_r. reflexivity. }
  cbn [forallb]. rewrite andb_true_r.
  assert (Step : forall j, j < n -> cw2f b i j = xorb (cw2f b (S i) j) (b i && mid_x i j)).
  { intros j Hj. unfold cw2f, mid_x. destruct (Nat.ltb_spec j r) as [L|L].
    - destruct (Nat.leb_spec r j); [lia|]. rewrite andb_false_r. reflexivity.
    - destruct (Nat.ltb_spec j s) as [L'|L'].
      + destruct (Nat.leb_spec r j); [|lia]. cbn [andb].
        rewrite (xsum_ext k (fun l => Nat.leb i l && b l && fx l j) (fun l => xorb (Nat.leb (S i) l && b l && fx l j) (Nat.eqb l i && (b l && fx l j)))).
        * rewrite xsum_xor, xsum_delta by exact Hi. reflexivity.
        * intros l Hl. destruct (Nat.leb_spec i l), (Nat.leb_spec (S i) l), (Nat.eqb_spec l i); try lia; destruct (b l), (fx l j); reflexivity.
      + rewrite !andb_false_r. rewrite xorb_false_r. reflexivity. }
  assert (Bi : forall j, getb (tab (cw2f b j) n) (s + i) = b i).
  { intros j. rewrite getb_tab by lia. unfold cw2f. destruct (Nat.ltb_spec (s + i) r); [lia|]. destruct (Nat.ltb_spec (s + i) s); [lia|]. f_equal; lia. }
  destruct (b i) eqn:Eb.
  - assert (Ev : xorv n (mid_x i) (tab (cw2f b (S i)) n) = tab (cw2f b i) n).
    { apply bits_eq; [rewrite xorv_length, !tab_length; reflexivity|]. rewrite xorv_length, tab_length. intros j Hj.
      rewrite getb_xorv_in by (rewrite ?tab_length; lia). rewrite !getb_tab, Step by exact Hj. reflexivity. }
    destruct (getb y (s + i)) eqn:Ey.
    + rewrite pact_ket by (rewrite tab_length; lia). cbn [andb]. rewrite xsum_0, Ev. cbn [sgn]. ring.
    + unfold ket. destruct (list_eq_dec bool_dec y _) as [E|_]; [rewrite E, Bi in Ey; discriminate|].
      destruct (list_eq_dec bool_dec y _) as [E|_]; [rewrite E, Bi in Ey; discriminate|reflexivity].
  - assert (Ev : tab (cw2f b (S i)) n = tab (cw2f b i) n).
    { apply bits_eq; [rewrite !tab_length; reflexivity|]. rewrite tab_length. intros j Hj. rewrite !getb_tab, Step by exact Hj. symmetry; apply xorb_false_r. }
    destruct (getb y (s + i)) eqn:Ey.
    + rewrite pact_ket by (rewrite tab_length; lia). cbn [andb]. rewrite xsum_0. cbn [sgn].
      unfold ket. destruct (list_eq_dec bool_dec y (xorv n (mid_x i) (tab (cw2f b (S i)) n))) as [E|_].
      { exfalso. rewrite E in Ey. rewrite getb_xorv_in, Bi in Ey by (rewrite ?tab_length; lia). unfold mid_x in Ey.
        destruct (Nat.ltb_spec (s + i) s); [lia|]. rewrite andb_false_r in Ey. discriminate. }
      destruct (list_eq_dec bool_dec y _) as [E|_]; [rewrite E, Bi in Ey; discriminate|ring].
    + rewrite Ev. reflexivity.
Qed.
Lemma mid_gate i : forallb gate_only (mid_events i) = true. Proof. apply levs_gate. Qed.
Lemma stage2 outs b m : m <= k -> eqs n (exec outs (flat_map mid_events (rev (seq O m))) (ket (tab (cw2f b m) n))) (ket (tab (cw2f b O) n)).
Proof.
  induction m as [|m IH]; intros Hm; [apply eqs_refl|]. rewrite seq_S, rev_app_distr. cbn [rev app flat_map Nat.add].
  rewrite exec_app by apply mid_gate.
  apply (eqs_trans n _ (exec outs (flat_map mid_events (rev (seq O m))) (ket (tab (cw2f b m) n)))); [|apply IH; lia].
  apply exec_eqs; [reflexivity|apply forallb_flat_map; intros; apply mid_gate|]. apply stage2_step. lia.
Qed.
Lemma cw2_first b : tab (cw2f b k) n = cw1 b.
Proof.
  apply bits_eq; [unfold cw1; rewrite !tab_length; reflexivity|]. rewrite tab_length. intros j Hj. unfold cw1. rewrite !getb_tab by exact Hj.
  unfold cw2f, msg_x. destruct (Nat.ltb_spec j r) as [L|L]; [destruct (Nat.leb_spec s j); [lia|reflexivity]|].
  destruct (Nat.ltb_spec j s) as [L'|L']; destruct (Nat.leb_spec s j); try lia; [|reflexivity].
  apply xsum_zero. intros l Hl. destruct (Nat.leb_spec k l); [lia|reflexivity].
Qed.
Lemma cw2_last b : tab (cw2f b O) n = cw b.
Proof. reflexivity. Qed.

Definition enc_events (b : nat -> bool) : list event :=
  levs [] (msg_x b) (fun _ => false) (seq O n) ++ flat_map mid_events (rev (seq O k)) ++ flat_map stage_events (seq O r).
Theorem enc_circuit outs b : eqs n (exec outs (enc_events b) (zero_ket n)) (enc b).
Proof.
  unfold enc_events. rewrite exec_app by apply levs_gate. rewrite exec_app by (apply forallb_flat_map; intros; apply mid_gate).
  apply (eqs_trans n _ (exec outs (flat_map stage_events (seq O r)) (ket (cw b)))).
  - apply exec_eqs; [reflexivity|apply forallb_flat_map; intros; apply stage_gate|].
    apply (eqs_trans n _ (exec outs (flat_map mid_events (rev (seq O k))) (ket (cw1 b)))).
    + apply exec_eqs; [reflexivity|apply forallb_flat_map; intros; apply mid_gate|]. apply stage1.
    + rewrite <- cw2_first, <- cw2_last. apply stage2. lia.
  - apply stages; [lia|]. intros i y Hi Hy E. unfold ket. destruct (list_eq_dec bool_dec y (cw b)) as [->|_]; [|reflexivity].
    rewrite getb_cw, cwf_lo in E by lia. discriminate.
Qed.

(** the encoding is an isometry *)
Lemma lev_proper cs x z j : j < n -> (x = true \/ z = true -> ~ In j cs) -> Forall (proper n) (lev cs x z j).
Proof. intros Hj H. destruct x, z; cbn [lev]; repeat constructor; auto; apply H; auto. Qed.
Lemma levs_proper cs x z : (forall c, In c cs -> x c = false /\ z c = false) -> Forall (proper n) (levs cs x z (seq O n)).
Proof.
  intros H. apply Forall_flat_map, Forall_forall. intros j Hj. apply in_seq in Hj. apply lev_proper; [lia|].
  intros A Hc. destruct (H j Hc) as [E1 E2]. rewrite E1, E2 in A. destruct A; discriminate.
Qed.
Lemma enc_proper b : Forall (proper n) (enc_events b).
Proof.
  unfold enc_events. rewrite !Forall_app. split; [|split].
  - apply levs_proper. intros c [].
  - apply Forall_flat_map, Forall_forall. intros i Hi. apply levs_proper. intros c [<-|[]]. unfold mid_x.
    destruct (Nat.ltb_spec (s + i) s); [lia|]. rewrite andb_false_r. split; reflexivity.
  - apply Forall_flat_map, Forall_forall. intros i Hi. apply in_seq in Hi. constructor; [split; [lia|intros []]|].
    apply levs_proper. intros c [<-|[]]. rewrite Nat.eqb_refl. split; reflexivity.
Qed.

Hypothesis H2 : h * h + h * h = 1.
Hypothesis HH : h^* = h.
Hypothesis I2 : im * im = - (1).
Hypothesis IH : im^* = - im.

Lemma enc_inner b b' : inner n (enc b) (enc b') = inner n (ket (cw b)) (ket (cw b')).
Proof.
  set (tail_ev := flat_map stage_events (seq O r)).
  assert (P : Forall (proper n) tail_ev).
  { pose proof (enc_proper b) as P. unfold enc_events in P. rewrite !Forall_app in P. apply P. }
  assert (E : forall b, eqs n (exec [] tail_ev (ket (cw b))) (enc b)).
  { intros b0. apply stages; [lia|]. intros i y Hi Hy E. unfold ket. destruct (list_eq_dec bool_dec y (cw b0)) as [->|_]; [|reflexivity].
    rewrite getb_cw, cwf_lo in E by lia. discriminate. }
  rewrite <- (inner_ext n _ _ _ _ (E b) (E b')). apply (inner_exec h im H2 HH I2 IH); exact P.
Qed.
Theorem enc_unit b : inner n (enc b) (enc b) = 1.
Proof. rewrite enc_inner, inner_ket by apply cw_length. unfold ket. destruct (list_eq_dec bool_dec (cw b) (cw b)); [reflexivity|congruence]. Qed.
Theorem enc_orth b b' i : i < k -> b i <> b' i -> inner n (enc b) (enc b') = 0.
Proof.
  intros Hi Ne. rewrite enc_inner, inner_ket by apply cw_length. unfold ket. destruct (list_eq_dec bool_dec (cw b) (cw b')) as [E|_]; [|reflexivity].
  exfalso. apply Ne. rewrite <- (cwf_hi b i), <- (cwf_hi b' i). rewrite <- !getb_cw by lia. rewrite E. reflexivity.
Qed.
(** Z-type readout: where a logical Z has the other value, the amplitude is 0 *)
Theorem enc_support b i y : i < k -> length y = n -> xsum n (fun j => fz i (n + j)%nat && getb y j) <> b i -> enc b y = 0.
Proof.
  intros Hi Hy Ne. pose proof (enc_fz b i Hi y Hy) as E. unfold prow, pact, sscale in E.
  rewrite (xorv_ext n (fz i) (fun _ => false)) in E by (intros j Hj; apply (Logical.fz_x n k s r Es Hk Hr f i j Hj)). rewrite xorv_false in E.
  rewrite (xsum_ext n (fun j => fz i (n + j)%nat && xorb (getb y j) (fz i j)) (fun j => fz i (n + j)%nat && getb y j)) in E.
  2:{ intros j Hj. rewrite (Logical.fz_x n k s r Es Hk Hr f i j Hj). rewrite xorb_false_r. reflexivity. }
  set (a := xsum n _) in *. replace a with (negb (b i)) in E by (destruct a, (b i); (reflexivity || congruence)).
  assert (Z2 : enc b y + enc b y = 0).
  { destruct (b i); cbn [negb sgn] in E.
    - transitivity (1 * enc b y + enc b y); [ring|]. rewrite E. ring.
    - transitivity (enc b y + 1 * enc b y); [ring|]. rewrite <- E. ring. }
  transitivity ((h * h + h * h) * enc b y); [rewrite H2; ring|]. transitivity (h * h * (enc b y + enc b y)); [ring|]. rewrite Z2. ring.
Qed.
End Enc.
