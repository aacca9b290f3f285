(** Projective syndrome measurements and arbitrary errors (C112, C113). *)
From Verif Require Import Py ZMat CodesModel RankSpec CodesSpec BoolLin Rank Gauss Gauss2 CodesProofs CodesProofs2 Logical
  Scalar PauliModel PauliSpec PauliProofs PauliProofs2 CircuitModel CircuitSpec CircuitProofs EncodeProofs CircuitProofs2 CircuitProofs3 CircuitProofs4 CircuitProofs5 QecSpec QecProofs
  TextbookSpec TextbookProofs WorkflowSpec WorkflowProofs EncodedSpec EncodedProofs SameCodeProofs MeasureSpec.
From Coq Require Import FunctionalExtensionality.
Open Scope nat_scope.

Lemma given_row n k rows r : valid_generators n k rows -> In r rows -> length r = 2 * n /\ binary r.
Proof. intros (_ & _ & L & B & _) H. rewrite Forall_forall in L, B. split; [apply L, H|apply B, H]. Qed.

Section Measure.
Context {K : StarRing}.
Variables h im : K.
Add Ring KringM112 : (s_rt K).
Notation exec := (exec h im).
Open Scope K_scope.
Hypothesis HC : qubit_constants h im.

(** ** One measurement on an arbitrary state *)
Lemma syn_project n x z v a b :
  eqs (n + 1) (exec [b] (syn_events n x z ++ [Measure n]) (tensor n v [a])) (tensor n (projected h (xorb a b) v (pact n x z v)) [b]).
Proof.
  intros y Hy. rewrite exec_app by (cbn [syn_events forallb gate_only]; rewrite forallb_app, levs_gate; reflexivity).
  cbn [CircuitSpec.exec hd tl]. unfold project.
  rewrite (y_split n y Hy). set (w := firstn n y). set (b0 := getb y n). assert (Hw : length w = n) by (unfold w; rewrite firstn_length; lia).
  rewrite (getb_last n), (tensor_last n), (syn_core h im n) by exact Hw. destruct (Bool.eqb b0 b) eqn:E; [|reflexivity].
  apply Bool.eqb_prop in E. rewrite E. reflexivity.
Qed.
Theorem projective n c row arg A v w a b : (1 <= n)%nat -> cn c = n -> length row = (2 * n)%nat -> binary row -> names arg row -> is_pauli n A row -> matrix_maps n A v w ->
  snd (single_syndrome_measurement c (n + 1) (seq O (n + 1)) arg) = Ok n /\
  eqs (n + 1) (exec [b] (fst (single_syndrome_measurement c (n + 1) (seq O (n + 1)) arg)) (tensor n v [a])) (tensor n (projected h (xorb a b) v w) [b]) /\
  snd (single_syndrome_measurement c n (seq O n) arg) = Ok n /\
  eqs (n + 1) (exec [b] (fst (single_syndrome_measurement c n (seq O n) arg)) v) (tensor n (projected h b v w) [b]).
Proof.
  intros Hn Ec L B NA P M. apply (maps_prow n A row) in M; [|exact P].
  assert (T : forall e, eqs (n + 1) (tensor n (projected h e v (prow n (brow row) v)) [b]) (tensor n (projected h e v w) [b])).
  { intros e y Hy. unfold tensor. destruct (list_eq_dec _ _ _); [|reflexivity]. unfold projected. rewrite (M (firstn n y)) by (rewrite firstn_length; lia). reflexivity. }
  rewrite (syndrome_with_ancilla n c Ec arg row L B NA), (syndrome_fresh n c Ec arg row L B NA). cbn [fst snd]. split; [reflexivity|]. split; [|split; [reflexivity|]].
  - apply (eqs_trans _ _ _ _ (syn_project n _ _ v a b)). apply T.
  - cbn [CircuitSpec.exec]. rewrite exec_dealloc by (cbn [syn_events forallb gate_only]; rewrite forallb_app, levs_gate; reflexivity).
    apply (eqs_trans _ _ (exec [b] (syn_events n (brow row) (zpart n (brow row)) ++ [Measure n]) (tensor n v [false]))).
    + intros y Hy. rewrite !exec_app by (cbn [syn_events forallb gate_only]; rewrite forallb_app, levs_gate; reflexivity).
      cbn [CircuitSpec.exec]. unfold project.
      rewrite (exec_eqs h im (n + 1) [b] (syn_events n (brow row) (zpart n (brow row))) [b] (add_qubit n v) (tensor n v [false])); try reflexivity; [|apply (alloc_one h im n c)|exact Hy].
      cbn [syn_events forallb gate_only]; rewrite forallb_app, levs_gate; reflexivity.
    + apply (eqs_trans _ _ _ _ (syn_project n _ _ v false b)). rewrite xorb_false_l. apply T.
Qed.
(** ** Even number of Ys: the probabilities, and the same answer again *)
Lemma inner_add_l n (p q r : @state K) : inner n (splus p q) r = inner n p r + inner n q r.
Proof. unfold inner, splus. rewrite <- isum_add. apply isum_ext. intros y _. rewrite sconj_add. ring. Qed.
Lemma inner_add_r n (p q r : @state K) : inner n r (splus p q) = inner n r p + inner n r q.
Proof. unfold inner, splus. rewrite <- isum_add. apply isum_ext. intros y _. ring. Qed.
Lemma half_real : (h * h)^* = h * h.
Proof. destruct HC as (_ & C2 & _). rewrite sconj_mul, C2. reflexivity. Qed.
Lemma half_half : h * h + h * h = 1.
Proof. apply HC. Qed.
Lemma projected_as b (v w : @state K) y : projected h b v w y = sscale (h * h) (splus v (sscale (sgn b) w)) y.
Proof. reflexivity. Qed.
Lemma square_even n u (psi : @state K) : xsum n (fun j => u j && u (n + j)%nat) = false -> eqs n (prow n u (prow n u psi)) psi.
Proof. intros H. apply pact_square; [lia|exact H]. Qed.
Lemma probability n row b (v : @state K) : xsum n (fun j => brow row j && brow row (n + j)%nat) = false ->
  inner n (projected h b v (prow n (brow row) v)) (projected h b v (prow n (brow row) v)) = h * h * (inner n v v + sgn b * inner n v (prow n (brow row) v)).
Proof.
  intros E. set (w := prow n (brow row) v).
  rewrite (inner_ext n _ _ (sscale (h * h) (splus v (sscale (sgn b) w))) (sscale (h * h) (splus v (sscale (sgn b) w)))) by (intros y _; apply projected_as).
  rewrite inner_scale, half_real, inner_add_l, !inner_add_r, !inner_scale_r.
  rewrite (inner_ext n (sscale (sgn b) w) v (sscale (sgn b) w) (sscale 1 v)) by (first [apply eqs_refl|intros y _; unfold sscale; ring]). rewrite !inner_scale, sgn_conj.
  rewrite (inner_ext n (sscale (sgn b) w) w (sscale (sgn b) w) (sscale 1 w)) by (first [apply eqs_refl|intros y _; unfold sscale; ring]). rewrite !inner_scale, sgn_conj.
  assert (WW : inner n w w = inner n v v) by apply (prow_unitary h im HC).
  assert (S : inner n w v = inner n v w).
  { unfold w. rewrite <- (prow_unitary h im HC n row (prow n (brow row) v) v). apply inner_ext; [apply square_even, E|apply eqs_refl]. }
  rewrite S, WW. pose proof (sgn_sq (K := K) b) as Q. pose proof half_half as HH. set (s := sgn b) in *. set (i1 := inner n v v) in *. set (i2 := inner n v w) in *.
  transitivity (h * h * (h * h * (i1 + s * s * i1 + (s + s) * i2))); [ring|]. rewrite Q. transitivity (h * h * (h * h + h * h) * (i1 + s * i2)); [ring|]. rewrite HH. ring.
Qed.
Lemma repeatable n row b (v : @state K) : xsum n (fun j => brow row j && brow row (n + j)%nat) = false ->
  eqs n (prow n (brow row) (projected h b v (prow n (brow row) v))) (sscale (sgn b) (projected h b v (prow n (brow row) v))).
Proof.
  intros E y Hy. set (w := prow n (brow row) v).
  assert (X : prow n (brow row) (projected h b v w) y = h * h * (w y + sgn b * v y)).
  { unfold prow at 1. rewrite (pact_eqs n n _ _ _ (sscale (h * h) (splus v (sscale (sgn b) w)))) by (first [exact Hy|intros y' _; apply projected_as]).
    rewrite pact_scale, pact_plus, pact_scale. fold (prow n (brow row) v) (prow n (brow row) w). unfold w. rewrite (square_even n (brow row) v E y Hy). reflexivity. }
  rewrite X. unfold sscale, projected. pose proof (sgn_sq (K := K) b) as Q. transitivity (h * h * (sgn b * v y + (sgn b * sgn b) * w y)); [rewrite Q; ring|ring].
Qed.
(** an odd number of Ys: always a fair coin *)
Lemma square_odd n u (psi : @state K) : xsum n (fun j => u j && u (n + j)%nat) = true -> eqs n (prow n u (prow n u psi)) (sscale (- (1)) psi).
Proof.
  intros H y Hy. rewrite (prow_product n u u psi y Hy). unfold sscale. rewrite (prow_same n (fun j => xorb (u j) (u j)) (fun _ => false)) by (intros; apply xorb_nilpotent).
  rewrite prow_none. unfold zxb. rewrite (xsum_ext n _ (fun j => u j && u (n + j)%nat)) by (intros; apply andb_comm). rewrite H. reflexivity.
Qed.
Lemma odd_coin n row b (v : @state K) : xsum n (fun j => brow row j && brow row (n + j)%nat) = true ->
  inner n (projected h b v (prow n (brow row) v)) (projected h b v (prow n (brow row) v)) = h * h * inner n v v.
Proof.
  intros E. set (w := prow n (brow row) v).
  rewrite (inner_ext n _ _ (sscale (h * h) (splus v (sscale (sgn b) w))) (sscale (h * h) (splus v (sscale (sgn b) w)))) by (intros y _; apply projected_as).
  rewrite inner_scale, half_real, inner_add_l, !inner_add_r, !inner_scale_r.
  rewrite (inner_ext n (sscale (sgn b) w) v (sscale (sgn b) w) (sscale 1 v)) by (first [apply eqs_refl|intros y _; unfold sscale; ring]). rewrite !inner_scale, sgn_conj.
  rewrite (inner_ext n (sscale (sgn b) w) w (sscale (sgn b) w) (sscale 1 w)) by (first [apply eqs_refl|intros y _; unfold sscale; ring]). rewrite !inner_scale, sgn_conj.
  assert (WW : inner n w w = inner n v v) by apply (prow_unitary h im HC).
  assert (S : inner n w v = - inner n v w).
  { unfold w. rewrite <- (prow_unitary h im HC n row (prow n (brow row) v) v). rewrite (inner_ext n _ _ (sscale (- (1)) v) (sscale 1 (prow n (brow row) v))); [|apply square_odd, E|intros y _; unfold sscale; ring].
    rewrite inner_scale, sconj_opp, sconj_1. ring. }
  rewrite S, WW. pose proof (sgn_sq (K := K) b) as Q. pose proof half_half as HH. set (s := sgn b) in *. set (i1 := inner n v v) in *. set (i2 := inner n v w) in *.
  transitivity (h * h * (h * h * (i1 + s * s * i1))); [ring|]. rewrite Q. transitivity (h * h * (h * h + h * h) * i1); [ring|]. rewrite HH. ring.
Qed.
(** the ancilla does not contribute to the norm *)
Lemma isum_last n : forall f : list bool -> K, isum (n + 1) f = isum n (fun y => f (y ++ [false]) + f (y ++ [true])).
Proof. induction n as [|n IH]; intros f; [reflexivity|]. cbn [Nat.add isum]. rewrite !IH. reflexivity. Qed.
Lemma inner_tensor n (v w : @state K) b : inner (n + 1) (tensor n v [b]) (tensor n w [b]) = inner n v w.
Proof.
  unfold inner. rewrite isum_last. apply isum_ext. intros y Hy. rewrite !(tensor_last n) by exact Hy. destruct b; cbn [Bool.eqb]; rewrite sconj_0; ring.
Qed.
Lemma project_zero b (x y : K) : h * h * (x + sgn b * y) = 0 <-> y = sgn (negb b) * x.
Proof.
  pose proof half_half as HH. split; intros H.
  - assert (X : x + sgn b * y = 0) by (transitivity ((h * h + h * h) * (x + sgn b * y)); [rewrite HH; ring|transitivity (h * h * (x + sgn b * y) + h * h * (x + sgn b * y)); [ring|rewrite H; ring]]).
    destruct b; cbn [sgn negb] in *; [transitivity (x - (x + - (1) * y)); [ring|rewrite X; ring]|transitivity ((x + 1 * y) - x); [ring|rewrite X; ring]].
  - rewrite H. destruct b; cbn [sgn negb]; ring.
Qed.
Lemma coin_ring (x : K) b : h * h * (x + sgn b * 0) = h * h * x.
Proof. ring. Qed.
Lemma mul_one_r (x : K) : x * 1 = x.
Proof. ring. Qed.
Lemma ket_self (x : list bool) : ket x x = (1 : K).
Proof. unfold ket. destruct (list_eq_dec _ _ _); [reflexivity|contradiction]. Qed.
Lemma superpose_scaled {A} (l : list (K * A)) F z y : superpose l (fun st => sscale z (F st)) y = sscale z (superpose l F) y.
Proof. unfold superpose, sscale. induction l as [|p l IH]; cbn [fold_right]; [ring|]. rewrite IH. ring. Qed.
Lemma scale_one (psi : @state K) y : sscale (sgn (negb true)) psi y = psi y.
Proof. unfold sscale. cbn [sgn negb]. ring. Qed.
(** fixed by an operator that anticommutes with the measured one: a fair coin *)
Lemma anticommuting n r s (v : @state K) : ip n (brow r) (brow s) = true -> eqs n (prow n (brow s) v) v -> inner n v (prow n (brow r) v) = 0.
Proof.
  intros A F. apply (twice_zero h im HC). set (w := prow n (brow r) v).
  rewrite <- (prow_unitary h im HC n s v w) at 1. rewrite (inner_ext n _ _ v (sscale (- (1)) w)); [rewrite inner_scale_r; ring|exact F|].
  intros y Hy. unfold w. transitivity (- prow n (brow r) (prow n (brow s) v) y).
  - assert (A' : xsum n (fun j => xorb (brow r j && brow s (n + j)%nat) (brow r (n + j)%nat && brow s j)) = true) by exact A.
    pose proof (pact_anticommute n n (brow r) (fun j => brow r (n + j)%nat) (brow s) (fun j => brow s (n + j)%nat) v (le_n n) y Hy) as Q. unfold sscale in Q. cbv beta in Q. rewrite A' in Q. unfold prow. rewrite Q. unfold sscale, sgn. ring.
  - rewrite (prow_eqs n (brow r) _ _ F y Hy). unfold sscale. ring.
Qed.

(** ** Arbitrary errors as sums of Pauli operators *)
Definition unit_row (n q : nat) (x z : bool) : list Z := map (fun j => Z.b2z ((Nat.eqb j q && x) || (Nat.eqb j (n + q) && z))) (seq O (2 * n)).
Lemma unit_row_length n q x z : length (unit_row n q x z) = (2 * n)%nat.
Proof. unfold unit_row. rewrite map_length, seq_length. reflexivity. Qed.
Lemma unit_row_binary n q x z : binary (unit_row n q x z).
Proof. apply Forall_forall. intros v Hv. apply in_map_iff in Hv. destruct Hv as (j & <- & _). destruct (_ || _)%bool; [right|left]; reflexivity. Qed.
Lemma unit_row_nth n q x z j : (j < 2 * n)%nat -> brow (unit_row n q x z) j = ((Nat.eqb j q && x) || (Nat.eqb j (n + q) && z))%bool.
Proof.
  intros H. unfold brow, unit_row. set (f := fun j => _). rewrite (nth_indep _ 0%Z (f O)) by (rewrite map_length, seq_length; exact H).
  rewrite map_nth, seq_nth by exact H. unfold f. cbn [Nat.add]. destruct (_ || _)%bool; reflexivity.
Qed.
Definition coefficient (M : bool -> bool -> K) (x z : bool) : K := h * h * (M x false + sgn z * M (negb x) true).
Lemma setb_as n q (y : list bool) b : length y = n -> (q < n)%nat -> setb y q b = xorv n (brow (unit_row n q (xorb b (getb y q)) false)) y.
Proof.
  intros L H. apply bits_eq; [rewrite setb_length, xorv_length; reflexivity|]. rewrite setb_length. intros j Hj. rewrite getb_setb, getb_xorv_in by lia.
  rewrite unit_row_nth by lia. rewrite andb_false_r, orb_false_r. destruct (Nat.eqb_spec j q) as [-> |]; [|symmetry; apply xorb_false_r].
  destruct b, (getb y q); reflexivity.
Qed.
Lemma unit_prow n q x z (psi : @state K) y : length y = n -> (q < n)%nat -> prow n (brow (unit_row n q x z)) psi y = sgn (z && xorb (getb y q) x) * psi (setb y q (xorb (getb y q) x)).
Proof.
  intros L H. unfold prow, pact. f_equal.
  - f_equal. rewrite (xsum_one n q); [rewrite !unit_row_nth by lia; rewrite !Nat.eqb_refl; destruct (Nat.eqb_spec (n + q) q); [lia|]; destruct (Nat.eqb_spec q (n + q)); [lia|]; cbn [andb orb]; rewrite orb_false_r; reflexivity|exact H|].
    intros j Hj Nj. rewrite unit_row_nth by lia. destruct (Nat.eqb_spec (n + j) q); [lia|]. destruct (Nat.eqb_spec (n + j) (n + q)); [lia|]. reflexivity.
  - f_equal. rewrite (setb_as n) by assumption. apply xorv_ext. intros j Hj. rewrite !unit_row_nth by lia.
    destruct (Nat.eqb_spec j (n + q)); [lia|]. destruct (Nat.eqb_spec j q); cbn [andb orb]; [|reflexivity]. rewrite !orb_false_r.
    destruct (getb y q), x; reflexivity.
Qed.
Definition four : list (bool * bool) := [(false, false); (false, true); (true, false); (true, true)].
Lemma on_qubit_pauli n q M (psi : @state K) : (q < n)%nat ->
  eqs n (on_qubit q M psi) (superpose (map (fun p => (coefficient M (fst p) (snd p), p)) four) (fun p => prow n (brow (unit_row n q (fst p) (snd p))) psi)).
Proof.
  intros H y L. unfold superpose, four. cbn [map fold_right fst snd]. rewrite !unit_prow by assumption. unfold on_qubit, coefficient. pose proof half_half as HH.
  destruct (getb y q); cbn [xorb andb negb sgn]; set (p0 := psi (setb y q false)); set (p1 := psi (setb y q true)).
  - transitivity ((h * h + h * h) * (M true false * p0 + M true true * p1)); [rewrite HH|]; ring.
  - transitivity ((h * h + h * h) * (M false false * p0 + M false true * p1)); [rewrite HH|]; ring.
Qed.
Definition row_in (n : nat) (qs : list nat) (e : list Z) : Prop :=
  length e = (2 * n)%nat /\ binary e /\ forall j, (j < n)%nat -> brow e j = true \/ brow e (n + j) = true -> In j qs.
Lemma superpose_nested {A B} (l : list (K * A)) (l' : list (K * B)) (F : A -> B -> @state K) y :
  superpose l (fun a => superpose l' (F a)) y = superpose (flat_map (fun p => map (fun p' => (fst p * fst p', (snd p, snd p'))) l') l) (fun ab => F (fst ab) (snd ab)) y.
Proof.
  induction l as [|p l IH]; [reflexivity|]. cbn [flat_map]. rewrite superpose_app, <- IH. unfold superpose at 1 4. cbn [fold_right]. f_equal. clear.
  unfold superpose. induction l' as [|p' l' IH']; cbn [map fold_right fst snd]; [ring|]. rewrite <- IH'. ring.
Qed.
Lemma superpose_map {A B} (f : K * A -> K * B) (l : list (K * A)) (F : A -> @state K) G y :
  (forall p, In p l -> fst p * F (snd p) y = fst (f p) * G (snd (f p)) y) -> superpose l F y = superpose (map f l) G y.
Proof.
  intros H. unfold superpose. induction l as [|p l IH]; [reflexivity|]. cbn [map fold_right]. rewrite (H p (or_introl eq_refl)), IH by (intros; apply H; right; assumption). reflexivity.
Qed.
Lemma noise_pauli n ops : Forall (fun q => (q < n)%nat) (map fst ops) ->
  exists L : list (K * list Z), (forall p, In p L -> row_in n (map fst ops) (snd p)) /\ forall psi : @state K, eqs n (noise ops psi) (superpose L (fun e => prow n (brow e) psi)).
Proof.
  induction ops as [|[q M] ops IH]; intros F.
  - exists [(1, repeat 0%Z (2 * n))]. split.
    + intros p [<- | []]. cbn [snd]. split; [apply repeat_length|]. split; [apply Forall_forall; intros x Hx; apply repeat_spec in Hx; subst; left; reflexivity|].
      intros j _ [H|H]; unfold brow in H; rewrite nth_repeat in H; discriminate.
    + intros psi y _. unfold superpose. cbn [noise fold_right fst snd]. rewrite (prow_same n _ (fun _ => false)) by (intros j _; unfold brow; rewrite nth_repeat; reflexivity). rewrite prow_none. ring.
  - cbn [map fst] in F. apply Forall_cons_iff in F. destruct F as [Hq F]. destruct (IH F) as (L & R & E).
    set (Q := map (fun p => (coefficient M (fst p) (snd p), p)) four).
    set (f := fun p : K * ((bool * bool) * list Z) => let u := unit_row n q (fst (fst (snd p))) (snd (fst (snd p))) in
                (fst p * sgn (zxb n (brow u) (brow (snd (snd p)))), xor_row u (snd (snd p)))).
    set (N := flat_map (fun p => map (fun p' => (fst p * fst p', (snd p, snd p'))) L) Q).
    assert (HN : forall p, In p N -> exists p', In p' L /\ snd (snd p) = snd p').
    { intros p Hp. apply in_flat_map in Hp. destruct Hp as (p1 & _ & Hp). apply in_map_iff in Hp. destruct Hp as (p2 & <- & H2). exists p2. split; [exact H2|reflexivity]. }
    exists (map f N). split.
    + intros p Hp. apply in_map_iff in Hp. destruct Hp as (p0 & <- & H0). destruct (HN p0 H0) as (p' & Hp' & E'). cbn [f snd map fst]. destruct (R p' Hp') as (L1 & B1 & S1). rewrite <- E' in *.
      set (u := unit_row _ _ _ _). assert (Lu : length u = length (snd (snd p0))) by (unfold u; rewrite unit_row_length; lia).
      split; [rewrite xor_row_length by exact Lu; unfold u; apply unit_row_length|]. split; [apply xor_row_binary|].
      intros j Hj. rewrite !xor_row_nth by exact Lu. unfold u. rewrite !unit_row_nth by lia. intros H. destruct (Nat.eq_dec q j) as [-> | Nq]; [left; reflexivity|]. right. apply S1; [exact Hj|].
      destruct (Nat.eqb_spec j q); [congruence|]. destruct (Nat.eqb_spec j (n + q)); [lia|]. destruct (Nat.eqb_spec (n + j) q); [lia|]. destruct (Nat.eqb_spec (n + j) (n + q)); [lia|].
      cbn [andb orb xorb] in H. destruct (brow (snd (snd p0)) j), (brow (snd (snd p0)) (n + j)%nat); cbn in H; intuition discriminate.
    + intros psi y Hy. cbn [noise]. rewrite (on_qubit_pauli n q M _ Hq y Hy). fold Q.
      rewrite (superpose_ext Q _ (fun p => superpose L (fun e => prow n (brow (unit_row n q (fst p) (snd p))) (prow n (brow e) psi)))).
      2:{ intros p _. rewrite (prow_eqs n _ _ _ (E psi) y Hy). apply prow_superpose. }
      rewrite superpose_nested. fold N. apply superpose_map. intros p Hp. destruct (HN p Hp) as (p' & Hp' & E'). destruct (R p' Hp') as (L1 & B1 & S1). rewrite <- E' in *.
      cbn [f fst snd]. set (u := unit_row _ _ _ _). rewrite (prow_product n _ _ psi y Hy). unfold sscale.
      rewrite (prow_same n (brow (xor_row u (snd (snd p)))) (fun j => xorb (brow u j) (brow (snd (snd p)) j))) by (intros j _; apply xor_row_nth; unfold u; rewrite unit_row_length; lia). ring.
Qed.
Lemma row_in_weight n qs e : row_in n qs e -> weight n e <= length (nodup Nat.eq_dec qs).
Proof.
  intros (L & B & S). unfold weight. apply NoDup_incl_length; [apply NoDup_filter, seq_NoDup|]. intros j Hj. apply filter_In in Hj. destruct Hj as [Hj H].
  apply in_seq in Hj. apply nodup_In, S; [lia|]. rewrite !binary_eqb in H by exact B. apply orb_prop, H.
Qed.
Lemma errors_pauli n t (err : list (K * list (nat * (bool -> bool -> K)))) :
  (forall p, In p err -> Forall (fun q => (q < n)%nat) (touched (snd p)) /\ length (touched (snd p)) <= t) ->
  exists L : list (K * list Z), (forall p, In p L -> length (snd p) = (2 * n)%nat /\ binary (snd p) /\ weight n (snd p) <= t) /\
    forall psi : @state K, eqs n (superpose err (fun ops => noise ops psi)) (superpose L (fun e => prow n (brow e) psi)).
Proof.
  induction err as [|[a ops] err IH]; intros H; [exists []; split; [intros ? []|intros psi y _; reflexivity]|].
  destruct (IH ltac:(intros; apply H; right; assumption)) as (L & R & E). destruct (H _ (or_introl eq_refl)) as [F W]. cbn [snd] in F, W.
  assert (F' : Forall (fun q => (q < n)%nat) (map fst ops)).
  { rewrite Forall_forall in *. intros q Hq. apply F. unfold touched. apply nodup_In, Hq. }
  destruct (noise_pauli n ops F') as (L1 & R1 & E1). exists (map (fun p => (a * fst p, snd p)) L1 ++ L). split.
  - intros p Hp. apply in_app_iff in Hp. destruct Hp as [Hp|Hp]; [|apply R, Hp]. apply in_map_iff in Hp. destruct Hp as (p' & <- & Hp'). cbn [snd].
    pose proof (R1 p' Hp') as X. pose proof (row_in_weight n _ _ X) as Y. destruct X as (X1 & X2 & _). unfold touched in W. repeat split; try assumption. lia.
  - intros psi y Hy. rewrite superpose_app, <- (E psi y Hy). unfold superpose at 1 3. cbn [fold_right fst snd]. f_equal. rewrite (E1 psi y Hy).
    clear. induction L1 as [|p L1 IH]; [unfold superpose; cbn; ring|]. unfold superpose in *. cbn [map fold_right fst snd]. rewrite <- IH. ring.
Qed.

(** ** The round of measurements and the correction *)
Lemma measure_superpose {A} n c rows : forall outs (L : list (K * A)) F, measure_syndromes h im n c rows outs (superpose L F) = superpose L (fun e => measure_syndromes h im n c rows outs (F e)).
Proof.
  induction rows as [|r rows IH]; intros outs L F; [reflexivity|]. destruct outs as [|b bs]; [reflexivity|]. cbn [measure_syndromes]. rewrite <- IH. f_equal.
  apply functional_extensionality. intros y. apply exec_superpose.
Qed.
Lemma tensor_superpose {A} n (L : list (K * A)) F x y : tensor n (superpose L F) x y = superpose L (fun e => tensor n (F e) x) y.
Proof. unfold tensor, superpose. destruct (list_eq_dec _ _ _); [reflexivity|]. induction L as [|p L IH]; [reflexivity|]. cbn [fold_right]. rewrite <- IH. ring. Qed.
Section Code.
Variables (g : gens) (n k : nat) (c : code) (t : nat).
Hypothesis HI : init g n k None = Ok c.
Hypothesis HV : valid_generators n k (zd (stab c)).
Hypothesis HE : Forall (fun row => Nat.even (y_count n row) = true) (zd (stab c)).
Notation rows := (zd (normal_form c)).
Notation enc l := (superpose l (encode h im n c)).
Definition messages (l : list (K * list Z)) : Prop := forall p, In p l -> length (snd p) = k /\ binary (snd p).
Definition kept (L : list (K * list Z)) outs a psi : @state K :=
  superpose L (fun e => if list_eq_dec bool_dec outs (readings n rows e a) then prow n (brow e) psi else fun _ => 0).
Lemma measured_round L outs a l : (forall p, In p L -> length (snd p) = (2 * n)%nat /\ binary (snd p)) -> messages l -> length outs = length rows ->
  eqs (n + 1) (measure_syndromes h im n c rows outs (tensor n (superpose L (fun e => prow n (brow e) (enc l))) [a])) (tensor n (kept L outs a (enc l)) [last outs a]).
Proof.
  intros R Hl Lo y Hy. assert (Hn : (1 <= n)%nat) by (destruct HV as (A & B & _); lia).
  rewrite (measure_eqs h im n c rows (proj1 (code_dims g n k c HI)) (normal_rows g n k c HI HV) outs _ (superpose L (fun e => tensor n (prow n (brow e) (enc l)) [a]))) by (first [exact Hy|intros y' _; apply tensor_superpose]).
  rewrite measure_superpose. unfold kept. rewrite tensor_superpose. apply superpose_ext. intros p Hp. destruct (R p Hp) as [Lp Bp].
  rewrite (round h im n c rows (snd p) (enc l) (prow n (brow (snd p)) (enc l)) HC Hn (proj1 (code_dims g n k c HI)) (normal_rows g n k c HI HV) Lp Bp) by
    (first [exact Lo|exact Hy|apply eqs_refl|intros r Hr; apply (encoded_fixed h im g n k c l r); assumption]).
  destruct (list_eq_dec bool_dec outs _); [reflexivity|]. unfold tensor. destruct (list_eq_dec _ _ _); reflexivity.
Qed.
Lemma kept_corrected L outs a corr : distance_at_least n rows (2 * t + 1) -> (forall p, In p L -> length (snd p) = (2 * n)%nat /\ binary (snd p) /\ weight n (snd p) <= t) ->
  length corr = (2 * n)%nat -> binary corr -> weight n corr <= t -> readings n rows corr a = outs ->
  exists z : K, forall l, messages l -> eqs n (exec [] (fst (apply_stabilizer_circuit (seq O n) (AsArray corr))) (kept L outs a (enc l))) (sscale z (enc l)).
Proof.
  intros D R Lc Bc Wc E. assert (Hn : (1 <= n)%nat) by (destruct HV as (A & B & _); lia). induction L as [|p L IH].
  - exists 0. intros l _ y Hy. rewrite (exec_zero h im _ [] _) by reflexivity. unfold sscale. ring.
  - destruct (IH ltac:(intros; apply R; right; assumption)) as [z Hz]. destruct (R p (or_introl eq_refl)) as (Lp & Bp & Wp).
    destruct (list_eq_dec bool_dec outs (readings n rows (snd p) a)) as [e|e].
    + destruct (correction h im g n k c t (snd p) corr HC HI HV HE D Lp Bp Wp Lc Bc Wc) as (A & EA & z1 & _ & C).
      { apply (readings_inj n rows (snd p) corr Lp Lc) with (a := a); [intros r Hr; apply (normal_rows g n k c HI HV r Hr)|congruence]. }
      destruct (single_mat (K := K) n (snd p) Hn Lp Bp) as (A' & EA' & PA). assert (A = A') by congruence. subst A'.
      exists (fst p * z1 + z). intros l Hl y Hy.
      rewrite (exec_lin h im _ [] (prow n (brow (snd p)) (enc l)) (kept L outs a (enc l)) _ (fst p)).
      * rewrite (proj1 (C l _ Hl (proj2 (maps_prow n A (snd p) _ _ PA) (eqs_refl n _))) y Hy), (Hz l Hl y Hy). unfold sscale. ring.
      * intros y'. unfold kept, superpose. cbn [fold_right]. destruct (list_eq_dec bool_dec outs (readings n rows (snd p) a)); [reflexivity|contradiction].
    + exists z. intros l Hl y Hy. rewrite <- (Hz l Hl y Hy). f_equal. apply functional_extensionality. intros y'.
      unfold kept, superpose. cbn [fold_right]. destruct (list_eq_dec bool_dec outs (readings n rows (snd p) a)); [contradiction|]. ring.
Qed.
Theorem any_error (err : list (K * list (nat * (bool -> bool -> K)))) outs a : distance_at_least n rows (2 * t + 1) ->
  (forall p, In p err -> Forall (fun q => (q < n)%nat) (touched (snd p)) /\ length (touched (snd p)) <= t) -> length outs = length rows ->
  let measured l := measure_syndromes h im n c rows outs (tensor n (superpose err (fun ops => noise ops (enc l))) [a]) in
  ((exists corr, length corr = (2 * n)%nat /\ binary corr /\ weight n corr <= t /\ readings n rows corr a = outs) \/ forall l, messages l -> eqs (n + 1) (measured l) (fun _ => 0)) /\
  (forall l, messages l -> eqs (n + 1) (measured l) (tensor n (drop_ancilla (last outs a) (measured l)) [last outs a])) /\
  forall corr, length corr = (2 * n)%nat -> binary corr -> weight n corr <= t -> readings n rows corr a = outs ->
  exists z : K, forall l, messages l ->
  let corrected := exec [] (fst (apply_stabilizer_circuit (seq O n) (AsArray corr))) (drop_ancilla (last outs a) (measured l)) in
  eqs n corrected (sscale z (enc l)) /\
  eqs (n + k) (exec [] (fst (decoding_circuit c n (seq O n) true false)) corrected) (sscale z (superpose l (fun st => tensor n (encode h im n c (repeat 0%Z k)) (message st)))).
Proof.
  intros D He Lo measured. destruct (errors_pauli n t err He) as (L & R & E). assert (Hn : (1 <= n)%nat) by (destruct HV as (A & B & _); lia).
  assert (M : forall l, messages l -> eqs (n + 1) (measured l) (tensor n (kept L outs a (enc l)) [last outs a])).
  { intros l Hl. apply (eqs_trans _ _ (measure_syndromes h im n c rows outs (tensor n (superpose L (fun e => prow n (brow e) (enc l))) [a]))).
    - apply measure_eqs; [apply (code_dims g n k c HI)|exact (normal_rows g n k c HI HV)|]. apply (CircuitProofs3.tensor_eqs n _ _ [a]), E.
    - apply measured_round; try assumption. intros p Hp. destruct (R p Hp) as (R1 & R2 & _). split; assumption. }
  assert (DR : forall l, messages l -> eqs n (drop_ancilla (last outs a) (measured l)) (kept L outs a (enc l))).
  { intros l Hl. apply (eqs_trans _ _ _ _ (drop_eqs n _ _ (last outs a) (M l Hl))). apply drop_tensor. }
  split; [|split].
  - clear DR. destruct (existsb (fun p => if list_eq_dec bool_dec (readings n rows (snd p) a) outs then true else false) L) eqn:X.
    + left. apply existsb_exists in X. destruct X as (p & Hp & X). destruct (list_eq_dec _ _ _) as [e|]; [|discriminate]. exists (snd p). destruct (R p Hp) as (R1 & R2 & R3). auto.
    + right. intros l Hl y Hy. rewrite (M l Hl y Hy). unfold tensor. destruct (list_eq_dec _ _ _); [|reflexivity]. unfold kept.
      rewrite (superpose_ext L _ (fun _ _ => 0)); [clear; unfold superpose; induction L as [|p L IH]; [reflexivity|]; cbn [fold_right]; rewrite IH; ring|].
      intros p Hp. destruct (list_eq_dec bool_dec outs _) as [e1|]; [|reflexivity]. exfalso.
      assert (Y : existsb (fun p => if list_eq_dec bool_dec (readings n rows (snd p) a) outs then true else false) L = true); [|congruence].
      apply existsb_exists. exists p. split; [exact Hp|]. destruct (list_eq_dec _ _ _) as [|e2]; [reflexivity|congruence].
  - intros l Hl. apply (eqs_trans _ _ _ _ (M l Hl)). apply (CircuitProofs3.tensor_eqs n _ _ [last outs a]), eqs_sym, DR, Hl.
  - intros corr Lc Bc Wc Ec. destruct (kept_corrected L outs a corr D R Lc Bc Wc Ec) as [z Hz]. exists z. intros l Hl corrected.
    assert (C : eqs n corrected (sscale z (enc l))).
    { apply (eqs_trans _ _ (exec [] (fst (apply_stabilizer_circuit (seq O n) (AsArray corr))) (kept L outs a (enc l)))); [|apply Hz, Hl].
      intros y Hy. unfold corrected. rewrite !(apply_exec h im n corr _ Lc Bc Hn y Hy). unfold sscale. f_equal. apply prow_eqs; [apply DR, Hl|exact Hy]. }
    split; [exact C|]. apply (decode_scaled h im g); assumption.
Qed.
End Code.
End Measure.
