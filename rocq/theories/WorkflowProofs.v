(** Proofs about the README programs (C106, C107). *)
From Verif Require Import Py ZMat CodesModel RankSpec CodesSpec BoolLin Rank Gauss Gauss2 CodesProofs CodesProofs2 Logical
  Scalar PauliModel PauliSpec PauliProofs PauliProofs2 CircuitModel CircuitSpec CircuitProofs EncodeProofs CircuitProofs2 CircuitProofs3 CircuitProofs4 CircuitProofs5 QecSpec QecProofs
  TextbookSpec TextbookProofs WorkflowSpec.
Open Scope nat_scope.

Section Loop.
Context {K : StarRing}.
Variables h im : K.
Add Ring KringW : (s_rt K).
Notation exec := (exec h im).
Open Scope K_scope.
Hypothesis HC : qubit_constants h im.

Lemma drop_tensor n (v : @state K) b : eqs n (drop_ancilla b (tensor n v [b])) v.
Proof. intros y Hy. unfold drop_ancilla. rewrite (tensor_last n) by exact Hy. rewrite Bool.eqb_reflx. reflexivity. Qed.
Lemma drop_eqs n (phi psi : @state K) b : eqs (n + 1) phi psi -> eqs n (drop_ancilla b phi) (drop_ancilla b psi).
Proof. intros H y Hy. apply H. rewrite app_length. cbn. lia. Qed.
Lemma one_step n c row psi e b : (1 <= n)%nat -> cn c = n -> length row = (2 * n)%nat -> binary row -> eqs n (prow n (brow row) psi) (sscale (sgn e) psi) ->
  eqs n (drop_ancilla b (exec [b] (fst (single_syndrome_measurement c n (seq O n) (AsArray row))) psi)) (if Bool.eqb b e then psi else fun _ => 0).
Proof.
  intros Hn Ec L B M. destruct (single_mat (K := K) n row Hn L B) as (A & EA & PA). apply (maps_prow n A row) in M; [|exact PA]. destruct HC as (C1 & _).
  pose proof (proj2 (proj2 (proj2 (syndrome_ok h im n C1 c Ec (AsArray row) row A psi false e b L B (or_introl eq_refl) PA M)))) as S.
  apply (eqs_trans _ _ _ _ (drop_eqs n _ _ b S)). destruct (Bool.eqb b e); [apply drop_tensor|intros y _; reflexivity].
Qed.
Lemma prow_zero n u (psi : @state K) : eqs n psi (fun _ => 0) -> eqs n (prow n u psi) (fun _ => 0).
Proof. intros H y Hy. rewrite (prow_eqs n u _ _ H y Hy). unfold prow, pact. ring. Qed.
Lemma loop_zero n c rows : (1 <= n)%nat -> cn c = n -> (forall r, In r rows -> length r = (2 * n)%nat /\ binary r) ->
  forall outs psi, eqs n psi (fun _ => 0) -> eqs n (readme_loop h im n c rows outs psi) (fun _ => 0).
Proof.
  intros Hn Ec. induction rows as [|r rows IH]; intros R outs psi H; [exact H|]. destruct outs as [|b bs]; [exact H|]. destruct (R r (or_introl eq_refl)) as [L B]. cbn [readme_loop].
  assert (Z : eqs n (drop_ancilla b (exec [b] (fst (single_syndrome_measurement c n (seq O n) (AsArray r))) psi)) (fun _ => 0)).
  { apply (eqs_trans _ _ (if Bool.eqb b false then psi else fun _ => 0)); [|destruct b; [intros y _; reflexivity|exact H]]. apply one_step; try assumption.
    intros y Hy. rewrite (prow_zero n (brow r) psi H y Hy). unfold sscale. rewrite (H y Hy). ring. }
  destruct b; [|apply IH; [intros; apply R; right; assumption|exact Z]].
  intros y Hy. rewrite (apply_exec h im n r _ L B Hn y Hy). unfold sscale. rewrite (prow_zero n (brow r) _ Z y Hy). ring.
Qed.
Lemma error_sign n r err (v psi : @state K) : length r = (2 * n)%nat -> length err = (2 * n)%nat -> binary r -> binary err -> (1 <= n)%nat ->
  eqs n (prow n (brow r) v) v -> eqs n (prow n (brow err) v) psi -> eqs n (prow n (brow r) psi) (sscale (sgn (Z.eqb (inner_prod r err) 1)) psi).
Proof.
  intros Lr Le Br Be Hn F M. destruct (single_mat (K := K) n r Hn Lr Br) as (A & _ & PA). destruct (single_mat (K := K) n err Hn Le Be) as (E & _ & PE).
  apply (maps_prow n A r _ _ PA). apply (error_eigen n A E r err v psi); try assumption; [apply (fixes_prow n A r v PA), F|apply (maps_prow n E err v psi PE), M].
Qed.
Fixpoint loop_phase (n : nat) (rows : list (list Z)) (err : list Z) : K :=
  match rows with [] => 1 | r :: rest => if Z.eqb (inner_prod r err) 1 then - kpow im (y_count n r) else loop_phase n rest err end.
Lemma loop_phase_unit n rows err : loop_phase n rows err * (loop_phase n rows err)^* = 1.
Proof.
  destruct HC as (_ & _ & C3 & C4). induction rows as [|r rows IH]; cbn [loop_phase]; [rewrite sconj_1; ring|]. destruct (Z.eqb _ _); [|exact IH].
  pose proof (kpow_unit im (y_count n r) ltac:(rewrite C4; transitivity (- (im * im)); [ring|rewrite C3; ring])) as U. rewrite sconj_opp. transitivity (kpow im (y_count n r) * (kpow im (y_count n r))^* ); [ring|exact U].
Qed.
Theorem loop_effect n c rows err (v : @state K) : (1 <= n)%nat -> cn c = n -> (forall r, In r rows -> length r = (2 * n)%nat /\ binary r) -> length err = (2 * n)%nat -> binary err ->
  (forall r, In r rows -> eqs n (prow n (brow r) v) v) ->
  forall outs psi, eqs n (prow n (brow err) v) psi -> length outs = length rows ->
    eqs n (readme_loop h im n c rows outs psi) (if list_eq_dec bool_dec (firstn (length (shown rows err)) outs) (shown rows err) then sscale (loop_phase n rows err) psi else fun _ => 0).
Proof.
  intros Hn Ec. induction rows as [|r rows IH]; intros R Le Be F outs psi M Lo.
  - destruct outs; [|discriminate]. cbn. intros y Hy. unfold sscale. ring.
  - destruct outs as [|b bs]; [discriminate|]. destruct (R r (or_introl eq_refl)) as [Lr Br].
    assert (R' : forall r, In r rows -> length r = (2 * n)%nat /\ binary r) by (intros; apply R; right; assumption).
    assert (F' : forall r, In r rows -> eqs n (prow n (brow r) v) v) by (intros; apply F; right; assumption).
    pose proof (error_sign n r err v psi Lr Le Br Be Hn (F r (or_introl eq_refl)) M) as ES.
    pose proof (one_step n c r psi _ b Hn Ec Lr Br ES) as ST. cbn [readme_loop shown loop_phase]. set (left := drop_ancilla b _) in *.
    destruct (Z.eqb (inner_prod r err) 1) eqn:D.
    + destruct b; cbn [Bool.eqb] in ST.
      * cbn [length firstn]. destruct (list_eq_dec bool_dec [true] [true]) as [_|X]; [|contradiction]. intros y Hy. rewrite (apply_exec h im n r left Lr Br Hn y Hy). unfold sscale at 1.
        rewrite (prow_eqs n (brow r) _ _ ST y Hy), (ES y Hy). unfold sscale, sgn. ring.
      * cbn [length firstn]. destruct (list_eq_dec bool_dec [false] [true]) as [X|_]; [discriminate|]. apply loop_zero; assumption.
    + destruct b; cbn [Bool.eqb] in ST.
      * cbn [length firstn]. destruct (list_eq_dec bool_dec (true :: _) (false :: _)) as [X|_]; [discriminate|]. intros y Hy. rewrite (apply_exec h im n r left Lr Br Hn y Hy). unfold sscale.
        rewrite (prow_zero n (brow r) _ ST y Hy). ring.
      * assert (M' : eqs n (prow n (brow err) v) left) by (apply (eqs_trans _ _ psi); [exact M|apply eqs_sym, ST]).
        specialize (IH R' Le Be F' bs left M' ltac:(cbn in Lo; lia)). apply (eqs_trans _ _ _ _ IH). cbn [length firstn].
        destruct (list_eq_dec bool_dec (firstn _ bs) _) as [X|X], (list_eq_dec bool_dec (false :: _) (false :: _)) as [Y|Y]; try (exfalso; congruence); [|apply eqs_refl].
        intros y Hy. unfold sscale. rewrite (ST y Hy). reflexivity.
Qed.
(** a detected error takes every state fixed by the rows to an orthogonal one *)
Lemma levs_prow n row (psi : @state K) : eqs n (exec [] (levs [] (brow row) (zpart n (brow row)) (seq O n)) psi) (prow n (brow row) psi).
Proof. intros y Hy. rewrite exec_paulis by (first [lia|intros ? []]). reflexivity. Qed.
Lemma prow_unitary n row (psi phi : @state K) : inner n (prow n (brow row) psi) (prow n (brow row) phi) = inner n psi phi.
Proof.
  rewrite <- (inner_ext n _ _ _ _ (levs_prow n row psi) (levs_prow n row phi)).
  destruct HC as (C1 & C2 & C3 & C4). apply inner_exec; try assumption. apply (levs_proper n 0 n 0); try lia. intros ? [].
Qed.
Lemma inner_scale n (a b : K) (psi phi : @state K) : inner n (sscale a psi) (sscale b phi) = a^* * b * inner n psi phi.
Proof. unfold inner, sscale. rewrite <- isum_mul. apply isum_ext. intros y _. rewrite sconj_mul. ring. Qed.
Lemma inner_scale_r n (z : K) (psi phi : @state K) : inner n psi (sscale z phi) = z * inner n psi phi.
Proof. rewrite (inner_ext n psi _ (sscale 1 psi) (sscale z phi)); [rewrite inner_scale, sconj_1; ring|intros y _; unfold sscale; ring|apply eqs_refl]. Qed.
Lemma inner_zero_r n (psi : @state K) : inner n psi (fun _ => 0) = 0.
Proof. rewrite (inner_ext n psi _ psi (sscale 0 psi)); [rewrite inner_scale_r; ring|apply eqs_refl|intros y _; unfold sscale; ring]. Qed.
Theorem detected_orthogonal n rows err (v psi : @state K) : (1 <= n)%nat -> (forall r, In r rows -> length r = (2 * n)%nat /\ binary r) -> length err = (2 * n)%nat -> binary err ->
  (forall r, In r rows -> eqs n (prow n (brow r) v) v) -> eqs n (prow n (brow err) v) psi -> In true (shown rows err) -> inner n v psi = 0.
Proof.
  intros Hn R Le Be F M D. assert (X : exists r, In r rows /\ Z.eqb (inner_prod r err) 1 = true).
  { clear R F. induction rows as [|r rows IH]; [destruct D|]. cbn [shown] in D. destruct (Z.eqb (inner_prod r err) 1) eqn:E; [exists r; split; [left; reflexivity|exact E]|].
    destruct D as [D|D]; [discriminate|]. destruct (IH D) as (r' & I & E'). exists r'. split; [right; exact I|exact E']. }
  destruct X as (r & I & E). destruct (R r I) as [Lr Br]. pose proof (error_sign n r err v psi Lr Le Br Be Hn (F r I) M) as ES. rewrite E in ES.
  apply (twice_zero h im HC). rewrite <- (prow_unitary n r v psi) at 1. rewrite (inner_ext n _ _ v (sscale (sgn true) psi) (F r I) ES).
  transitivity (inner n (sscale 1 v) (sscale (sgn true) psi)); [apply inner_ext; [intros y _; unfold sscale; ring|apply eqs_refl]|]. rewrite inner_scale. unfold sgn. rewrite sconj_1. ring.
Qed.
End Loop.

(** ** logical operators between encoder and decoder *)
Section Logical.
Context {K : StarRing}.
Variables h im : K.
Add Ring KringW2 : (s_rt K).
Notation exec := (exec h im).
Open Scope K_scope.
Hypothesis HC : qubit_constants h im.
Notation flipped y t := (setb y t (negb (getb y t))).

Lemma flipped_twice y t : flipped (flipped y t) t = y.
Proof.
  destruct (lt_dec t (length y)) as [H|H].
  - rewrite getb_setb by exact H. rewrite Nat.eqb_refl, Bool.negb_involutive, setb_setb. apply setb_same.
  - assert (X : forall w b, length w = length y -> setb w t b = w).
    { intros w b Hw. apply bits_eq; [apply setb_length|]. intros j Hj. rewrite setb_length in Hj. rewrite getb_setb by exact Hj. destruct (Nat.eqb_spec j t); [lia|reflexivity]. }
    rewrite (X y) by reflexivity. apply X. reflexivity.
Qed.
Lemma ket_flipped m y t : ket (K := K) m (flipped y t) = ket (flipped m t) y.
Proof.
  unfold ket. destruct (list_eq_dec bool_dec (flipped y t) m) as [A|A], (list_eq_dec bool_dec y (flipped m t)) as [B|B]; try reflexivity; exfalso.
  - apply B. rewrite <- A. symmetry. apply flipped_twice.
  - apply A. rewrite B. apply flipped_twice.
Qed.
Lemma message_flip i st : binary st -> i < length st -> message (flip_bit i st) = flipped (message st) i.
Proof.
  intros B Hi. apply bits_eq; [rewrite setb_length; unfold message, flip_bit; rewrite !map_length, seq_length; reflexivity|]. intros j Hj.
  assert (Lj : j < length st) by (unfold message, flip_bit in Hj; rewrite !map_length, seq_length in Hj; exact Hj).
  rewrite getb_setb by (unfold message; rewrite map_length; exact Lj). rewrite !getb_message. rewrite (flip_mbit i st j B Lj). unfold flip. rewrite (Nat.eqb_sym i j).
  destruct (Nat.eqb_spec j i) as [->|N]; [apply xorb_true_r|apply xorb_false_r].
Qed.

Definition act (p : ascii) (i : nat) (x : K * list Z) : K * list Z :=
  let '(a, st) := x in
  if Ascii.eqb p "X" then (a, flip_bit i st)
  else if Ascii.eqb p "Z" then (a * sgn (mbit st i), st)
  else (a * sgn (mbit st i), flip_bit i st).
Definition letter_phase (p : ascii) : K := if Ascii.eqb p "Y" then - im else 1.
Definition xyz (p : ascii) : Prop := (p = "X" \/ p = "Y" \/ p = "Z")%char.

Lemma bare_one p i st : xyz p -> binary st -> i < length st ->
  eqs (length st) (sscale (letter_phase p) (letter_on h im p i (ket (message st)))) (sscale (fst (act p i (1, st))) (ket (message (snd (act p i (1, st)))))).
Proof.
  intros P B Hi y Hy. assert (L : length (message st) = length st) by (unfold message; apply map_length).
  assert (S : ket (message st) (setb y i (getb y i)) = ket (K := K) (message st) y) by (rewrite setb_same; reflexivity).
  assert (F : ket (message st) (setb y i (negb (getb y i))) = ket (K := K) (message (flip_bit i st)) y) by (rewrite ket_flipped, message_flip by assumption; reflexivity).
  assert (T : forall b, Bool.eqb b (getb y i) = true -> b = getb y i) by (intros b H; apply Bool.eqb_prop, H).
  assert (W : ket (K := K) (message (flip_bit i st)) y * sgn (negb (getb y i)) = ket (K := K) (message (flip_bit i st)) y * sgn (mbit st i)).
  { unfold ket. destruct (list_eq_dec bool_dec y (message (flip_bit i st))) as [E|_]; [|ring]. rewrite E, getb_message, (flip_mbit i st i B Hi). unfold flip. rewrite Nat.eqb_refl, xorb_true_r, negb_involutive. reflexivity. }
  assert (V : ket (K := K) (message st) y * sgn (getb y i) = ket (K := K) (message st) y * sgn (mbit st i)).
  { unfold ket. destruct (list_eq_dec bool_dec y (message st)) as [E|_]; [|ring]. rewrite E, getb_message. reflexivity. }
  destruct HC as (_ & _ & C3 & _).
  destruct P as [->|[->| ->]]; unfold sscale, letter_phase, letter_on, apply_gate; cbn [Ascii.eqb Bool.eqb act fst snd forallb].
  - destruct (getb y i); cbn [gate_entry negb] in *; rewrite F; ring.
  - destruct (getb y i); cbn [gate_entry negb] in *; rewrite F.
    + transitivity (- (im * im) * (ket (K := K) (message (flip_bit i st)) y * sgn false)); [unfold sgn; ring|]. rewrite C3, W. ring.
    + transitivity (- (im * im) * (ket (K := K) (message (flip_bit i st)) y * sgn true)); [unfold sgn; ring|]. rewrite C3, W. ring.
  - destruct (getb y i); cbn [gate_entry negb] in *; rewrite S.
    + transitivity (ket (K := K) (message st) y * sgn true); [unfold sgn; ring|]. rewrite V. ring.
    + transitivity (ket (K := K) (message st) y * sgn false); [unfold sgn; ring|]. rewrite V. ring.
Qed.
Lemma letter_lin p i (psi phi chi : @state K) a : (forall y, chi y = a * psi y + phi y) -> forall y, letter_on h im p i chi y = a * letter_on h im p i psi y + letter_on h im p i phi y.
Proof.
  intros E y. unfold letter_on. repeat (match goal with |- context [Ascii.eqb ?x ?z] => destruct (Ascii.eqb x z) end; [unfold apply_gate; cbn [forallb]; rewrite !E; ring|]). apply E.
Qed.
Lemma letter_eqs q p i (psi phi : @state K) : eqs q psi phi -> eqs q (letter_on h im p i psi) (letter_on h im p i phi).
Proof. intros E. unfold letter_on. repeat (match goal with |- context [Ascii.eqb ?x ?z] => destruct (Ascii.eqb x z) end; [apply apply_gate_eqs, E|]). exact E. Qed.
Lemma bare_step p i (l : list (K * list Z)) k : xyz p -> i < k -> (forall x, In x l -> length (snd x) = k /\ binary (snd x)) ->
  eqs k (superpose (map (act p i) l) (fun st => ket (message st))) (sscale (letter_phase p) (letter_on h im p i (superpose l (fun st => ket (message st))))).
Proof.
  intros P Hi. induction l as [|[a st] l IH]; intros Hl y Hy.
  - unfold superpose, sscale. cbn [map fold_right]. unfold letter_on. repeat (match goal with |- context [Ascii.eqb ?x ?z] => destruct (Ascii.eqb x z) end; [unfold apply_gate; cbn [forallb]; ring|]). ring.
  - destruct (Hl (a, st) (or_introl eq_refl)) as [L B]. cbn [snd] in L, B. specialize (IH ltac:(intros; apply Hl; right; assumption) y Hy).
    unfold sscale in *. rewrite (letter_lin p i (ket (message st)) (superpose l (fun st => ket (message st))) _ a) by reflexivity.
    pose proof (bare_one p i st P B ltac:(lia) y ltac:(lia)) as O. unfold sscale in O.
    transitivity (a * (fst (act p i (1, st)) * ket (message (snd (act p i (1, st)))) y) + superpose (map (act p i) l) (fun st => ket (message st)) y).
    + cbn [map]. unfold superpose at 1. cbn [fold_right]. unfold act; destruct (Ascii.eqb p "X"); [|destruct (Ascii.eqb p "Z")]; cbn [fst snd]; unfold superpose; ring.
    + rewrite <- O, IH. ring.
Qed.
Lemma act_ok p i k (l : list (K * list Z)) : (forall x, In x l -> length (snd x) = k /\ binary (snd x)) -> forall x, In x (map (act p i) l) -> length (snd x) = k /\ binary (snd x).
Proof.
  intros H x Hx. apply in_map_iff in Hx. destruct Hx as ([a st] & <- & I). destruct (H _ I) as [L B]. cbn [snd] in L, B. unfold act.
  destruct (Ascii.eqb p "X"); [|destruct (Ascii.eqb p "Z")]; cbn [snd]; [apply flip_ok; assumption|split; assumption|apply flip_ok; assumption].
Qed.

Lemma sscale_scale q a b (psi : @state K) : eqs q (sscale a (sscale b psi)) (sscale (a * b) psi).
Proof. intros y _. unfold sscale. ring. Qed.
Lemma run_bare_eqs q cmds : forall (psi phi : @state K), eqs q psi phi -> eqs q (run_bare h im cmds psi) (run_bare h im cmds phi).
Proof. induction cmds as [|[p i] r IH]; intros psi phi E; [exact E|]. apply IH, letter_eqs, E. Qed.
Lemma letter_scale p i a (psi : @state K) y : letter_on h im p i (sscale a psi) y = a * letter_on h im p i psi y.
Proof.
  unfold letter_on. repeat (match goal with |- context [Ascii.eqb ?x ?z] => destruct (Ascii.eqb x z) end; [unfold apply_gate, sscale; cbn [forallb]; ring|]). reflexivity.
Qed.
Lemma run_bare_scale q cmds : forall a (psi : @state K), eqs q (run_bare h im cmds (sscale a psi)) (sscale a (run_bare h im cmds psi)).
Proof.
  induction cmds as [|[p i] r IH]; intros a psi; [intros y _; reflexivity|]. cbn [run_bare].
  eapply eqs_trans; [apply run_bare_eqs; intros y _; apply letter_scale|apply IH].
Qed.
Definition phases (cmds : list (ascii * nat)) : K := fold_right (fun x z => letter_phase (fst x) * z) 1 cmds.
Definition acts (cmds : list (ascii * nat)) (l : list (K * list Z)) := fold_left (fun l x => map (act (fst x) (snd x)) l) cmds l.
Lemma acts_ok cmds k : forall l, (forall x, In x l -> length (snd x) = k /\ binary (snd x)) -> forall x, In x (acts cmds l) -> length (snd x) = k /\ binary (snd x).
Proof. induction cmds as [|[p i] r IH]; intros l H; [exact H|]. apply IH, act_ok, H. Qed.
Lemma bare_run k cmds : (forall p i, In (p, i) cmds -> xyz p /\ i < k) -> forall l, (forall x, In x l -> length (snd x) = k /\ binary (snd x)) ->
  eqs k (superpose (acts cmds l) (fun st => ket (message st))) (sscale (phases cmds) (run_bare h im cmds (superpose l (fun st => ket (message st))))).
Proof.
  induction cmds as [|[p i] r IH]; intros HP l Hl; [intros y _; unfold sscale; cbn [acts fold_left run_bare phases fold_right]; ring|].
  destruct (HP p i (or_introl eq_refl)) as [P Hi]. eapply eqs_trans; [apply (IH (fun p' i' H' => HP p' i' (or_intror H')) (map (act p i) l) (act_ok p i k l Hl))|].
  intros y Hy. unfold sscale at 1. rewrite (run_bare_eqs k r _ _ (bare_step p i l k P Hi Hl) y Hy), (run_bare_scale k r _ _ y Hy). unfold sscale. cbn [run_bare phases fold_right fst]. fold (phases r). ring.
Qed.

Variables (g : gens) (n k : nat) (c : code).
Hypothesis HI : init g n k None = Ok c.
Hypothesis HV : valid_generators n k (zd (stab c)).
Notation encode := (encode h im n c).

Lemma exec_sscale evs (psi : @state K) a y : exec [] evs (sscale a psi) y = a * exec [] evs psi y.
Proof.
  rewrite (exec_lin h im evs [] psi (fun _ => 0) (sscale a psi) a) by (intros; unfold sscale; ring).
  rewrite (exec_zero h im evs [] (fun _ => 0)) by reflexivity. ring.
Qed.
Lemma logical_step p i (l : list (K * list Z)) : xyz p -> i < k -> i < 10 -> (forall x, In x l -> length (snd x) = k /\ binary (snd x)) ->
  eqs n (exec [] (fst (logical_circuit c (seq O n) [p; digit i])) (superpose l encode)) (superpose (map (act p i) l) encode).
Proof.
  intros P Hi H10 Hl y Hy. rewrite exec_superpose. unfold superpose. induction l as [|[a st] l IH]; [reflexivity|].
  cbn [map fold_right]. rewrite IH by (intros; apply Hl; right; assumption).
  destruct (Hl (a, st) (or_introl eq_refl)) as [L B]. cbn [snd] in L, B. destruct (flip_ok k i st L B) as [L' B'].
  pose proof (logical_x_ok h im g n k c HI HV i) as LX. pose proof (logical_z_ok h im g n k c HI HV i st Hi H10 L B) as LZ.
  assert (GX : forallb gate_only (fst (logical_circuit c (seq O n) ["X"%char; digit i])) = true) by (rewrite (logical_x_events g n k c HI HV) by assumption; apply levs_gate).
  f_equal. cbn [fst snd]. destruct P as [->|[->| ->]]; cbn [act Ascii.eqb Bool.eqb fst snd].
  - rewrite (LX st Hi H10 L B y Hy). reflexivity.
  - rewrite (logical_y_ok h im g n k c HI HV i (encode st) Hi H10 y Hy).
    rewrite (exec_eqs h im n [] _ [] _ _ eq_refl GX LZ y Hy).
    rewrite exec_sscale. rewrite (LX st Hi H10 L B y Hy). ring.
  - rewrite (LZ y Hy). unfold sscale. ring.
Qed.

Lemma logical_gate p i : xyz p -> i < k -> i < 10 -> forallb gate_only (fst (logical_circuit c (seq O n) [p; digit i])) = true.
Proof.
  intros [->|[->| ->]] Hi H10; [rewrite (logical_x_events g n k c HI HV) by assumption|rewrite (logical_y_events g n k c HI HV) by assumption|rewrite (logical_z_events g n k c HI HV) by assumption]; apply levs_gate.
Qed.
Definition good (cmds : list (ascii * nat)) : Prop := forall p i, In (p, i) cmds -> xyz p /\ i < k /\ i < 10.
Lemma run_logical_eqs cmds : good cmds -> forall psi phi, eqs n psi phi -> eqs n (run_logical h im n c cmds psi) (run_logical h im n c cmds phi).
Proof.
  induction cmds as [|[p i] r IH]; intros G psi phi E; [exact E|]. destruct (G p i (or_introl eq_refl)) as (P & Hi & H10). cbn [run_logical].
  apply IH; [intros p' i' H'; apply G; right; exact H'|]. apply exec_eqs; [reflexivity|apply logical_gate; assumption|exact E].
Qed.
Lemma logical_run cmds : good cmds -> forall l, (forall x, In x l -> length (snd x) = k /\ binary (snd x)) ->
  eqs n (run_logical h im n c cmds (superpose l encode)) (superpose (acts cmds l) encode).
Proof.
  induction cmds as [|[p i] r IH]; intros G l Hl; [intros y _; reflexivity|]. destruct (G p i (or_introl eq_refl)) as (P & Hi & H10). cbn [run_logical].
  assert (G' : good r) by (intros p' i' H'; apply G; right; exact H').
  eapply eqs_trans; [apply run_logical_eqs; [exact G'|apply logical_step; assumption]|]. apply (IH G' _ (act_ok p i k l Hl)).
Qed.
Lemma superpose_beside (q : nat) (phi : @state K) l y : (forall x : K * list Z, In x l -> length (snd x) = k) -> length y = (n + k)%nat ->
  superpose l (fun st => tensor n phi (message st)) y = beside n phi (superpose l (fun st => ket (message st))) y.
Proof.
  intros _ _. unfold beside, superpose. induction l as [|[a st] l IH]; cbn [fold_right fst snd]; [ring|]. rewrite IH. unfold tensor, ket. destruct (list_eq_dec bool_dec (skipn n y) (message st)); ring.
Qed.
Lemma beside_eqs (phi : @state K) (u v : @state K) : eqs k u v -> eqs (n + k) (beside n phi u) (beside n phi v).
Proof. intros E y Hy. unfold beside. rewrite E; [reflexivity|]. rewrite skipn_length. lia. Qed.
Lemma beside_zeros psi l : (forall x, In x l -> length (snd x) = k /\ binary (snd x)) -> eqs n psi (superpose l encode) ->
  eqs (n + k) (beside n psi (ket (repeat false k))) (superpose l (fun st => tensor n (encode st) (repeat false k))).
Proof.
  intros Hl E y Hy. unfold beside. rewrite (E (firstn n y)) by (rewrite firstn_length; lia). clear.
  unfold superpose. induction l as [|[a st] l IH]; cbn [fold_right fst snd]; [ring|]. rewrite <- IH. unfold tensor, ket. destruct (list_eq_dec bool_dec (skipn n y) (repeat false k)); ring.
Qed.
Lemma measures_eqs q evs : forall outs (p p' : @state K), Forall (fun e => match e with Measure _ | Dealloc _ => True | _ => False end) evs ->
  eqs q p p' -> eqs q (exec outs evs p) (exec outs evs p').
Proof.
  induction evs as [|e evs IH]; intros outs p p' F H; [exact H|]. apply Forall_cons_iff in F. destruct F as [Pe F]. destruct e; try contradiction; cbn [CircuitSpec.exec].
  - apply IH; [exact F|]. intros y Hy. unfold project. rewrite H by exact Hy. reflexivity.
  - apply IH; assumption.
Qed.
Lemma dec_congr deal outs : 
  (forall psi phi, eqs (n + k) psi phi -> eqs (n + k) (exec outs (fst (decoding_circuit c (n + k) (seq O (n + k)) false deal)) psi) (exec outs (fst (decoding_circuit c (n + k) (seq O (n + k)) false deal)) phi)) /\
  (forall psi phi, eqs n psi phi -> eqs (n + k) (exec outs (fst (decoding_circuit c n (seq O n) true deal)) psi) (exec outs (fst (decoding_circuit c n (seq O n) true deal)) phi)).
Proof.
  assert (M : forall l, Forall (fun e => match e with Measure _ | Dealloc _ => True | _ => False end) (map Measure l ++ map Dealloc l)).
  { intros l. apply Forall_app. split; apply Forall_map, Forall_forall; auto. }
  assert (M' : forall l, Forall (fun e => match e with Measure _ | Dealloc _ => True | _ => False end) (map Measure l)) by (intros l; apply Forall_map, Forall_forall; auto).
  split; intros psi phi E.
  - rewrite (decoding_with_ancillas g n k c HI HV). cbn [fst]. rewrite !exec_app by apply dec_gate. apply measures_eqs; [destruct deal; [apply M|constructor]|].
    apply exec_eqs; [reflexivity|apply dec_gate|exact E].
  - rewrite (decoding_add_ancillas g n k c HI HV). cbn [fst]. rewrite !exec_alloc_app, !exec_app by apply dec_gate. apply measures_eqs; [destruct deal; [apply M'|constructor]|].
    apply exec_eqs; [reflexivity|apply dec_gate|].
    eapply eqs_trans; [apply (alloc_tensor h im n k c)|]. apply (eqs_sym (n + k)%nat). eapply eqs_trans; [apply (alloc_tensor h im n k c)|]. intros y Hy. unfold tensor. rewrite E; [reflexivity|]. rewrite firstn_length. lia.
Qed.
Lemma phases_y cmds : minus_i_per_y im cmds = phases cmds.
Proof. induction cmds as [|[p i] r IH]; [reflexivity|]. cbn [minus_i_per_y phases fold_right fst]. fold (minus_i_per_y im r) (phases r). rewrite IH. unfold letter_phase. destruct (Ascii.eqb p "Y"); [reflexivity|ring]. Qed.
(** encoder, logical operators, decoder *)
Theorem workflow cmds l : good cmds -> (forall x, In x l -> length (snd x) = k /\ binary (snd x)) ->
  let after := run_logical h im n c cmds (superpose l encode) in
  let answer := sscale (minus_i_per_y im cmds) (run_bare h im cmds (superpose l (fun st => ket (message st)))) in
  eqs (n + k) (exec [] (fst (decoding_circuit c (n + k) (seq O (n + k)) false false)) (beside n after (ket (repeat false k)))) (beside n (encode (repeat 0%Z k)) answer) /\
  eqs (n + k) (exec [] (fst (decoding_circuit c n (seq O n) true false)) after) (beside n (encode (repeat 0%Z k)) answer).
Proof.
  intros G Hl after answer. pose proof (logical_run cmds G l Hl) as R. fold after in R. pose proof (acts_ok cmds k l Hl) as Hl'.
  destruct (decode_superposition h im g n k c HI HV HC (acts cmds l) Hl') as [D1 D2]. destruct (dec_congr false []) as [C1 C2].
  assert (A : eqs (n + k) (superpose (acts cmds l) (fun st => tensor n (encode (repeat 0%Z k)) (message st))) (beside n (encode (repeat 0%Z k)) answer)).
  { intros y Hy. rewrite (superpose_beside O) by (try exact Hy; intros x Hx; apply Hl', Hx). apply beside_eqs; [|exact Hy]. unfold answer. rewrite phases_y. apply bare_run; [|exact Hl]. intros p i H. destruct (G p i H) as (? & ? & ?). auto. }
  split.
  - eapply eqs_trans; [apply C1, (beside_zeros after _ Hl' R)|]. eapply eqs_trans; [exact D1|exact A].
  - eapply eqs_trans; [apply C2, R|]. eapply eqs_trans; [exact D2|exact A].
Qed.
Theorem workflow_measured outs : exists phi1 phi2, forall cmds l, good cmds -> (forall x, In x l -> length (snd x) = k /\ binary (snd x)) ->
  let after := run_logical h im n c cmds (superpose l encode) in
  let answer := sscale (minus_i_per_y im cmds) (run_bare h im cmds (superpose l (fun st => ket (message st)))) in
  eqs (n + k) (exec outs (fst (decoding_circuit c (n + k) (seq O (n + k)) false true)) (beside n after (ket (repeat false k)))) (beside n phi1 answer) /\
  eqs (n + k) (exec outs (fst (decoding_circuit c n (seq O n) true true)) after) (beside n phi2 answer).
Proof.
  destruct (decode_measure h im g n k c HI HV HC outs) as (phi1 & phi2 & D). exists phi1, phi2.
  intros cmds l G Hl after answer. pose proof (logical_run cmds G l Hl) as R. fold after in R. pose proof (acts_ok cmds k l Hl) as Hl'.
  destruct (D (acts cmds l) Hl') as [D1 D2]. destruct (dec_congr true outs) as [C1 C2].
  assert (A : forall phi, eqs (n + k) (superpose (acts cmds l) (fun st => tensor n phi (message st))) (beside n phi answer)).
  { intros phi y Hy. rewrite (superpose_beside O) by (try exact Hy; intros x Hx; apply Hl', Hx). apply beside_eqs; [|exact Hy]. unfold answer. rewrite phases_y. apply bare_run; [|exact Hl]. intros p i H. destruct (G p i H) as (? & ? & ?). auto. }
  split.
  - eapply eqs_trans; [apply C1, (beside_zeros after _ Hl' R)|]. eapply eqs_trans; [exact D1|apply A].
  - eapply eqs_trans; [apply C2, R|]. eapply eqs_trans; [exact D2|apply A].
Qed.
End Logical.
