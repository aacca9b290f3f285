(** single_syndrome_measurement against the textbook Pauli strings (C103). *)
From Verif Require Import Py ZMat CodesModel RankSpec CodesSpec BoolLin Rank Gauss CodesProofs CodesProofs2
  Scalar PauliModel PauliSpec PauliProofs PauliProofs2 CircuitModel CircuitSpec CircuitProofs EncodeProofs CircuitProofs2 CircuitProofs3 CircuitProofs4 CircuitProofs5 TextbookSpec.
Open Scope nat_scope.

Definition lx (c : ascii) : bool := (Ascii.eqb c "X" || Ascii.eqb c "Y")%bool.
Definition lz (c : ascii) : bool := (Ascii.eqb c "Z" || Ascii.eqb c "Y")%bool.
Definition b2 (b : bool) : Z := if b then 1%Z else 0%Z.
Definition row_of (p : list ascii) : list Z := map (fun c => b2 (lx c)) p ++ map (fun c => b2 (lz c)) p.
Lemma row_of_length p : length (row_of p) = 2 * length p.
Proof. unfold row_of. rewrite app_length, !map_length. lia. Qed.
Lemma row_of_binary p : binary (row_of p).
Proof.
  unfold binary, row_of. apply Forall_app. split; apply Forall_forall; intros z Hz; apply in_map_iff in Hz; destruct Hz as (c & <- & _);
  [destruct (lx c)|destruct (lz c)]; cbn; auto.
Qed.
Lemma row_of_x p j : j < length p -> nth j (row_of p) 0%Z = b2 (lx (nth j p "I"%char)).
Proof.
  intros H. unfold row_of. rewrite app_nth1 by (rewrite map_length; exact H).
  rewrite (nth_indep _ 0%Z (b2 (lx "I"%char))) by (rewrite map_length; exact H). apply (map_nth (fun c => b2 (lx c))).
Qed.
Lemma row_of_z p j : j < length p -> nth (length p + j) (row_of p) 0%Z = b2 (lz (nth j p "I"%char)).
Proof.
  intros H. unfold row_of. rewrite app_nth2 by (rewrite map_length; lia). rewrite map_length. replace (length p + j - length p) with j by lia.
  rewrite (nth_indep _ 0%Z (b2 (lz "I"%char))) by (rewrite map_length; exact H). apply (map_nth (fun c => b2 (lz c))).
Qed.
Lemma letter_nth p j : Forall pauli_letter p -> pauli_letter (nth j p "I"%char).
Proof.
  intros F. destruct (le_lt_dec (length p) j) as [L|L]; [rewrite nth_overflow by exact L; left; reflexivity|].
  rewrite Forall_forall in F. apply F, nth_In, L.
Qed.
Lemma row_of_str p : Forall pauli_letter p -> str_of (length p) (row_of p) = p.
Proof.
  intros F. apply (nth_ext _ _ "I"%char "I"%char); [unfold str_of; rewrite map_length, seq_length; reflexivity|].
  unfold str_of. rewrite map_length, seq_length. intros j Hj.
  rewrite (nth_indep _ _ (cchar (nth 0 (row_of p) 0%Z) (nth (length p + 0) (row_of p) 0%Z))) by (rewrite map_length, seq_length; exact Hj).
  rewrite (map_nth (fun i => cchar (nth i (row_of p) 0%Z) (nth (length p + i) (row_of p) 0%Z))), seq_nth by exact Hj. cbn [Nat.add].
  rewrite row_of_x, row_of_z by exact Hj. destruct (letter_nth p j F) as [-> | [-> | [-> | ->]]]; reflexivity.
Qed.
Lemma stands_names n p arg : length p = n -> Forall pauli_letter p -> stands_for p arg -> exists row,
  length row = 2 * n /\ binary row /\ names arg row /\ str_of n row = p.
Proof.
  intros L F [->|(row & -> & B & Lr & E)].
  - exists (row_of p). rewrite <- L, row_of_length. split; [reflexivity|]. split; [apply row_of_binary|]. split; [|apply row_of_str, F].
    right. exists p. split; [reflexivity|]. rewrite (to_str_row (length p)), row_of_str by (apply row_of_length || apply row_of_binary || exact F). reflexivity.
  - exists row. rewrite <- L. split; [exact Lr|]. split; [exact B|]. split; [left; reflexivity|].
    rewrite (to_str_row (length p) row Lr B) in E. injection E as E. exact E.
Qed.

Section Textbook.
Context {K : StarRing}.
Variables h im : K.
Add Ring KringTB : (s_rt K).
Notation exec := (exec h im).
Open Scope K_scope.

Lemma string_exec n row (psi : @state K) : binary row ->
  pauli_on h im (str_of n row) psi = exec [] (flat_map (fun j => alev (brow row j) (zpart n (brow row) j) j) (seq O n)) psi.
Proof.
  intros B. unfold pauli_on, str_of.
  assert (G : forall m s phi, string_from h im s (map (fun i => cchar (nth i row 0%Z) (nth (n + i) row 0%Z)) (seq s m)) phi =
     exec [] (flat_map (fun j => alev (brow row j) (zpart n (brow row) j) j) (seq s m)) phi).
  { induction m as [|m IH]; intros s phi; [reflexivity|]. cbn [seq map string_from flat_map].
    rewrite IH, exec_app by apply alev_gate. f_equal. unfold zpart.
    destruct (cchar_cases n row s B) as [(E1 & E2 & ->)|[(E1 & E2 & ->)|[(E1 & E2 & ->)|(E1 & E2 & ->)]]]; rewrite E1, E2; reflexivity. }
  apply G.
Qed.
Lemma count_y_row n row : binary row -> count_y (str_of n row) = length (filter (fun j => brow row j && zpart n (brow row) j) (seq O n)).
Proof.
  intros B. unfold count_y, str_of. induction (seq O n) as [|j l IH]; [reflexivity|]. cbn [map filter]. unfold zpart in *.
  destruct (cchar_cases n row j B) as [(E1 & E2 & ->)|[(E1 & E2 & ->)|[(E1 & E2 & ->)|(E1 & E2 & ->)]]]; rewrite E1, E2; cbn [Ascii.eqb Bool.eqb andb length]; cbn [length]; rewrite ?IH; reflexivity.
Qed.
Lemma pauli_pact n row (psi : @state K) : binary row ->
  eqs n (pauli_on h im (str_of n row) psi) (sscale (kpow im (count_y (str_of n row))) (pact n (brow row) (zpart n (brow row)) psi)).
Proof.
  intros B y Hy. rewrite (string_exec n row psi B), apply_paulis by lia. unfold sscale. rewrite (count_y_row n row B). f_equal.
  rewrite exec_paulis by (first [lia|intros ? []]). reflexivity.
Qed.
Hypothesis HC : qubit_constants h im.
Lemma kpow_cancel y : kpow (- im) y * kpow im y = 1.
Proof.
  destruct HC as (_ & _ & I & _). induction y as [|y IH]; cbn [kpow]; [ring|].
  transitivity (- (im * im) * (kpow (- im) y * kpow im y)); [ring|]. rewrite I, IH. ring.
Qed.
Lemma pact_pauli n row (psi : @state K) : binary row ->
  eqs n (pact n (brow row) (zpart n (brow row)) psi) (sscale (kpow (- im) (count_y (str_of n row))) (pauli_on h im (str_of n row) psi)).
Proof.
  intros B y Hy. unfold sscale. rewrite (pauli_pact n row psi B y Hy). unfold sscale.
  set (q := pact _ _ _ _ _). transitivity ((kpow (- im) (count_y (str_of n row)) * kpow im (count_y (str_of n row))) * q); [rewrite kpow_cancel; ring|ring].
Qed.

Lemma kpow_even y : Nat.even y = true -> kpow (- im) y = sgn (Nat.odd (Nat.div2 y)).
Proof.
  destruct HC as (_ & _ & I & _). intros E. apply Nat.even_spec in E. destruct E as (m & ->). rewrite Nat.div2_double.
  induction m as [|m IH]; [reflexivity|]. replace (2 * Datatypes.S m)%nat with (Datatypes.S (Datatypes.S (2 * m))) by lia. cbn [kpow]. rewrite IH, Nat.odd_succ, <- Nat.negb_odd.
  destruct (Nat.odd m); cbn [negb sgn]; [transitivity (- (im * im)); [ring|rewrite I; ring]|transitivity (im * im); [ring|rewrite I; ring]].
Qed.

Variables (n : nat) (c : code).
Hypothesis Ec : cn c = n.
(** the state left on the code qubits by outcome b, the ancilla having started in a *)
Definition left_by (p : list ascii) (v : @state K) (s : bool) : @state K :=
  fun w => h * h * (v w + sgn s * (kpow (- im) (count_y p) * pauli_on h im p v w)).
Theorem branches p arg v a b : length p = n -> Forall pauli_letter p -> stands_for p arg ->
  (snd (single_syndrome_measurement c (n + 1) (seq O (n + 1)) arg) = Ok n /\
   eqs (n + 1) (exec [b] (fst (single_syndrome_measurement c (n + 1) (seq O (n + 1)) arg)) (tensor n v [a])) (tensor n (left_by p v (xorb a b)) [b])) /\
  (snd (single_syndrome_measurement c n (seq O n) arg) = Ok n /\
   eqs (n + 1) (exec [b] (fst (single_syndrome_measurement c n (seq O n) arg)) v) (tensor n (left_by p v b) [b])).
Proof.
  intros L F S. destruct (stands_names n p arg L F S) as (row & Lr & B & N & <-).
  rewrite (syndrome_with_ancilla n c Ec arg row Lr B N), (syndrome_fresh n c Ec arg row Lr B N). cbn [fst snd].
  assert (M : forall a, eqs (n + 1) (exec [b] (syn_events n (brow row) (zpart n (brow row)) ++ [Measure n]) (tensor n v [a])) (tensor n (left_by (str_of n row) v (xorb a b)) [b])).
  { intros a' y Hy. rewrite exec_app by (cbn [syn_events forallb gate_only]; rewrite forallb_app, levs_gate; reflexivity).
    cbn [CircuitSpec.exec hd tl]. unfold project. rewrite (y_split n y Hy). set (w := firstn n y). set (b0 := getb y n).
    assert (Hw : length w = n) by (unfold w; rewrite firstn_length; lia).
    rewrite getb_last, tensor_last, syn_core by exact Hw. destruct (Bool.eqb b0 b) eqn:E; [|reflexivity]. apply Bool.eqb_prop in E. rewrite E.
    unfold left_by. rewrite (pact_pauli n row v B w Hw). reflexivity. }
  split; (split; [reflexivity|]); [apply M|].
  cbn [CircuitSpec.exec]. rewrite exec_dealloc by (cbn [syn_events forallb gate_only]; rewrite forallb_app, levs_gate; reflexivity).
  intros y Hy. rewrite <- (xorb_false_l b) at 2. rewrite <- (M false y Hy).
  rewrite !exec_app by (cbn [syn_events forallb gate_only]; rewrite forallb_app, levs_gate; reflexivity).
  cbn [CircuitSpec.exec]. unfold project.
  rewrite (exec_eqs h im (n + 1) [b] (syn_events n (brow row) (zpart n (brow row))) [b] (add_qubit n v) (tensor n v [false])); try reflexivity; [|apply (alloc_one h im n c)|exact Hy].
  cbn [syn_events forallb gate_only]; rewrite forallb_app, levs_gate; reflexivity.
Qed.

Lemma left_even p v e s : Nat.even (count_y p) = true -> eqs n (pauli_on h im p v) (sscale (sgn e) v) ->
  eqs n (left_by p v s) (if Bool.eqb s (xorb e (Nat.odd (Nat.div2 (count_y p)))) then v else fun _ => 0).
Proof.
  intros E H w Hw. unfold left_by. rewrite (H w Hw), (kpow_even _ E). unfold sscale. destruct HC as (H2 & _).
  destruct (Nat.odd _), s, e; cbn [xorb Bool.eqb sgn]; try ring;
  (transitivity ((h * h + h * h) * v w); [ring|rewrite H2; ring]).
Qed.
Lemma tensor_eqs (v v' : @state K) x : eqs n v v' -> eqs (n + 1) (tensor n v x) (tensor n v' x).
Proof. intros H y Hy. unfold tensor. destruct (list_eq_dec bool_dec (skipn n y) x); [apply H; rewrite firstn_length; lia|reflexivity]. Qed.
Theorem even_case p arg v a e b : length p = n -> Forall pauli_letter p -> stands_for p arg ->
  Nat.even (count_y p) = true -> eqs n (pauli_on h im p v) (sscale (sgn e) v) ->
  eqs (n + 1) (exec [b] (fst (single_syndrome_measurement c (n + 1) (seq O (n + 1)) arg)) (tensor n v [a]))
    (if Bool.eqb b (xorb a (xorb e (Nat.odd (Nat.div2 (count_y p))))) then tensor n v [b] else fun _ => 0) /\
  eqs (n + 1) (exec [b] (fst (single_syndrome_measurement c n (seq O n) arg)) v)
    (if Bool.eqb b (xorb e (Nat.odd (Nat.div2 (count_y p)))) then tensor n v [b] else fun _ => 0).
Proof.
  intros L F S E H. destruct (branches p arg v a b L F S) as [[_ A] [_ B]].
  assert (Z : forall y, tensor n (fun _ => 0) [b] y = (0 : K)) by (intros y; unfold tensor; destruct (list_eq_dec _ _ _); reflexivity).
  split; intros y Hy.
  - rewrite (A y Hy), (tensor_eqs _ _ [b] (left_even p v e (xorb a b) E H) y Hy).
    replace (Bool.eqb (xorb a b) (xorb e (Nat.odd (Nat.div2 (count_y p))))) with (Bool.eqb b (xorb a (xorb e (Nat.odd (Nat.div2 (count_y p)))))) by (destruct a, b, e, (Nat.odd _); reflexivity).
    destruct (Bool.eqb b _); [reflexivity|apply Z].
  - rewrite (B y Hy), (tensor_eqs _ _ [b] (left_even p v e b E H) y Hy). destruct (Bool.eqb b _); [reflexivity|apply Z].
Qed.

Lemma mod4 y r : Nat.modulo y 4 = r -> r = 0%nat \/ r = 2%nat -> Nat.even y = true /\ Nat.odd (Nat.div2 y) = negb (Nat.eqb r 0).
Proof.
  intros M R. pose proof (Nat.div_mod y 4 ltac:(lia)) as D. rewrite M in D. set (q := (y / 4)%nat) in *. clearbody q.
  destruct R as [-> | ->]; rewrite D.
  - split; [rewrite Nat.add_0_r, Nat.even_mul; reflexivity|]. replace (4 * q + 0)%nat with (2 * (2 * q))%nat by lia. rewrite Nat.div2_double, <- Nat.negb_even, Nat.even_mul. reflexivity.
  - split; [rewrite Nat.even_add, Nat.even_mul; reflexivity|]. replace (4 * q + 2)%nat with (2 * (2 * q + 1))%nat by lia. rewrite Nat.div2_double, <- Nat.negb_even, Nat.even_add, Nat.even_mul. reflexivity.
Qed.
Theorem four_ys p arg v a e b : length p = n -> Forall pauli_letter p -> stands_for p arg ->
  Nat.modulo (count_y p) 4 = 0%nat -> eqs n (pauli_on h im p v) (sscale (sgn e) v) ->
  eqs (n + 1) (exec [b] (fst (single_syndrome_measurement c (n + 1) (seq O (n + 1)) arg)) (tensor n v [a]))
    (if Bool.eqb b (xorb a e) then tensor n v [b] else fun _ => 0) /\
  eqs (n + 1) (exec [b] (fst (single_syndrome_measurement c n (seq O n) arg)) v)
    (if Bool.eqb b e then tensor n v [b] else fun _ => 0).
Proof.
  intros L F S Y H. destruct (mod4 _ _ Y (or_introl eq_refl)) as [E D]. pose proof (even_case p arg v a e b L F S E H) as X. rewrite D in X. cbn [Nat.eqb negb] in X.
  rewrite xorb_false_r in X. exact X.
Qed.
Theorem two_ys p arg v a e b : length p = n -> Forall pauli_letter p -> stands_for p arg ->
  Nat.modulo (count_y p) 4 = 2%nat -> eqs n (pauli_on h im p v) (sscale (sgn e) v) ->
  eqs (n + 1) (exec [b] (fst (single_syndrome_measurement c (n + 1) (seq O (n + 1)) arg)) (tensor n v [a]))
    (if Bool.eqb b (xorb a (negb e)) then tensor n v [b] else fun _ => 0) /\
  eqs (n + 1) (exec [b] (fst (single_syndrome_measurement c n (seq O n) arg)) v)
    (if Bool.eqb b (negb e) then tensor n v [b] else fun _ => 0).
Proof.
  intros L F S Y H. destruct (mod4 _ _ Y (or_intror eq_refl)) as [E D]. pose proof (even_case p arg v a e b L F S E H) as X. rewrite D in X. cbn [Nat.eqb negb] in X.
  rewrite xorb_true_r in X. exact X.
Qed.

(** odd: every power is i or -i *)
Lemma kpow_odd y : Nat.odd y = true -> exists s, kpow (- im) y = sgn s * im.
Proof.
  intros O. apply Nat.odd_spec in O. destruct O as (m & ->). rewrite Nat.add_1_r. cbn [kpow]. rewrite (kpow_even (2 * m)) by (rewrite Nat.even_mul; reflexivity).
  rewrite Nat.div2_double. exists (negb (Nat.odd m)). destruct (Nat.odd m); cbn [negb sgn]; ring.
Qed.
Definition coin (p : list ascii) (e s : bool) : K := h * h * (1 + sgn (xorb e s) * kpow (- im) (count_y p)).
Lemma coin_norm p e s : Nat.odd (count_y p) = true -> (coin p e s)^* * coin p e s = h * h.
Proof.
  intros O. destruct (kpow_odd _ O) as (t & E). unfold coin. rewrite E. destruct HC as (H2 & Hh & I & Ic).
  assert (Cs : forall b : bool, (sgn b : K)^* = sgn b) by (intros []; cbn [sgn]; rewrite ?sconj_opp, ?sconj_1; reflexivity).
  rewrite !sconj_mul, sconj_add, !sconj_mul, sconj_1, !Cs, Hh, Ic.
  transitivity (h * h * (h * h) * (1 - (sgn (xorb e s) * sgn (xorb e s)) * (sgn t * sgn t) * (im * im))); [ring|].
  rewrite I. assert (Q : forall b : bool, (sgn b * sgn b : K) = 1) by (intros []; cbn [sgn]; ring). rewrite !Q.
  transitivity (h * h * (h * h + h * h)); [ring|rewrite H2; ring].
Qed.
Lemma left_odd p v e s : eqs n (pauli_on h im p v) (sscale (sgn e) v) -> eqs n (left_by p v s) (sscale (coin p e s) v).
Proof.
  intros H w Hw. unfold left_by, coin. rewrite (H w Hw). unfold sscale. destruct e, s; cbn [sgn xorb]; ring.
Qed.
Theorem odd_ys p arg v a e b : length p = n -> Forall pauli_letter p -> stands_for p arg ->
  Nat.odd (count_y p) = true -> eqs n (pauli_on h im p v) (sscale (sgn e) v) ->
  (exists z : K, z^* * z = h * h /\
   eqs (n + 1) (exec [b] (fst (single_syndrome_measurement c (n + 1) (seq O (n + 1)) arg)) (tensor n v [a])) (sscale z (tensor n v [b]))) /\
  (exists z : K, z^* * z = h * h /\
   eqs (n + 1) (exec [b] (fst (single_syndrome_measurement c n (seq O n) arg)) v) (sscale z (tensor n v [b]))).
Proof.
  intros L F S O H. destruct (branches p arg v a b L F S) as [[_ A] [_ B]].
  assert (T : forall z : K, forall y, tensor n (sscale z v) [b] y = sscale z (tensor n v [b]) y) by (intros z y; unfold tensor, sscale; destruct (list_eq_dec _ _ _); [reflexivity|ring]).
  split; [exists (coin p e (xorb a b))|exists (coin p e b)]; (split; [apply coin_norm, O|]); intros y Hy.
  - rewrite (A y Hy), (tensor_eqs _ _ [b] (left_odd p v e (xorb a b) H) y Hy). apply T.
  - rewrite (B y Hy), (tensor_eqs _ _ [b] (left_odd p v e b H) y Hy). apply T.
Qed.
End Textbook.

(** ** Encoded states (C104) *)
Definition no_y (e : event) : Prop := match e with Gate _ GY _ => False | Gate _ _ _ => True | _ => False end.
Lemma no_y_bind {A B} (m : circ A) (f : A -> circ B) : Forall no_y (fst m) -> (forall a, Forall no_y (fst (f a))) -> Forall no_y (fst (cbind m f)).
Proof.
  intros Hm Hf. destruct m as [l [a|e]]; cbn [cbind]; [|exact Hm]. specialize (Hf a). destruct (f a) as [l' r]. cbn [fst] in *. apply Forall_app. split; assumption.
Qed.
Lemma no_y_for {A} (l : list A) (f : A -> circ unit) : (forall a, Forall no_y (fst (f a))) -> Forall no_y (fst (cfor l f)).
Proof. intros H. induction l as [|a l IH]; [constructor|]. cbn [cfor]. apply no_y_bind; [apply H|intros _; exact IH]. Qed.
Ltac noy := first [ apply no_y_bind; [noy | intros ?; noy] | apply no_y_for; intros ?; noy | (match goal with |- Forall _ (fst (if ?b then _ else _)) => destruct b end); noy | (cbn [fst send lift cret craise]; repeat constructor) ].
Lemma encoding_no_y c register st : Forall no_y (fst (encoding_circuit c register st)).
Proof.
  unfold encoding_circuit. apply no_y_bind; [noy|intros _]. apply no_y_bind; [noy|intros _]. apply no_y_bind; [|intros _; apply no_y_bind; [|intros _]].
  - apply no_y_for. intros [i b]. noy.
  - destruct (Nat.ltb _ _); [|noy]. apply no_y_for. intros i. apply no_y_bind; [noy|intros row]. cbv zeta. apply no_y_bind; [noy|intros ctl].
    apply no_y_for. intros [j b]. noy.
  - apply no_y_for. intros i. apply no_y_bind; [noy|intros qi]. apply no_y_bind; [noy|intros _]. apply no_y_bind; [noy|intros row]. apply no_y_bind; [noy|intros q].
    apply no_y_for. intros [j p]. unfold enc_letter. noy.
Qed.

Section Encoded.
Context {K : StarRing}.
Variables h im : K.
Add Ring KringTE : (s_rt K).
Notation exec := (exec h im).
Open Scope K_scope.
Hypothesis HC : qubit_constants h im.

Lemma real_exec evs : forall psi : @state K, Forall no_y evs -> (forall y, (psi y)^* = psi y) -> forall y, (exec [] evs psi y)^* = exec [] evs psi y.
Proof.
  destruct HC as (_ & Hh & _). induction evs as [|e evs IH]; intros psi F R; [exact R|]. apply Forall_cons_iff in F. destruct F as [Fe F].
  destruct e as [cs g t| | |]; try contradiction. cbn [CircuitSpec.exec]. apply IH; [exact F|]. intros y. unfold apply_gate.
  destruct (forallb _ cs); [|apply R]. rewrite sconj_add, !sconj_mul, !R.
  assert (G : forall a b, (gate_entry h im g a b)^* = gate_entry h im g a b) by (intros [] []; destruct g; try contradiction; cbn [gate_entry]; rewrite ?sconj_opp, ?sconj_1, ?sconj_0, ?Hh; reflexivity).
  rewrite !G. reflexivity.
Qed.
Lemma isum_conj n : forall f : list bool -> K, (isum n f)^* = isum n (fun y => (f y)^*).
Proof. induction n as [|n IH]; intros f; cbn [isum]; [reflexivity|]. rewrite sconj_add, !IH. reflexivity. Qed.
Lemma twice_zero (x : K) : x = - x -> x = 0.
Proof. destruct HC as (H2 & _). intros E. transitivity ((h * h + h * h) * x); [rewrite H2; ring|]. transitivity (h * h * (x + x)); [ring|]. rewrite E at 1. ring. Qed.
Lemma xsum_count (P : nat -> bool) m : xsum m P = Nat.odd (length (filter P (seq O m))).
Proof.
  induction m as [|m IH]; [reflexivity|]. rewrite seq_S, filter_app, app_length, Nat.odd_add. cbn [xsum Nat.add filter]. rewrite <- IH. destruct (P m); reflexivity.
Qed.
Lemma odd_orthogonal n p (v : @state K) : length p = n -> Forall pauli_letter p -> Nat.odd (count_y p) = true ->
  (forall y, (v y)^* = v y) -> inner n v (pauli_on h im p v) = 0.
Proof.
  intros L F Od R. destruct HC as (C1 & C2 & C3 & C4). set (row := row_of p). assert (B : binary row) by apply row_of_binary.
  assert (Es : str_of n row = p) by (rewrite <- L; apply row_of_str, F).
  assert (X : inner n v (pact n (brow row) (zpart n (brow row)) v) = 0).
  { set (x := brow row). set (z := zpart n x).
    assert (U : inner n (pact n x z v) (pact n x z (pact n x z v)) = inner n v (pact n x z v)).
    { rewrite <- (inner_exec h im C1 C2 C3 C4 n [] (levs [] x z (seq O n)) v (pact n x z v)) by (apply (levs_proper n 0 n 0); [lia|lia|lia|intros ? []]).
      apply inner_ext; intros y Hy; rewrite exec_paulis by (first [lia|intros ? []]); reflexivity. }
    assert (Q : eqs n (pact n x z (pact n x z v)) (sscale (- (1)) v)).
    { intros y Hy. rewrite (pact_mul n n x z x z v (le_n n) y Hy). unfold sscale.
      rewrite (xsum_ext n _ (fun j => x j && z j)) by (intros; apply andb_comm).
      rewrite xsum_count. pose proof (count_y_row n row B) as Cy. rewrite Es in Cy. change (count_y p = length (filter (fun j => x j && z j) (seq O n))) in Cy. rewrite <- Cy, Od.
      rewrite (pact_ext n _ _ (fun _ => false) (fun _ => false)) by (intros; split; apply xorb_nilpotent). rewrite pact_id. cbn [sgn]. ring. }
    assert (C : inner n (pact n x z v) (sscale (- (1)) v) = - inner n v (pact n x z v)).
    { unfold inner. transitivity (- (1) * isum n (fun y => (v y)^* * pact n x z v y)); [|ring]. rewrite <- isum_mul. apply isum_ext. intros y _.
      unfold sscale. rewrite R. unfold pact. rewrite sconj_mul, R. destruct (xsum n _); cbn [sgn]; rewrite ?sconj_opp, ?sconj_1; ring. }
    apply twice_zero. rewrite <- C at 1. rewrite <- U. apply inner_ext; [intros y _; reflexivity|exact Q]. }
  transitivity (kpow im (count_y p) * inner n v (pact n (brow row) (zpart n (brow row)) v)); [|rewrite X; ring].
  unfold inner. rewrite <- isum_mul. apply isum_ext. intros y Hy. rewrite <- Es at 1. rewrite (pauli_pact h im n row v B y Hy), Es. unfold sscale. ring.
Qed.
Theorem encoded_odd n c st p : length p = n -> Forall pauli_letter p -> Nat.odd (count_y p) = true ->
  inner n (encode h im n c st) (pauli_on h im p (encode h im n c st)) = 0.
Proof.
  intros L F Od. apply odd_orthogonal; try assumption. unfold encode. apply real_exec; [apply encoding_no_y|].
  intros y. unfold zero_ket, ket. destruct (list_eq_dec _ _ _); [apply sconj_1|apply sconj_0].
Qed.
Lemma encoded_unit g n k c st : init g n k None = Ok c -> valid_generators n k (zd (stab c)) -> length st = k -> binary st ->
  inner n (encode h im n c st) (encode h im n c st) = 1.
Proof.
  intros HI HV L B. destruct HC as (C1 & C2 & C3 & C4). unfold encode. rewrite (encoding_events g n k c HI HV st L B). cbn [fst].
  destruct (struct_f g n k c HI HV) as (Hk & Hr & OF & U & Lx & V & Cm & Zs).
  rewrite (inner_exec h im C1 C2 C3 C4).
  - unfold zero_ket. rewrite inner_ket by apply repeat_length. unfold ket. destruct (list_eq_dec _ _ _); [reflexivity|contradiction].
  - apply enc_proper; (assumption || reflexivity).
Qed.
Theorem encoded_even g n k c st i p : init g n k None = Ok c -> valid_generators n k (zd (stab c)) ->
  Forall (fun row => Nat.even (y_count n row) = true) (zd (stab c)) -> length st = k -> binary st -> i < n - k ->
  binary_rep_to_pauli_str (nth i (zd (normal_form c)) []) = Ok p ->
  Nat.even (count_y p) = true /\
  eqs n (pauli_on h im p (encode h im n c st)) (sscale (sgn (Nat.odd (Nat.div2 (count_y p)))) (encode h im n c st)).
Proof.
  intros HI HV HE L B Hi Ep. destruct (struct_f g n k c HI HV) as (Hk & Hr & OF & U & Lx & V & Cm & Zs).
  destruct (okm_row n (n - k) _ i OF Hi) as [Lr Br].
  rewrite (to_str_row n _ Lr Br) in Ep. injection Ep as <-.
  assert (Y : Nat.even (count_y (str_of n (nth i (zd (normal_form c)) []))) = true).
  { rewrite <- Nat.negb_odd, (count_y_row n _ Br), <- xsum_count. pose proof (even_f g n k c HI HV HE i Hi) as Y. unfold ypar in Y. unfold zpart. apply negb_true_iff. exact Y. }
  split; [exact Y|]. intros y Hy.
  rewrite (pauli_pact h im n _ _ Br y Hy). unfold sscale.
  assert (FX : eqs n (pact n (brow (nth i (zd (normal_form c)) [])) (zpart n (brow (nth i (zd (normal_form c)) []))) (encode h im n c st)) (encode h im n c st)).
  { pose proof (encode_enc h im g n k c HI HV st L B) as E.
    apply (eqs_trans n _ (prow n (brow (nth i (zd (normal_form c)) [])) (enc h n k (n - k) (crank c) (bz (normal_form c)) (mbit st)))); [apply prow_eqs; exact E|].
    apply (eqs_trans n _ (enc h n k (n - k) (crank c) (bz (normal_form c)) (mbit st))); [|apply eqs_sym, E].
    apply (enc_stabilized h n k (n - k) (crank c) (bz (normal_form c))); try (assumption || reflexivity). apply (even_f g n k c HI HV HE). }
  rewrite (FX y Hy). f_equal.
  rewrite <- (kpow_even h im HC _ Y).
  assert (N : forall m, Nat.even m = true -> kpow im m = kpow (- im) m).
  { intros m Em. apply Nat.even_spec in Em. destruct Em as (q & ->). induction q as [|q IH]; [reflexivity|].
    replace (2 * Datatypes.S q)%nat with (Datatypes.S (Datatypes.S (2 * q))) by lia. cbn [kpow]. rewrite IH. ring. }
  apply N, Y.
Qed.
Theorem encoded_sign g n k c st i p : init g n k None = Ok c -> valid_generators n k (zd (stab c)) ->
  Forall (fun row => Nat.even (y_count n row) = true) (zd (stab c)) -> length st = k -> binary st -> i < n - k ->
  binary_rep_to_pauli_str (nth i (zd (normal_form c)) []) = Ok p ->
  (Nat.modulo (count_y p) 4 = 0%nat /\ eqs n (pauli_on h im p (encode h im n c st)) (encode h im n c st)) \/
  (Nat.modulo (count_y p) 4 = 2%nat /\ eqs n (pauli_on h im p (encode h im n c st)) (sscale (- (1)) (encode h im n c st))).
Proof.
  intros HI HV HE L B Hi Ep. destruct (encoded_even g n k c st i p HI HV HE L B Hi Ep) as [Y E]. set (y := count_y p) in *. clearbody y.
  apply Nat.even_spec in Y. destruct Y as (m & ->). rewrite Nat.div2_double in E.
  destruct (Nat.odd m) eqn:O; cbn [sgn] in E.
  - right. apply Nat.odd_spec in O. destruct O as (q & ->). split; [|exact E].
    replace (2 * (2 * q + 1))%nat with (2 + q * 4)%nat by lia. rewrite Nat.mod_add by lia. reflexivity.
  - left. rewrite <- Nat.negb_even in O. apply negb_false_iff, Nat.even_spec in O. destruct O as (q & ->). split.
    + replace (2 * (2 * q))%nat with (0 + q * 4)%nat by lia. rewrite Nat.mod_add by lia. reflexivity.
    + intros y Hy. rewrite (E y Hy). unfold sscale. ring.
Qed.
End Encoded.

(** ** The witnesses of C103 *)
Section Witnesses.
Context {K : StarRing}.
Variables h im : K.
Add Ring KringTW : (s_rt K).
Open Scope K_scope.
Lemma plus_sign n (p : list ascii) (v : @state K) : eqs n (pauli_on h im p v) v -> eqs n (pauli_on h im p v) (sscale (sgn false) v).
Proof. intros H y Hy. rewrite (H y Hy). unfold sscale. cbn [sgn]. ring. Qed.
Ltac entries := intros y Hy; repeat (destruct y as [|[] y]; try discriminate Hy);
  cbv -[sadd smul sopp s0 s1 sconj car]; cbn [s_rt].
Lemma z_one : eqs 1 (pauli_on h im ["Z"%char] (ket [true])) (sscale (sgn true) (ket [true])).
Proof. entries; ring. Qed.
Hypothesis HC : qubit_constants h im.
Lemma bell_fixed : eqs 2 (pauli_on h im ["Y"; "Y"]%char (splus (ket [false; false]) (sscale (- (1)) (ket [true; true])))) (splus (ket [false; false]) (sscale (- (1)) (ket [true; true]))).
Proof. destruct HC as (_ & _ & I & _). entries; try ring; ring [I]. Qed.
Lemma circular_fixed : eqs 2 (pauli_on h im ["Y"; "I"]%char (splus (ket [false; false]) (sscale im (ket [true; false])))) (splus (ket [false; false]) (sscale im (ket [true; false]))).
Proof. destruct HC as (_ & _ & I & _). entries; try ring; ring [I]. Qed.
End Witnesses.
Ltac yletters := cbv [str String.list_ascii_of_string]; repeat (apply Forall_cons; [unfold pauli_letter; auto|]); apply Forall_nil.
