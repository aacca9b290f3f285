(** What a circuit call has sent when it raises. *)
From Verif Require Import Py ZMat CodesModel Scalar CodesSpec CodesProofs CodesProofs2 Logical CircuitModel CircuitSpec CircuitProofs CircuitProofs2 CircuitProofs3
  CircuitProofs4 StringsSpec StringsProofs RegisterSpec RegisterProofs RegisterProofs2.
From Coq Require Import Ascii.
Open Scope nat_scope.

Lemma skipn_nth (l : list nat) : forall j, j < length l -> skipn j l = nth j l 0 :: skipn (S j) l.
Proof.
  induction l as [|q r IH]; intros j L; [cbn in L; lia|]. destruct j as [|j]; [reflexivity|]. cbn in L. rewrite skipn_cons. cbn [nth]. rewrite (IH j) by lia. reflexivity.
Qed.
Section Letters.
Variables (y : gate) (controls register : list nat) (F : nat * ascii -> circ unit).
Hypothesis FX : forall j, F (j, "X"%char) = cbind (lift (py_get register (Z.of_nat j))) (fun q => send (Gate controls GX q)).
Hypothesis FY : forall j, F (j, "Y"%char) = cbind (lift (qubitop_get register j)) (fun q => send (Gate controls y q)).
Hypothesis FZ : forall j, F (j, "Z"%char) = cbind (lift (py_get register (Z.of_nat j))) (fun q => send (Gate controls GZ q)).
Hypothesis FI : forall j, F (j, "I"%char) = cret tt.
Lemma get_over j : length register <= j -> py_get register (Z.of_nat j) = Err IndexError.
Proof.
  intros L. unfold py_get. destruct (Z.ltb_spec (Z.of_nat j) 0); [lia|]. destruct (Z.ltb_spec (Z.of_nat j) 0); [lia|]. rewrite Nat2Z.id.
  rewrite (proj2 (nth_error_None register j) L). reflexivity.
Qed.
Lemma op_over j : length register <= j -> qubitop_get register j = Err ValueError.
Proof. intros L. unfold qubitop_get. rewrite (proj2 (nth_error_None register j) L). reflexivity. Qed.
Lemma op_in j : j < length register -> qubitop_get register j = Ok (nth j register 0).
Proof. intros L. unfold qubitop_get. rewrite (nth_error_nth' register 0 L). reflexivity. Qed.
Lemma letters_from p : Forall pauli_letter p -> forall a,
  cfor (combine (seq a (length p)) p) F =
  (flat_map (fun pq => letter_gate y controls (fst pq) (snd pq)) (combine p (skipn a register)),
   match find (fun ch => negb (Ascii.eqb ch "I")) (skipn (length register - a) p) with
   | None => Ok tt | Some ch => Err (if Ascii.eqb ch "Y" then ValueError else IndexError) end).
Proof.
  intros P. induction P as [|ch p Hc P IH]; intros a; [destruct (length register - a); reflexivity|].
  cbn [length seq combine cfor]. destruct (Nat.ltb_spec a (length register)) as [L|L].
  - rewrite (skipn_nth register a L). replace (length register - a) with (S (length register - S a)) by lia. cbn [combine flat_map fst snd skipn].
    assert (E : F (a, ch) = (letter_gate y controls ch (nth a register 0), Ok tt)).
    { destruct Hc as [->|[->|[->| ->]]]; rewrite ?FI, ?FX, ?FY, ?FZ, ?(py_get_nat register a 0 L), ?(op_in a L); reflexivity. }
    rewrite E, cbind_ok, IH. reflexivity.
  - rewrite skipn_all2 by lia. replace (length register - a) with 0 by lia. cbn [flat_map skipn find].
    assert (E : F (a, ch) = ([], if Ascii.eqb ch "I" then Ok tt else Err (if Ascii.eqb ch "Y" then ValueError else IndexError))).
    { destruct Hc as [->|[->|[->| ->]]]; rewrite ?FI, ?FX, ?FY, ?FZ, ?(get_over a L), ?(op_over a L); reflexivity. }
    rewrite E. destruct (Ascii.eqb ch "I"); cbn [negb]; [|reflexivity].
    rewrite cbind_ok, IH. replace (length register - S a) with 0 by lia. rewrite skipn_all2 by lia. rewrite combine_nil. reflexivity.
Qed.
Lemma letters_any p : Forall pauli_letter p -> cfor (enumerate p) F = (gates y controls register p, outcome register p).
Proof. intros P. unfold enumerate. rewrite (letters_from p P 0), Nat.sub_0_r. reflexivity. Qed.
End Letters.

Lemma spelled_letters n r : length r = 2 * n -> binary r -> exists p, binary_rep_to_pauli_str r = Ok p /\ length p = n /\ spells n p r /\ Forall pauli_letter p.
Proof.
  intros L B. destruct (row_spelled n r L B) as (p & E & Lp & S). exists p. split; [exact E|]. split; [exact Lp|]. split; [exact S|].
  apply Forall_forall. intros ch I. apply (In_nth_error) in I. destruct I as (j & Ej). destruct S as [_ S].
  assert (Hj : j < n) by (rewrite <- Lp; apply nth_error_Some; congruence). destruct (S j Hj) as (ch' & E' & P & _). congruence.
Qed.
Lemma commands_any controls register p : Forall pauli_letter p ->
  cfor (enumerate p) (pauli_letter_cmd controls register) = (gates GmiY controls register p, outcome register p).
Proof. intros P. apply letters_any; [reflexivity|reflexivity|reflexivity|reflexivity|exact P]. Qed.

(** ** apply_stabilizer_circuit *)
Theorem apply_any n row arg register : length row = 2 * n -> binary row -> arg = AsArray row \/ arg = AsList row ->
  exists p, length p = n /\ spells n p row /\ apply_stabilizer_circuit register arg = (gates GY [] register p, outcome register p).
Proof.
  intros L B A. destruct (spelled_letters n row L B) as (p & E & Lp & S & P). exists p. split; [exact Lp|]. split; [exact S|].
  unfold apply_stabilizer_circuit. replace (match arg with AsArray row => _ | AsList row => _ | AsString _ => _ end) with (Ok p) by (destruct A as [-> | ->]; symmetry; exact E).
  change (lift (Ok p)) with (cret p). rewrite cbind_ret. apply letters_any; [reflexivity|reflexivity|reflexivity|reflexivity|exact P].
Qed.

(** ** single_syndrome_measurement with an ancilla *)
Lemma outcome_reaches register p : length p <= length register -> outcome register p = Ok tt.
Proof. intros L. unfold outcome, first_missing. rewrite skipn_all2 by exact L. reflexivity. Qed.
Theorem syndrome_last c register q p : Forall pauli_letter p -> length p <= length register + 1 ->
  single_syndrome_measurement c (cn c + 1) (register ++ [q]) (AsString p) =
  (Gate [] GH q :: gates GmiY [q] (register ++ [q]) p ++ [Gate [] GH q; Measure q], Ok q).
Proof.
  intros P L. rewrite syndrome_own by reflexivity.
  assert (G : py_get (register ++ [q]) (-1) = Ok q).
  { unfold py_get. rewrite app_length. cbn [length Z.ltb Z.compare]. destruct (Z.ltb_spec (-1 + Z.of_nat (length register + 1)) 0); [lia|].
    replace (Z.to_nat (-1 + Z.of_nat (length register + 1))) with (length register) by lia. rewrite nth_error_app2 by lia. rewrite Nat.sub_diag. reflexivity. }
  rewrite G. change (lift (Ok q)) with (cret q). rewrite cbind_ret. unfold syndrome_rest. change (lift (Ok p)) with (cret p). rewrite cbind_ret.
  unfold send at 1. rewrite cbind_ok. erewrite letters_any; [|intros; reflexivity|intros; reflexivity|intros; reflexivity|intros; reflexivity|exact P].
  rewrite outcome_reaches by (rewrite app_length; exact L). rewrite cbind_ok. unfold send. rewrite !cbind_ok.
  replace (Nat.eqb (cn c + 1) (cn c)) with false by (symmetry; apply Nat.eqb_neq; lia). rewrite cbind_ret. reflexivity.
Qed.

(** an unknown letter *)
Lemma cfor_app {A} (l1 l2 : list A) F : cfor (l1 ++ l2) F = cbind (cfor l1 F) (fun _ => cfor l2 F).
Proof.
  induction l1 as [|a l1 IH]; cbn [app cfor]; [rewrite cbind_ret; reflexivity|]. rewrite cbind_assoc. destruct (F a) as [l [u|e]]; cbn [cbind]; [|reflexivity]. rewrite IH. reflexivity.
Qed.
Lemma combine_app {A B} (a1 a2 : list A) (b1 b2 : list B) : length a1 = length b1 -> combine (a1 ++ a2) (b1 ++ b2) = combine a1 b1 ++ combine a2 b2.
Proof. revert b1. induction a1 as [|a a1 IH]; intros [|b b1] L; try discriminate; [reflexivity|]. cbn. rewrite IH by (cbn in L; lia). reflexivity. Qed.
Definition syn_letter (register : list nat) (q : nat) (jp : nat * ascii) : circ unit :=
  let '(j, p) := jp in
  if Ascii.eqb p "X" then run t <- lift (py_get register (Z.of_nat j)); send (Gate [q] GX t)
  else if Ascii.eqb p "Y" then run t <- lift (qubitop_get register j); send (Gate [q] GmiY t)
  else if Ascii.eqb p "Z" then run t <- lift (py_get register (Z.of_nat j)); send (Gate [q] GZ t)
  else if Ascii.eqb p "I" then cret tt
  else craise RuntimeError.
Lemma syn_bad register q pre b post : Forall pauli_letter pre -> ~ pauli_letter b -> length pre <= length register ->
  cfor (enumerate (pre ++ b :: post)) (syn_letter register q) = (gates GmiY [q] register pre, Err RuntimeError).
Proof.
  intros P NB L. unfold enumerate. rewrite app_length, seq_app, combine_app, cfor_app by apply seq_length.
  change (combine (seq 0 (length pre)) pre) with (enumerate pre).
  rewrite (letters_any GmiY [q] register (syn_letter register q)) by (intros; reflexivity || exact P). rewrite outcome_reaches by exact L. rewrite cbind_ok.
  cbn [length seq combine cfor]. unfold syn_letter at 1 3.
  assert (E : forall x, pauli_letter x -> Ascii.eqb b x = false) by (intros x Hx; apply Ascii.eqb_neq; intros ->; contradiction).
  unfold pauli_letter in E. rewrite !E by auto. cbn [craise cbind fst snd]. rewrite app_nil_r. reflexivity.
Qed.
Lemma rest_bad c active register q pre b post : Forall pauli_letter pre -> ~ pauli_letter b -> length pre <= length register ->
  syndrome_rest c active register q (AsString (pre ++ b :: post)) = (Gate [] GH q :: gates GmiY [q] register pre, Err RuntimeError).
Proof.
  intros P NB L. unfold syndrome_rest. change (lift (Ok ?p)) with (cret p). rewrite cbind_ret. unfold send at 1. rewrite cbind_ok.
  fold (syn_letter register q). rewrite (syn_bad register q pre b post P NB L). reflexivity.
Qed.
Theorem syndrome_bad_string c register q pre b post : Forall pauli_letter pre -> ~ pauli_letter b ->
  (length pre <= length register + 1 -> single_syndrome_measurement c (cn c + 1) (register ++ [q]) (AsString (pre ++ b :: post)) =
     (Gate [] GH q :: gates GmiY [q] (register ++ [q]) pre, Err RuntimeError)) /\
  (length pre <= length register -> single_syndrome_measurement c (cn c) register (AsString (pre ++ b :: post)) =
     (Alloc (cn c) :: Gate [] GH (cn c) :: gates GmiY [cn c] register pre, Err RuntimeError)).
Proof.
  intros P NB. split; intros L.
  - rewrite syndrome_own by reflexivity. assert (G : py_get (register ++ [q]) (-1) = Ok q).
    { unfold py_get. rewrite app_length. cbn [length Z.ltb Z.compare]. destruct (Z.ltb_spec (-1 + Z.of_nat (length register + 1)) 0); [lia|].
      replace (Z.to_nat (-1 + Z.of_nat (length register + 1))) with (length register) by lia. rewrite nth_error_app2 by lia. rewrite Nat.sub_diag. reflexivity. }
    rewrite G. change (lift (Ok q)) with (cret q). rewrite cbind_ret. apply rest_bad; [exact P|exact NB|rewrite app_length; exact L].
  - rewrite syndrome_new, (rest_bad c (cn c) register (cn c) pre b post P NB L). reflexivity.
Qed.
Theorem syndrome_bad_list c register q b row :
  single_syndrome_measurement c (cn c + 1) (register ++ [q]) (AsList (b :: row)) = ([Gate [] GH q], Err RuntimeError) /\
  single_syndrome_measurement c (cn c) register (AsList (b :: row)) = ([Alloc (cn c); Gate [] GH (cn c)], Err RuntimeError).
Proof.
  assert (NB : ~ pauli_letter "?"%char) by (intros [E|[E|[E|E]]]; discriminate).
  destruct (syndrome_bad_string c register q [] "?"%char (repeat "?"%char (length row)) (Forall_nil _) NB) as [A B].
  split; [apply A|apply B]; cbn; lia.
Qed.

(** ** logical_circuit *)
Lemma py_int_digit_inv ch i : py_int ch = Ok i -> i < 10 /\ ch = digit i.
Proof.
  unfold py_int. destruct (Nat.leb_spec 48 (nat_of_ascii ch)) as [A|]; [|discriminate]. destruct (Nat.leb_spec (nat_of_ascii ch) 57) as [D|]; [|discriminate]. cbn [andb].
  intros H. injection H as <-. split; [lia|]. unfold digit. replace (48 + (nat_of_ascii ch - 48)) with (nat_of_ascii ch) by lia. symmetry. apply ascii_nat_embedding.
Qed.
Section Code.
Variables (g : gens) (n k : nat) (c : code).
Hypothesis HI : init g n k None = Ok c.
Hypothesis HV : valid_generators n k (zd (stab c)).

(** the row of a logical operator *)
Definition op_row (p : ascii) (i : nat) : list Z :=
  if Ascii.eqb p "X" then nth i (zd (logical_x c)) [] else if Ascii.eqb p "Z" then nth i (zd (logical_z c)) [] else yrow c i.
Lemma op_row_ok p i : i < k -> length (op_row p i) = 2 * n /\ binary (op_row p i).
Proof.
  intros Hi. destruct (logical_f g n k c HI HV) as (OX & OZ & _). unfold op_row.
  destruct (Ascii.eqb p "X"); [exact (okm_row n k _ i OX Hi)|]. destruct (Ascii.eqb p "Z"); [exact (okm_row n k _ i OZ Hi)|].
  destruct (yrow_ok g n k c HI HV i Hi) as (L & B & _). auto.
Qed.
Theorem logical_any register p i : In p ["X"; "Y"; "Z"]%char -> i < k -> i < 10 ->
  exists s, length s = n /\ spells n s (op_row p i) /\ logical_circuit c register [p; digit i] = (gates GmiY [] register s, outcome register s).
Proof.
  intros Hp Hi H10. destruct (op_row_ok p i Hi) as [L B]. destruct (spelled_letters n _ L B) as (s & E & Ls & S & P). exists s. split; [exact Ls|]. split; [exact S|].
  destruct (code_dims g n k c HI) as [Ec Ek]. destruct (logical_f g n k c HI HV) as (OX & OZ & _). destruct (okm_spec n k _ OX) as (LX & _). destruct (okm_spec n k _ OZ) as (LZ & _).
  unfold logical_circuit. cbn [length Nat.eqb nth]. change (assert_ true) with (Ok tt). cbn [lift cbind].
  replace (existsb (Ascii.eqb p) ["X"; "Y"; "Z"]%char) with true by (destruct Hp as [<-|[<-|[<-|[]]]]; reflexivity). cbn [assert_ lift cbind].
  rewrite (py_int_digit n k c i H10). cbn [lift cbind]. rewrite Ek. destruct (Nat.ltb_spec i k); [|lia]. cbn [assert_ lift cbind app].
  unfold op_row, yrow in E. clear L B S.
  destruct Hp as [<-|[<-|[<-|[]]]]; cbn [Ascii.eqb Bool.eqb] in E |- *; rewrite !(py_get_nat _ _ []) by lia; cbn [lift cbind cret app];
    rewrite E; cbn [lift cbind app]; rewrite (commands_any [] register s P); reflexivity.
Qed.
(** every other argument is refused before anything is sent *)
Theorem logical_refused register op : (forall p i, op = [p; digit i] -> In p ["X"; "Y"; "Z"]%char -> i < k -> i < 10 -> False) ->
  exists e, (e = AssertionError \/ e = ValueError) /\ logical_circuit c register op = ([], Err e).
Proof.
  intros H. destruct (code_dims g n k c HI) as [Ec Ek]. unfold logical_circuit.
  destruct (Nat.eqb_spec (length op) 2) as [L|L]; cbn [assert_ lift cbind]; [|exists AssertionError; auto].
  destruct op as [|p [|ch [|? ?]]]; try discriminate. cbn [nth].
  destruct (existsb (Ascii.eqb p) ["X"; "Y"; "Z"]%char) eqn:E; cbn [assert_ lift cbind]; [|exists AssertionError; auto].
  destruct (py_int ch) as [i|e] eqn:EI; cbn [lift cbind].
  - destruct (Nat.ltb_spec i (ck c)) as [Li|Li]; cbn [assert_ lift cbind]; [|exists AssertionError; auto].
    exfalso. apply py_int_digit_inv in EI. destruct EI as [H10 ->]. apply (H p i eq_refl); [|lia|exact H10].
    apply existsb_exists in E. destruct E as (q & I & Q). apply Ascii.eqb_eq in Q. subst q. exact I.
  - exists e. split; [|reflexivity]. unfold py_int in EI. destruct (Nat.leb 48 _ && Nat.leb _ 57); congruence || (injection EI as <-; auto).
Qed.

(** ** encoding_circuit *)
Theorem encoding_sizes register st : length st <> k \/ length register <> n -> encoding_circuit c register st = ([], Err AssertionError).
Proof.
  intros H. destruct (code_dims g n k c HI) as [Ec Ek]. unfold encoding_circuit. rewrite Ec, Ek.
  destruct (Nat.eqb_spec (length st) k) as [A|A]; cbn [assert_ lift cbind]; [|reflexivity].
  destruct (Nat.eqb_spec (length register) n) as [D|D]; cbn [assert_ lift cbind]; [|reflexivity]. destruct H; contradiction.
Qed.
Theorem encoding_accepts register st : length register = n -> length st = k -> binary st -> snd (encoding_circuit c register st) = Ok tt.
Proof.
  intros L Ls B. pose proof (encoding_named (at_register register) (length register) (length register) register eq_refl (le_n _) (fun i _ => eq_refl) c st) as NM.
  rewrite (result_same _ _ _ _ NM), L. rewrite (encoding_events g n k c HI HV st Ls B). reflexivity.
Qed.
Definition message_bit (register : list nat) (ib : nat * Z) : circ unit :=
  let '(i, b) := ib in
  run _ <- lift (assert_ (Z.eqb b 0 || Z.eqb b 1)%bool);
  if Z.eqb b 1 then run q <- lift (py_get register (Z.of_nat n - Z.of_nat k + Z.of_nat i)%Z); send (Gate [] GX q) else cret tt.
Lemma message_from register : length register = n -> k <= n -> forall pre post b a, binary pre -> (b <> 0 /\ b <> 1)%Z -> a + length pre < k ->
  cfor (combine (seq a (length (pre ++ b :: post))) (pre ++ b :: post)) (message_bit register) = (flips pre (skipn (n - k + a) register), Err AssertionError).
Proof.
  intros L Hk pre. induction pre as [|x pre IH]; intros post b a B [N0 N1] Ha.
  - cbn [app length seq combine cfor]. unfold message_bit at 1. rewrite (proj2 (Z.eqb_neq b 0) N0), (proj2 (Z.eqb_neq b 1) N1). reflexivity.
  - cbn [app length] in *. cbn [seq combine cfor]. unfold message_bit at 1. pose proof (Forall_inv B) as Bx. pose proof (Forall_inv_tail B) as B'.
    replace (Z.of_nat n - Z.of_nat k + Z.of_nat a)%Z with (Z.of_nat (n - k + a)) by lia. rewrite (py_get_nat register _ 0) by lia.
    rewrite (skipn_nth register (n - k + a)) by lia. unfold flips. cbn [combine flat_map fst snd]. fold (flips pre (skipn (S (n - k + a)) register)).
    replace (S (n - k + a)) with (n - k + S a) by lia.
    destruct Bx as [-> | ->]; cbn [Z.eqb orb assert_ lift cbind Pos.eqb app cret send]; rewrite (IH post b (S a) B' (conj N0 N1)) by lia; reflexivity.
Qed.
Theorem encoding_bad_bit register pre b post : length register = n -> length (pre ++ b :: post) = k -> binary pre -> (b <> 0 /\ b <> 1)%Z ->
  encoding_circuit c register (pre ++ b :: post) = (flips pre (skipn (n - k) register), Err AssertionError).
Proof.
  intros L Ls B Nb. destruct (code_dims g n k c HI) as [Ec Ek]. destruct (struct_f g n k c HI HV) as (Hk & _). unfold encoding_circuit. rewrite Ec, Ek, L, Ls, !Nat.eqb_refl. cbn [assert_]. change (lift (Ok tt)) with (cret tt). rewrite !cbind_ret.
  match goal with |- cbind (cfor _ ?F) _ = _ => change F with (message_bit register) end.
  unfold enumerate. rewrite (message_from register L Hk pre post b 0 B Nb) by (rewrite app_length in Ls; cbn in Ls; lia). rewrite Nat.add_0_r. reflexivity.
Qed.

(** ** decoding_circuit *)
Theorem decoding_accepts active register d : (length register = n + k -> exists l, snd (decoding_circuit c active register false d) = Ok l) /\
  (length register = n -> exists l, snd (decoding_circuit c active register true d) = Ok l).
Proof.
  split; intros L.
  - rewrite decoding_own. destruct (code_dims g n k c HI) as [Ec Ek].
    pose proof (decode_rest_named (at_register register) (length register) (length register) register eq_refl (le_n _) (fun i _ => eq_refl) c
      (skipn (cn c) (seq 0 (length register))) false d) as NM.
    assert (HA : Forall (fun q => q < length register) (skipn (cn c) (seq 0 (length register)))).
    { apply Forall_forall. intros q Hq. assert (I : In q (seq 0 (length register))) by (rewrite <- (firstn_skipn (cn c) (seq 0 (length register))); apply in_or_app; right; exact Hq). apply in_seq in I. lia. }
    specialize (NM HA). rewrite <- skipn_map, register_map in NM by reflexivity. destruct NM as (_ & _ & ->).
    rewrite L. pose proof (decoding_with_ancillas g n k c HI HV d) as E. rewrite decoding_own in E. rewrite E. eexists; reflexivity.
  - rewrite decoding_added. cbn [snd]. destruct (code_dims g n k c HI) as [Ec Ek].
    set (f := at_register (register ++ seq active k)).
    pose proof (decode_rest_named f (length register) (length register + k) register eq_refl ltac:(lia) (fun i Hi => at_app1 register _ i Hi) c (seq n k) true d) as NM.
    assert (HA : Forall (fun q => q < length register + k) (seq n k)) by (apply Forall_forall; intros q Hq; apply in_seq in Hq; lia).
    specialize (NM HA). rewrite (map_seq f n active k) in NM by (intros i Hi; rewrite <- L; apply at_app2, Hi). rewrite Ek. destruct NM as (_ & _ & ->).
    rewrite L. pose proof (decoding_add_ancillas g n k c HI HV d) as E. rewrite decoding_added, Ek in E. injection E as _ E. rewrite E. eexists; reflexivity.
Qed.
End Code.
