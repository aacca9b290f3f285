(** Circuits on any register of any engine, and calls that fail (C96, C97).
    Specification: RegisterSpec.v, CircuitSpec.v, StringsSpec.v.  Model: CircuitModel.v. *)
From Verif Require Import Py ZMat CodesModel RankSpec CodesSpec CodesProofs ConcatProofs PropsCodes Scalar PauliModel PauliSpec PropsPauli
  CircuitModel CircuitSpec CircuitProofs3 CircuitProofs4 CircuitProofs5 PropsCircuits StringsSpec RegisterSpec RegisterProofs RegisterProofs2 AtomicProofs.
From Coq Require Import Ascii Lia Bool.
Open Scope nat_scope.

(** ** C96: on an engine of N qubits, a register of any m distinct ones in any order.
    Each method names no other qubit, returns what it returns for the register 0 .. m-1,
    and does to the register, whatever the other qubits hold, what it does there. *)
Theorem C96_encoding_partial (K : StarRing) (h im : K) N register c st : a_register N register -> let m := length register in
  snd (encoding_circuit c register st) = snd (encoding_circuit c (seq 0 m) st) /\
  (forall e, In e (fst (encoding_circuit c register st)) -> incl (qubits_of e) register) /\
  forall outs (psi : @state K) y, length y = N ->
    exec h im outs (fst (encoding_circuit c register st)) psi y =
    exec h im outs (fst (encoding_circuit c (seq 0 m) st)) (given_others register y psi) (read register y).
Proof.
  intros HR m. destruct (encoding_acts h im N register HR c st) as (E & R). split; [|exact R]. rewrite E. fold m. destruct (snd (encoding_circuit c (seq 0 m) st)); reflexivity.
Qed.
(** in particular from |0...0> on the register it prepares there the state of C15, and
    keeps what the other qubits hold *)
Theorem C96_prepares_partial (K : StarRing) (h im : K) N register c st (psi : @state K) y : a_register N register -> length y = N ->
  (forall y, length y = N -> read register y <> repeat false (length register) -> psi y = s0) ->
  exec h im [] (fst (encoding_circuit c register st)) psi y =
  smul (encode h im (length register) c st (read register y)) (psi (write register (repeat false (length register)) y)).
Proof. exact (prepares h im N register c st psi y). Qed.
Theorem C96_logical_partial (K : StarRing) (h im : K) N register c op : a_register N register -> let m := length register in
  snd (logical_circuit c register op) = snd (logical_circuit c (seq 0 m) op) /\
  (forall e, In e (fst (logical_circuit c register op)) -> incl (qubits_of e) register) /\
  forall outs (psi : @state K) y, length y = N ->
    exec h im outs (fst (logical_circuit c register op)) psi y =
    exec h im outs (fst (logical_circuit c (seq 0 m) op)) (given_others register y psi) (read register y).
Proof.
  intros HR m. destruct (logical_acts h im N register HR c op) as (E & R). split; [|exact R]. rewrite E. fold m. destruct (snd (logical_circuit c (seq 0 m) op)); reflexivity.
Qed.
Theorem C96_apply_partial (K : StarRing) (h im : K) N register arg : a_register N register -> let m := length register in
  snd (apply_stabilizer_circuit register arg) = snd (apply_stabilizer_circuit (seq 0 m) arg) /\
  (forall e, In e (fst (apply_stabilizer_circuit register arg)) -> incl (qubits_of e) register) /\
  forall outs (psi : @state K) y, length y = N ->
    exec h im outs (fst (apply_stabilizer_circuit register arg)) psi y =
    exec h im outs (fst (apply_stabilizer_circuit (seq 0 m) arg)) (given_others register y psi) (read register y).
Proof.
  intros HR m. destruct (apply_acts h im N register HR arg) as (E & R). split; [|exact R]. rewrite E. fold m. destruct (snd (apply_stabilizer_circuit (seq 0 m) arg)); reflexivity.
Qed.
(** decoding with the caller's ancillas: the qubits returned are those at the same places *)
Theorem C96_decoding_own_partial (K : StarRing) (h im : K) N register c d : a_register N register -> let m := length register in
  snd (decoding_circuit c N register false d) = on_result (map (at_register register)) (snd (decoding_circuit c m (seq 0 m) false d)) /\
  (forall e, In e (fst (decoding_circuit c N register false d)) -> incl (qubits_of e) register) /\
  forall outs (psi : @state K) y, length y = N ->
    exec h im outs (fst (decoding_circuit c N register false d)) psi y =
    exec h im outs (fst (decoding_circuit c m (seq 0 m) false d)) (given_others register y psi) (read register y).
Proof. intros HR m. exact (decoding_own_acts h im N register HR c N m d). Qed.
(** decoding with ancillas of its own, which become the qubits N .. N+k-1 *)
Theorem C96_decoding_added_partial (K : StarRing) (h im : K) N register c d : a_register N register ->
  let m := length register in let wide := register ++ seq N (ck c) in
  snd (decoding_circuit c N register true d) = on_result (map (at_register wide)) (snd (decoding_circuit c m (seq 0 m) true d)) /\
  (forall e, In e (fst (decoding_circuit c N register true d)) -> incl (qubits_of e) wide) /\
  forall outs (psi : @state K) y, length y = N + ck c ->
    exec h im outs (fst (decoding_circuit c N register true d)) psi y =
    exec h im outs (fst (decoding_circuit c m (seq 0 m) true d)) (given_others register (firstn N y) psi) (read wide y).
Proof. intros HR. exact (decoding_added_acts h im N register HR c d). Qed.
(** syndrome measurement, if the register holds every qubit of the engine *)
Theorem C96_syndrome_all_partial (K : StarRing) (h im : K) register c arg : let n := cn c in
  (a_register (n + 1) register -> length register = n + 1 ->
    snd (single_syndrome_measurement c (n + 1) register arg) = on_result (at_register register) (snd (single_syndrome_measurement c (n + 1) (seq 0 (n + 1)) arg)) /\
    (forall e, In e (fst (single_syndrome_measurement c (n + 1) register arg)) -> incl (qubits_of e) register) /\
    forall outs (psi : @state K) y, length y = n + 1 ->
      exec h im outs (fst (single_syndrome_measurement c (n + 1) register arg)) psi y =
      exec h im outs (fst (single_syndrome_measurement c (n + 1) (seq 0 (n + 1)) arg)) (given_others register y psi) (read register y)) /\
  (a_register n register -> length register = n -> let wide := register ++ [n] in
    snd (single_syndrome_measurement c n register arg) = on_result (at_register wide) (snd (single_syndrome_measurement c n (seq 0 n) arg)) /\
    (forall e, In e (fst (single_syndrome_measurement c n register arg)) -> incl (qubits_of e) wide) /\
    forall outs (psi : @state K) y, length y = n + 1 ->
      exec h im outs (fst (single_syndrome_measurement c n register arg)) psi y =
      exec h im outs (fst (single_syndrome_measurement c n (seq 0 n) arg)) (given_others register (firstn n y) psi) (read wide y)).
Proof. intros n. split; [exact (syndrome_own_acts h im c register arg)|exact (syndrome_new_acts h im c register arg)]. Qed.

(** With one more qubit in the engine the measurement takes the last qubit of the
    register for its ancilla although the register has only the n qubits of the code:
    the measurement of the stabilizer ZI on |01>, an eigenvector to +1, reports 1, and
    with two more qubits it is refused. *)
Definition zi_code := [str "ZI"].
Theorem C96_refuted : exists c, init (Strings zi_code) 2 1 None = Ok c /\ valid_generators 2 1 (zd (stab c)) /\
  snd (single_syndrome_measurement c 3 [0; 1] (AsString (str "ZI"))) = Ok 1 /\
  (forall (K : StarRing) (h im : K), qubit_constants h im ->
    exec h im [true] (fst (single_syndrome_measurement c 3 [0; 1] (AsString (str "ZI")))) (ket [false; true; false]) [false; true; false] = s1) /\
  single_syndrome_measurement c 4 [0; 1] (AsString (str "ZI")) = ([], Err TypeError).
Proof.
  eexists; split; [compute_it|]. split; [valid|]. split; [compute_it|]. split; [|reflexivity].
  intros K h im (H & _). exact (wrong_outcome h im H).
Qed.
(** in general the ancilla is the last qubit of the register, wherever it belongs *)
Theorem C96_syndrome_last_partial c register q p : Forall pauli_letter p -> length p <= length register + 1 ->
  single_syndrome_measurement c (cn c + 1) (register ++ [q]) (AsString p) =
  (Gate [] GH q :: gates GmiY [q] (register ++ [q]) p ++ [Gate [] GH q; Measure q], Ok q).
Proof. exact (syndrome_last c register q p). Qed.
Print Assumptions C96_encoding_partial.
Print Assumptions C96_prepares_partial.
Print Assumptions C96_logical_partial.
Print Assumptions C96_apply_partial.
Print Assumptions C96_decoding_own_partial.
Print Assumptions C96_decoding_added_partial.
Print Assumptions C96_syndrome_all_partial.
Print Assumptions C96_refuted.
Print Assumptions C96_syndrome_last_partial.
(** five qubits of an engine of seven, out of order *)
Example C96_case : a_register 7 [6; 2; 4; 0; 3] /\ exists c, init (Strings five_qubit) 5 1 None = Ok c /\
  snd (encoding_circuit c [6; 2; 4; 0; 3] [1%Z]) = Ok tt /\ length (fst (encoding_circuit c [6; 2; 4; 0; 3] [1%Z])) = 17 /\
  nth 1 (fst (encoding_circuit c [6; 2; 4; 0; 3] [1%Z])) (Alloc 0) = Gate [] GH 6.
Proof.
  split.
  - split; [repeat constructor; cbn; lia|repeat constructor; lia].
  - eexists; split; [compute_it|]. split; [compute_it|]. split; compute_it.
Qed.
Example C96_case_zero : forall y, length y = 3 -> read [2; 0] y <> repeat false 2 -> @ket GI [false; true; false] y = s0.
Proof.
  intros y Ly H. unfold ket. destruct (list_eq_dec bool_dec y [false; true; false]) as [->|]; [exfalso; apply H; reflexivity|reflexivity].
Qed.

(** ** C97: what has been sent when a call raises *)
(** encoding_circuit: wrong sizes send nothing, good input is accepted, and an entry of
    the message other than 0 and 1 raises after the X gates of the entries before it *)
Theorem C97_encoding_partial g n k c register : init g n k None = Ok c -> valid_generators n k (zd (stab c)) ->
  (forall st, length st <> k \/ length register <> n -> encoding_circuit c register st = ([], Err AssertionError)) /\
  (forall st, length register = n -> length st = k -> binary st -> snd (encoding_circuit c register st) = Ok tt) /\
  (forall pre b post, length register = n -> length (pre ++ b :: post) = k -> binary pre -> (b <> 0 /\ b <> 1)%Z ->
     encoding_circuit c register (pre ++ b :: post) = (flips pre (skipn (n - k) register), Err AssertionError)).
Proof.
  intros HI HV. split; [|split].
  - exact (encoding_sizes g n k c HI register).
  - exact (encoding_accepts g n k c HI HV register).
  - exact (encoding_bad_bit g n k c HI HV register).
Qed.
(** logical_circuit: on any register the gates of the operator as far as it reaches; it
    succeeds exactly if no letter but I is left; everything that is not a letter and a
    digit below k is refused with nothing sent *)
Theorem C97_logical_partial g n k c register : init g n k None = Ok c -> valid_generators n k (zd (stab c)) ->
  (forall p i, In p ["X"; "Y"; "Z"]%char -> i < k -> i < 10 ->
     let lx := nth i (zd (logical_x c)) [] in let lz := nth i (zd (logical_z c)) [] in
     exists row s, (p = "X"%char -> row = lx) /\ (p = "Z"%char -> row = lz) /\
       (p = "Y"%char -> row = map (fun zx => (fst zx + snd zx) mod 2)%Z (combine lz lx)) /\
       length s = n /\ spells n s row /\ logical_circuit c register [p; digit i] = (gates GmiY [] register s, outcome register s)) /\
  (forall op, (forall p i, op = [p; digit i] -> In p ["X"; "Y"; "Z"]%char -> i < k -> i < 10 -> False) ->
     exists e, (e = AssertionError \/ e = ValueError) /\ logical_circuit c register op = ([], Err e)).
Proof.
  intros HI HV. split; [|exact (logical_refused g n k c HI register)].
  intros p i Hp Hi H10 lx lz. destruct (logical_any g n k c HI HV register p i Hp Hi H10) as (s & R). exists (op_row c p i), s.
  split; [intros ->; reflexivity|]. split; [intros ->; reflexivity|]. split; [intros ->; reflexivity|]. exact R.
Qed.
Theorem C97_apply_partial n row arg register : length row = 2 * n -> binary row -> arg = AsArray row \/ arg = AsList row ->
  exists p, length p = n /\ spells n p row /\ apply_stabilizer_circuit register arg = (gates GY [] register p, outcome register p).
Proof. exact (apply_any n row arg register). Qed.
(** decoding_circuit succeeds on registers of the right size *)
Theorem C97_decoding_partial g n k c active register d : init g n k None = Ok c -> valid_generators n k (zd (stab c)) ->
  (length register = n + k -> exists l, snd (decoding_circuit c active register false d) = Ok l) /\
  (length register = n -> exists l, snd (decoding_circuit c active register true d) = Ok l).
Proof. intros HI HV. exact (decoding_accepts g n k c HI HV active register d). Qed.
(** single_syndrome_measurement raises at the first unknown letter, after the gates of the
    letters before it; a list of bits, which is not converted, counts as unknown letters *)
Theorem C97_syndrome_partial c register q pre b post row : Forall pauli_letter pre -> ~ pauli_letter b -> row <> [] -> let n := cn c in
  (length pre <= length register + 1 -> single_syndrome_measurement c (n + 1) (register ++ [q]) (AsString (pre ++ b :: post)) =
     (Gate [] GH q :: gates GmiY [q] (register ++ [q]) pre, Err RuntimeError)) /\
  (length pre <= length register -> single_syndrome_measurement c n register (AsString (pre ++ b :: post)) =
     (Alloc n :: Gate [] GH n :: gates GmiY [n] register pre, Err RuntimeError)) /\
  single_syndrome_measurement c (n + 1) (register ++ [q]) (AsList row) = ([Gate [] GH q], Err RuntimeError) /\
  single_syndrome_measurement c n register (AsList row) = ([Alloc n; Gate [] GH n], Err RuntimeError).
Proof.
  intros P NB NR n. destruct (syndrome_bad_string c register q pre b post P NB) as [A B]. split; [exact A|]. split; [exact B|].
  destruct row as [|x row]; [contradiction|]. exact (syndrome_bad_list c register q x row).
Qed.
(** an empty register has no last qubit *)
Theorem C97_empty_register_partial c arg : single_syndrome_measurement c (cn c + 1) [] arg = ([], Err IndexError).
Proof. rewrite syndrome_own by reflexivity. reflexivity. Qed.
(** every method can raise after changing the engine: a message 1, 2; a register that is
    too short, when decoding keeps its new ancillas; a generator given as a list *)
Theorem C97_refuted : exists c, init (Strings four2) 4 2 None = Ok c /\ valid_generators 4 2 (zd (stab c)) /\
  encoding_circuit c (seq 0 4) [1; 2]%Z = ([Gate [] GX 2], Err AssertionError) /\
  (exists e l, logical_circuit c (seq 0 2) (str "X0") = (e :: l, Err IndexError)) /\
  (exists e l, apply_stabilizer_circuit (seq 0 3) (AsArray [1; 1; 1; 1; 0; 0; 0; 0]%Z) = (e :: l, Err IndexError)) /\
  (exists l, decoding_circuit c 2 (seq 0 2) true true = (Alloc 2 :: Alloc 3 :: l, Err IndexError)) /\
  single_syndrome_measurement c 4 (seq 0 4) (AsList [1; 1; 1; 1; 0; 0; 0; 0]%Z) = ([Alloc 4; Gate [] GH 4], Err RuntimeError).
Proof.
  eexists; split; [compute_it|]. split; [valid|]. split; [compute_it|]. split; [eexists; eexists; compute_it|]. split; [eexists; eexists; compute_it|]. split; [eexists; compute_it|compute_it].
Qed.
Print Assumptions C97_encoding_partial.
Print Assumptions C97_logical_partial.
Print Assumptions C97_apply_partial.
Print Assumptions C97_decoding_partial.
Print Assumptions C97_syndrome_partial.
Print Assumptions C97_empty_register_partial.
Print Assumptions C97_refuted.
(** the same cases on registers that do reach *)
Example C97_case : exists c, init (Strings four2) 4 2 None = Ok c /\ valid_generators 4 2 (zd (stab c)) /\
  flips [1]%Z (skipn (4 - 2) (seq 0 4)) = [Gate [] GX 2] /\ outcome [7; 8] (str "XIII") = Ok tt /\ outcome [7; 8] (str "XIIY") = Err ValueError /\
  outcome [7; 8] (str "XIZY") = Err IndexError /\ gates GmiY [] [7; 8] (str "YZXX") = [Gate [] GmiY 7; Gate [] GZ 8] /\
  snd (logical_circuit c [5; 4; 3; 2] (str "Y1")) = Ok tt.
Proof. eexists; split; [compute_it|]. split; [valid|]. repeat split. Qed.
