(** Model of the circuits of PyQCodes/codes.py (L359-685): the ProjectQ commands
    each method sends to the engine, in order, together with its result or
    exception.  Qubits are numbered in order of allocation; a register is the list
    of its qubits.  The engine is only looked at through the number of its active
    qubits.  [eng.flush] and [print] have no effect here. *)
From Verif Require Import Py ZMat CodesModel.
Open Scope nat_scope.

(** Single-qubit gates the methods use.  [GmiY] is QubitOperator('Yi', -1.j), i.e.
    -i times Y; [GY] is QubitOperator('Yi', 1.). *)
Inductive gate := GX | GZ | GH | GY | GmiY.
(** Commands: a gate on a target under a list of controls, an allocation in |0>, a
    measurement, a deallocation. *)
Inductive event :=
| Gate (controls : list nat) (g : gate) (target : nat)
| Alloc (q : nat)
| Measure (q : nat)
| Dealloc (q : nat).

(** A method sends commands, then returns or raises. *)
Definition circ (A : Type) := (list event * res A)%type.
Definition cret {A} (a : A) : circ A := ([], Ok a).
Definition craise {A} (e : exn) : circ A := ([], Err e).
Definition lift {A} (r : res A) : circ A := ([], r).
Definition send (e : event) : circ unit := ([e], Ok tt).
Definition cbind {A B} (x : circ A) (f : A -> circ B) : circ B :=
  match x with
  | (l, Ok a) => let '(l', r) := f a in (l ++ l', r)
  | (l, Err e) => (l, Err e)
  end.
Notation "'run' x <- e ; f" := (cbind e (fun x => f))
  (at level 60, x pattern, e at level 59, f at level 60, right associativity).
Fixpoint cfor {A} (l : list A) (f : A -> circ unit) : circ unit :=
  match l with [] => cret tt | x :: r => run _ <- f x; cfor r f end.

(** register[i] with Python's negative indices *)
Definition py_get {A} (l : list A) (i : Z) : res A :=
  let j := if (i <? 0)%Z then (i + Z.of_nat (length l))%Z else i in
  if (j <? 0)%Z then Err IndexError
  else match nth_error l (Z.to_nat j) with Some x => Ok x | None => Err IndexError end.
(** ProjectQ checks that the register has a qubit with the index of the operator *)
Definition qubitop_get (register : list nat) (i : nat) : res nat :=
  match nth_error register i with Some x => Ok x | None => Err ValueError end.
Definition enumerate {A} (l : list A) : list (nat * A) := combine (seq 0 (length l)) l.
Open Scope char_scope.

(** codes.py L434-500: encoding_circuit *)
Definition enc_letter (register : list nat) (ctl i : nat) (jp : nat * ascii) : circ unit :=
  let '(j, p) := jp in
  if Nat.eqb j i then cret tt
  else if Ascii.eqb p "X" then run q <- lift (py_get register (Z.of_nat j)); send (Gate [ctl] GX q)
  else if Ascii.eqb p "Y" then run q <- lift (qubitop_get register j); send (Gate [ctl] GmiY q)
  else if Ascii.eqb p "Z" then run q <- lift (py_get register (Z.of_nat j)); send (Gate [ctl] GZ q)
  else cret tt.
Definition encoding_circuit (c : code) (register : list nat) (state : list Z) : circ unit :=
  run _ <- lift (assert_ (Nat.eqb (length state) (ck c)));
  run _ <- lift (assert_ (Nat.eqb (length register) (cn c)));
  run _ <- cfor (enumerate state) (fun ib =>
             let '(i, b) := ib in
             run _ <- lift (assert_ (Z.eqb b 0 || Z.eqb b 1)%bool);
             if Z.eqb b 1
             then run q <- lift (py_get register (Z.of_nat (cn c) - Z.of_nat (ck c) + Z.of_nat i)%Z); send (Gate [] GX q)
             else cret tt);
  run _ <- (if Nat.ltb (crank c) (numb_stab c)
            then cfor (rev (seq 0 (ck c))) (fun i =>
                   run row <- lift (py_get (zd (logical_x c)) (Z.of_nat i));
                   let controlled_op := firstn (cn c - ck c - crank c) (skipn (crank c) row) in
                   run ctl <- lift (py_get register (Z.of_nat i - Z.of_nat (ck c))%Z);
                   cfor (enumerate controlled_op) (fun jb =>
                     let '(j, b) := jb in
                     if Z.eqb b 1 then run q <- lift (py_get register (Z.of_nat (crank c + j))); send (Gate [ctl] GX q) else cret tt))
            else cret tt);
  cfor (seq 0 (crank c)) (fun i =>
    run qi <- lift (py_get register (Z.of_nat i));
    run _ <- send (Gate [] GH qi);
    run row <- lift (py_get (zd (normal_form c)) (Z.of_nat i));
    run pauli <- lift (binary_rep_to_pauli_str row);
    cfor (enumerate pauli) (enc_letter register qi i)).

(** the loop of L666-685 and of L598-611: send the letters of a Pauli string *)
Definition pauli_letter_cmd (controls register : list nat) (jp : nat * ascii) : circ unit :=
  let '(j, p) := jp in
  if Ascii.eqb p "X" then run q <- lift (py_get register (Z.of_nat j)); send (Gate controls GX q)
  else if Ascii.eqb p "Y" then run q <- lift (qubitop_get register j); send (Gate controls GmiY q)
  else if Ascii.eqb p "Z" then run q <- lift (py_get register (Z.of_nat j)); send (Gate controls GZ q)
  else cret tt.

(** int(ch) for one character; anything but a decimal digit raises ValueError
    (non-ASCII digits are outside this model's characters) *)
Definition py_int (ch : ascii) : res nat :=
  let v := nat_of_ascii ch in
  if (Nat.leb 48 v && Nat.leb v 57)%bool then Ok (v - 48) else Err ValueError.

(** codes.py L631-685: logical_circuit *)
Definition logical_circuit (c : code) (register : list nat) (pauli_op : pystr) : circ unit :=
  run _ <- lift (assert_ (Nat.eqb (length pauli_op) 2));
  let p := nth 0 pauli_op " " in
  run _ <- lift (assert_ (existsb (Ascii.eqb p) ["X"; "Y"; "Z"]));
  run i <- lift (py_int (nth 1 pauli_op " "));
  run _ <- lift (assert_ (Nat.ltb i (ck c)));
  run row <- (if Ascii.eqb p "X" then lift (py_get (zd (logical_x c)) (Z.of_nat i))
              else if Ascii.eqb p "Z" then lift (py_get (zd (logical_z c)) (Z.of_nat i))
              else run lz <- lift (py_get (zd (logical_z c)) (Z.of_nat i));
                   run lx <- lift (py_get (zd (logical_x c)) (Z.of_nat i));
                   cret (map (fun ab => (fst ab + snd ab) mod 2)%Z (combine lz lx)));
  run pauli <- lift (binary_rep_to_pauli_str row);
  cfor (enumerate pauli) (pauli_letter_cmd [] register).

(** codes.py L547-629: decoding_circuit; [active] is the number of qubits of the
    engine.  [del register] only drops the local name. *)
Definition decoding_circuit (c : code) (active : nat) (register : list nat)
           (add_ancilla_bits deallocate_nqubits : bool) : circ (list nat) :=
  run anc <- (if add_ancilla_bits
              then run _ <- cfor (seq active (ck c)) (fun q => send (Alloc q)); cret (seq active (ck c))
              else cret (skipn (cn c) register));
  run _ <- cfor (seq 0 (ck c)) (fun i =>
             run lz <- lift (py_get (zd (logical_z c)) (Z.of_nat i));
             cfor (enumerate (skipn (cn c) lz)) (fun jb =>
               let '(j, b) := jb in
               if Z.eqb b 1
               then run q <- lift (py_get register (Z.of_nat j)); run a <- lift (py_get anc (Z.of_nat i)); send (Gate [q] GX a)
               else cret tt));
  run _ <- cfor (seq 0 (ck c)) (fun i =>
             run lx <- lift (py_get (zd (logical_x c)) (Z.of_nat i));
             run a <- lift (py_get anc (Z.of_nat i));
             run pauli <- lift (binary_rep_to_pauli_str lx);
             cfor (enumerate pauli) (pauli_letter_cmd [a] register));
  if deallocate_nqubits
  then if add_ancilla_bits
       then run _ <- cfor register (fun q => send (Measure q)); cret anc
       else run _ <- cfor (firstn (cn c) register) (fun q => send (Measure q));
            run _ <- cfor (firstn (cn c) register) (fun q => send (Dealloc q));
            cret (skipn (cn c) register)
  else cret (register ++ anc).

(** The argument [stabilizer] of the next two methods. *)
Inductive stabarg := AsArray (row : list Z) | AsList (row : list Z) | AsString (p : pystr).

(** codes.py L502-545: apply_stabilizer_circuit.  With a string the local name
    pauli_str is never bound. *)
Definition apply_stabilizer_circuit (register : list nat) (stabilizer : stabarg) : circ unit :=
  run pauli <- lift (match stabilizer with
                     | AsArray row | AsList row => binary_rep_to_pauli_str row
                     | AsString _ => Err UnboundLocalError
                     end);
  cfor (enumerate pauli) (fun jp =>
    let '(j, p) := jp in
    if Ascii.eqb p "X" then run q <- lift (py_get register (Z.of_nat j)); send (Gate [] GX q)
    else if Ascii.eqb p "Z" then run q <- lift (py_get register (Z.of_nat j)); send (Gate [] GZ q)
    else if Ascii.eqb p "Y" then run q <- lift (qubitop_get register j); send (Gate [] GY q)
    else cret tt).

(** codes.py L359-432: single_syndrome_measurement.  The result is the outcome of
    the only measurement, so the qubit measured is returned here.  Iterating over a
    list gives integers, none of which is a letter. *)
Definition single_syndrome_measurement (c : code) (active : nat) (register : list nat) (stabilizer : stabarg) : circ nat :=
  run _ <- (if (Nat.eqb active (cn c) || Nat.eqb active (cn c + 1))%bool then cret tt else craise TypeError);
  run m <- (if Nat.eqb active (cn c) then run _ <- send (Alloc active); cret active
            else lift (py_get register (-1)));
  run pauli <- lift (match stabilizer with
                     | AsArray row => binary_rep_to_pauli_str row
                     | AsList row => Ok (repeat "?" (length row))
                     | AsString p => Ok p
                     end);
  run _ <- send (Gate [] GH m);
  run _ <- cfor (enumerate pauli) (fun jp =>
    let '(j, p) := jp in
    if Ascii.eqb p "X" then run q <- lift (py_get register (Z.of_nat j)); send (Gate [m] GX q)
    else if Ascii.eqb p "Y" then run q <- lift (qubitop_get register j); send (Gate [m] GmiY q)
    else if Ascii.eqb p "Z" then run q <- lift (py_get register (Z.of_nat j)); send (Gate [m] GZ q)
    else if Ascii.eqb p "I" then cret tt
    else craise RuntimeError);
  run _ <- send (Gate [] GH m);
  run _ <- send (Measure m);
  run _ <- (if Nat.eqb active (cn c) then send (Dealloc m) else cret tt);
  cret m.
