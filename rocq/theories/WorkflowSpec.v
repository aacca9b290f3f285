(** The programs of PyQCodes/README.md, L52-71 and L74-110, written with the circuits of
    the model. *)
From Verif Require Import Py CodesModel CodesSpec Scalar CircuitModel CircuitSpec TextbookSpec.
Open Scope nat_scope.

Section WorkflowSpec.
Context {K : StarRing}.
Variables h im : K.

(** the data qubits once the ancilla, qubit n, has been measured with outcome b and deallocated *)
Definition drop_ancilla (b : bool) (phi : @state K) : @state K := fun y => phi (y ++ [b]).
(** README L100-108: measure one row after the other; at the first outcome 1 apply that
    row and stop.  [outs] are the outcomes in the order in which they are seen. *)
Fixpoint readme_loop (n : nat) (c : code) (rows : list (list Z)) (outs : list bool) (psi : @state K) : @state K :=
  match rows, outs with
  | r :: rest, b :: bs =>
      let left := drop_ancilla b (exec h im [b] (fst (single_syndrome_measurement c n (seq 0 n) (AsArray r))) psi) in
      if b then exec h im [] (fst (apply_stabilizer_circuit (seq 0 n) (AsArray r))) left
      else readme_loop n c rest bs left
  | _, _ => psi
  end.
(** the syndrome bits of an error up to the first 1 *)
Fixpoint shown (rows : list (list Z)) (err : list Z) : list bool :=
  match rows with
  | [] => []
  | r :: rest => if Z.eqb (inner_prod r err) 1 then [true] else false :: shown rest err
  end.

(** README L59-67: logical operators one after the other on the encoded register *)
Fixpoint run_logical (n : nat) (c : code) (cmds : list (ascii * nat)) (psi : @state K) : @state K :=
  match cmds with
  | [] => psi
  | (p, i) :: rest => run_logical n c rest (exec h im [] (fst (logical_circuit c (seq 0 n) [p; digit i])) psi)
  end.
(** the same Paulis, as textbook matrices, on the k qubits of the bare message *)
Fixpoint run_bare (cmds : list (ascii * nat)) (phi : @state K) : @state K :=
  match cmds with [] => phi | (p, i) :: rest => run_bare rest (letter_on h im p i phi) end.
(** one factor -i for every Y among the operators *)
Definition minus_i_per_y (cmds : list (ascii * nat)) : K := fold_right (fun x z => if Ascii.eqb (fst x) "Y" then smul (sopp im) z else z) s1 cmds.
(** psi on the first n qubits, phi on the others *)
Definition beside (n : nat) (psi phi : @state K) : @state K := fun y => smul (psi (firstn n y)) (phi (skipn n y)).
End WorkflowSpec.
