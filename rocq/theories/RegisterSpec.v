(** Registers: which qubits of an engine a circuit may touch, and what it means for
    a circuit on one register to do what it does on another.  States are those of
    CircuitSpec.v; nothing here refers to the methods of the code. *)
From Verif Require Import Py Scalar CircuitModel CircuitSpec.
From Coq Require Import Ascii.
Open Scope nat_scope.

(** the qubits of a register among the N qubits of an engine *)
Definition a_register (N : nat) (register : list nat) : Prop := NoDup register /\ Forall (fun q => q < N) register.
(** the bits y of the whole engine: those of the register, in its order ... *)
Definition read (register : list nat) (y : list bool) : list bool := map (getb y) register.
(** ... and y with the bits of the register replaced by x *)
Definition write (register : list nat) (x y : list bool) : list bool :=
  fold_left (fun y qb => setb y (fst qb) (snd qb)) (combine register x) y.
(** the state of the register's qubits when the others hold the bits of y *)
Definition given_others {K : StarRing} (register : list nat) (y : list bool) (psi : @state K) : @state K :=
  fun x => psi (write register x y).

(** a command with its qubits renamed, and a method whose commands and result are *)
Definition rename (f : nat -> nat) (e : event) : event :=
  match e with
  | Gate cs g t => Gate (map f cs) g (f t)
  | Alloc q => Alloc (f q)
  | Measure q => Measure (f q)
  | Dealloc q => Dealloc (f q)
  end.
(** the qubits a command names *)
Definition qubits_of (e : event) : list nat :=
  match e with Gate cs _ t => cs ++ [t] | Alloc q | Measure q | Dealloc q => [q] end.
(** position i of the register *)
Definition at_register (register : list nat) (i : nat) : nat := nth i register 0.
Definition on_result {A B} (f : A -> B) (r : res A) : res B := match r with Ok a => Ok (f a) | Err e => Err e end.

(** ** calls that fail half-way *)
(** the gates of a Pauli string on the qubits of a register, as far as it reaches;
    [y] is the gate that stands for Y *)
Definition letter_gate (y : gate) (controls : list nat) (p : ascii) (q : nat) : list event :=
  if Ascii.eqb p "X" then [Gate controls GX q]
  else if Ascii.eqb p "Y" then [Gate controls y q]
  else if Ascii.eqb p "Z" then [Gate controls GZ q]
  else [].
Definition gates (y : gate) (controls register : list nat) (p : list ascii) : list event :=
  flat_map (fun pq => letter_gate y controls (fst pq) (snd pq)) (combine p register).
(** the first letter other than I for which the register has no qubit decides the result *)
Definition first_missing (register : list nat) (p : list ascii) : option ascii :=
  find (fun ch => negb (Ascii.eqb ch "I")) (skipn (length register) p).
Definition outcome (register : list nat) (p : list ascii) : res unit :=
  match first_missing register p with
  | None => Ok tt
  | Some ch => Err (if Ascii.eqb ch "Y" then ValueError else IndexError)
  end.
(** X on the qubits of the ones of a list of bits *)
Definition flips (bits : list Z) (register : list nat) : list event :=
  flat_map (fun bq => if Z.eqb (fst bq) 1 then [Gate [] GX (snd bq)] else []) (combine bits register).
