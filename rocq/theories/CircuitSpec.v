(** What ProjectQ commands do to the quantum state.  A state of q qubits is an
    amplitude for each list of q bits; bit j belongs to qubit j.  [h] stands for
    1/sqrt(2) and [im] for i; the theorems assume the equations that define them. *)
From Verif Require Import Py CodesModel Scalar CircuitModel.
Open Scope nat_scope.

Section CircuitSpec.
Context {K : StarRing}.
Variables h im : K.
Open Scope K_scope.

(** h is 1/sqrt(2), im is i *)
Definition qubit_constants : Prop :=
  h * h + h * h = 1 /\ h^* = h /\ im * im = - (1) /\ im^* = - im.
Fixpoint kpow (x : K) (m : nat) : K := match m with O => 1 | S p => x * kpow x p end.

Definition state := list bool -> K.
Definition getb (y : list bool) (j : nat) : bool := nth j y false.
Definition setb (y : list bool) (j : nat) (b : bool) : list bool :=
  map (fun i => if Nat.eqb i j then b else getb y i) (seq O (length y)).

(** entry (a, b) of the 2x2 matrix of a gate *)
Definition gate_entry (g : gate) (a b : bool) : K :=
  match g, a, b with
  | GX, false, true | GX, true, false => 1
  | GZ, false, false => 1 | GZ, true, true => - (1)
  | GH, true, true => - h | GH, _, _ => h
  | GY, false, true => - im | GY, true, false => im
  | GmiY, false, true => - (1) | GmiY, true, false => 1
  | _, _, _ => 0
  end.
Definition apply_gate (controls : list nat) (g : gate) (t : nat) (psi : state) : state :=
  fun y => if forallb (getb y) controls
           then gate_entry g (getb y t) false * psi (setb y t false) + gate_entry g (getb y t) true * psi (setb y t true)
           else psi y.
(** the part of the state in which qubit t holds b (not renormalised) *)
Definition project (t : nat) (b : bool) (psi : state) : state :=
  fun y => if Bool.eqb (getb y t) b then psi y else 0.
(** a new last qubit q in |0> *)
Definition add_qubit (q : nat) (psi : state) : state :=
  fun y => if getb y q then 0 else psi (firstn q y).

(** Running commands; [outs] lists the outcomes of the measurements.  The result is
    the unnormalised state of that branch: its squared norm is the probability of
    these outcomes.  A deallocated qubit is simply never used again. *)
Fixpoint exec (outs : list bool) (evs : list event) (psi : state) : state :=
  match evs with
  | [] => psi
  | Gate cs g t :: r => exec outs r (apply_gate cs g t psi)
  | Alloc q :: r => exec outs r (add_qubit q psi)
  | Measure q :: r => exec (tl outs) r (project q (hd false outs) psi)
  | Dealloc _ :: r => exec outs r psi
  end.

(** equality of states of q qubits *)
Definition eqs (q : nat) (psi phi : state) : Prop := forall y, length y = q -> psi y = phi y.

(** the basis state |x> and linear combinations *)
Definition ket (x : list bool) : state := fun y => if list_eq_dec bool_dec y x then 1 else 0.
Definition zero_ket (q : nat) : state := ket (repeat false q).
Definition sscale (a : K) (psi : state) : state := fun y => a * psi y.
Definition splus (psi phi : state) : state := fun y => psi y + phi y.
(** psi (n qubits) tensor |x> *)
Definition tensor (n : nat) (psi : state) (x : list bool) : state :=
  fun y => if list_eq_dec bool_dec (skipn n y) x then psi (firstn n y) else 0.

(** the superposition of the states F s with amplitudes a, for (a, s) in l *)
Definition superpose {A} (l : list (K * A)) (F : A -> state) : state :=
  fun y => fold_right (fun p acc => fst p * F (snd p) y + acc) 0 l.

(** inner product of two states of q qubits *)
Fixpoint isum (q : nat) (f : list bool -> K) : K :=
  match q with
  | O => f []
  | S p => isum p (fun y => f (false :: y)) + isum p (fun y => f (true :: y))
  end.
Definition inner (q : nat) (psi phi : state) : K := isum q (fun y => (psi y)^* * phi y).

(** bits of an index, qubit 0 most significant, and a 2^n x 2^n matrix acting on a state *)
Fixpoint bits_of (n i : nat) : list bool :=
  match n with O => [] | S m => Nat.testbit i m :: bits_of m i end.
Definition matrix_fixes (n : nat) (A : array K) (psi : state) : Prop :=
  forall i, i < 2 ^ n -> bsum (2 ^ n) (fun l => A i l * psi (bits_of n l)) = psi (bits_of n i).
(** phi = A psi *)
Definition matrix_maps (n : nat) (A : array K) (psi phi : state) : Prop :=
  forall i, i < 2 ^ n -> bsum (2 ^ n) (fun l => A i l * psi (bits_of n l)) = phi (bits_of n i).

(** the state encoding_circuit prepares from |0...0> for the message st *)
Definition encode (n : nat) (c : code) (st : list Z) : state :=
  exec [] (fst (encoding_circuit c (seq O n) st)) (zero_ket n).
End CircuitSpec.

(** the bits of a message given as integers *)
Definition message (s : list Z) : list bool := map (fun b => Z.eqb b 1) s.

(** one decimal digit; the message with bit i flipped *)
Definition digit (i : nat) : ascii := ascii_of_nat (48 + i).
Definition flip_bit (i : nat) (st : list Z) : list Z :=
  map (fun j => if Nat.eqb j i then (1 - nth j st 0)%Z else nth j st 0%Z) (seq 0 (length st)).
