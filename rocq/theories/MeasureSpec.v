(** Measuring a Pauli operator on an arbitrary state, and arbitrary errors on some of the
    qubits (C112, C113). *)
From Verif Require Import Py Scalar CircuitSpec.
Open Scope nat_scope.
Open Scope K_scope.

Section MeasureSpec.
Context {K : StarRing}.
Variable h : K.
(** (v + (-1)^b w)/2, which is the projection of v for outcome b when w = A v; h is 1/sqrt 2 *)
Definition projected (b : bool) (v w : @state K) : @state K := fun y => h * h * (v y + sgn b * w y).

(** an arbitrary 2x2 matrix M, entry M a b in row a and column b, acting on qubit q *)
Definition on_qubit (q : nat) (M : bool -> bool -> K) (psi : @state K) : @state K :=
  fun y => M (getb y q) false * psi (setb y q false) + M (getb y q) true * psi (setb y q true).
(** several of these, the last of the list first *)
Fixpoint noise (l : list (nat * (bool -> bool -> K))) (psi : @state K) : @state K :=
  match l with [] => psi | (q, M) :: r => on_qubit q M (noise r psi) end.
(** the qubits on which they act *)
Definition touched (l : list (nat * (bool -> bool -> K))) : list nat := nodup Nat.eq_dec (map fst l).
End MeasureSpec.
