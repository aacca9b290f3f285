(** Vocabulary for C156: encoding every qubit of a state once more.  Nothing here refers to the model of the code. *)
From Verif Require Import Py CodesModel Scalar CircuitModel CircuitSpec.
Open Scope nat_scope.

Section BlockSpec.
Context {K : StarRing}.
Open Scope K_scope.
(** the product of the states e b, of m qubits each, for the bits b of x *)
Fixpoint product_state (m : nat) (e : bool -> @state K) (x : list bool) : @state K :=
  match x with
  | [] => fun _ => 1
  | b :: r => fun y => e b (firstn m y) * product_state m e r (skipn m y)
  end.
(** each of the n qubits of psi replaced by m qubits: |x> becomes the product of the e b *)
Definition encode_each (n m : nat) (e : bool -> @state K) (psi : @state K) : @state K :=
  fun y => isum n (fun x => psi x * product_state m e x y).
End BlockSpec.
