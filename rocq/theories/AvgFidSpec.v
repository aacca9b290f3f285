(** Vocabulary for statements about the optimisation of decoders. *)
From Verif Require Import Py Scalar PauliModel PauliSpec KrausSpec ChoiSpec AvgFidModel.
From Coq Require Import Reals.
From Coq Require String.
Import String.StringSyntax.
Delimit Scope string_scope with string.
Open Scope nat_scope.

(** the scalar product <X, C> = Tr(C^dagger X), PICOS's (X | C) *)
Definition inner {K : StarRing} (d : nat) (X C : array K) : K :=
  bsum d (fun i => bsum d (fun j => smul (X i j) (sconj (C i j)))).
(** partial traces of a matrix on the tensor product of spaces of dimensions a and b *)
Definition trace_second {K : StarRing} (b : nat) (X : array K) : array K := fun i j => bsum b (fun t => X (i * b + t) (j * b + t)).
Definition trace_first {K : StarRing} (a b : nat) (X : array K) : array K := fun i j => bsum a (fun t => X (t * b + i) (t * b + j)).

(** the matrices a programme ranges over *)
Definition feasible (P : programme) (X : marr CC) : Prop :=
  is_square (pr_size P) X /\ hermitian (pr_size P) (me X) /\ psd (pr_size P) (me X) /\
  match pr_traced P, pr_dims P with
  | 0, [(a, _); (b, _)] => eqm b b (trace_first a b (me X)) eye
  | 1, [(a, _); (b, _)] => eqm a a (trace_second b (me X)) eye
  | _, _ => False
  end.
Definition value (P : programme) (X : marr CC) : CC := inner (pr_size P) (me X) (me (pr_objective P)).
(** what is required of PICOS: it returns a matrix of the range, with the largest value *)
Definition solver_ok (solve : programme -> res decoder) : Prop :=
  forall P d, solve P = Ok d -> feasible P (optimal_recov d) /\ value P (optimal_recov d) = (optimal_val d, 0%R) /\
    forall X, feasible P X -> (fst (value P X) <= optimal_val d)%R.

(** the maximally mixed state *)
Definition mixed (d : nat) : marr CC := MA d d (fun i j => (if Nat.eqb i j then (/ INR d)%R else 0%R, 0%R) : CC).
Definition entrywise_conj {K : StarRing} (A : array K) : array K := fun i j => sconj (A i j).
Definition real_matrices (ops : list (marr CC)) : Prop := Forall (fun A : marr CC => forall i j, i < mr A -> j < mc A -> snd (me A i j) = 0%R) ops.
(** the Choi matrix of the channel with the operators ops, as an array *)
Definition choi_arr_of (ops : list (marr CC)) (din dout : nat) : marr CC := MA (din * dout) (din * dout) (choi_matrix ops dout).
