(** Specification vocabulary for Kraus channels: plain linear algebra on lists of
    matrices, independent of how the code computes. *)
From Verif Require Import Py Scalar PauliModel PauliSpec.
From Coq Require Import Reals.
Open Scope nat_scope.

Section Spec.
Context {K : StarRing}.
Open Scope K_scope.

Definition ksum (l : list K) : K := fold_right sadd 0 l.
(** every operator maps dimension c to dimension r *)
Definition fits (r c : nat) (ops : list (marr K)) : Prop := Forall (fun A => mr A = r /\ mc A = c) ops.
(** rho |-> sum_A A rho A^dagger *)
Definition channel_map (ops : list (marr K)) (rho : array K) : array K :=
  fun i j => ksum (map (fun A => mm (mc A) (mm (mc A) (me A) rho) (adj (me A)) i j) ops).
(** X |-> sum_A A^dagger X A *)
Definition adjoint_map (ops : list (marr K)) (X : array K) : array K :=
  fun i j => ksum (map (fun A => mm (mr A) (mm (mr A) (adj (me A)) X) (me A) i j) ops).
(** sum_A A^dagger A = I *)
Definition trace_preserving (d : nat) (ops : list (marr K)) : Prop :=
  eqm d d (fun i j => ksum (map (fun A => mm (mr A) (adj (me A)) (me A) i j) ops)) eye.
(** Kronecker product *)
Definition tens (A B : marr K) : marr K :=
  MA (mr A * mr B) (mc A * mc B) (fun i j => me A (i / mr B)%nat (j / mc B)%nat * me B (i mod mr B)%nat (j mod mc B)%nat).
Definition one_by_one : marr K := MA 1 1 (fun _ _ => 1).
Definition tens_all (l : list (marr K)) : marr K := fold_right tens one_by_one l.
(** all products A x B, the second index running fastest *)
Definition tens_ops (l m : list (marr K)) : list (marr K) := flat_map (fun A => map (tens A) m) l.
Fixpoint power_ops (ops : list (marr K)) (n : nat) : list (marr K) :=
  match n with O => [one_by_one] | S m => tens_ops ops (power_ops ops m) end.
(** all products A.B *)
Definition prod_ops (l m : list (marr K)) : list (marr K) :=
  flat_map (fun A => map (fun B => MA (mr A) (mc B) (mm (mc A) (me A) (me B))) m) l.
(** same shape and same entries *)
Definition same_mat (A B : marr K) : Prop := mr A = mr B /\ mc A = mc B /\ eqm (mr A) (mc A) (me A) (me B).
Definition same_ops : list (marr K) -> list (marr K) -> Prop := Forall2 same_mat.
Definition is_square (d : nat) (A : marr K) : Prop := mr A = d /\ mc A = d.
(** Tr(K_i rho K_j^dagger) *)
Definition exchange_entry (ops : list (marr K)) (rho : array K) (i j : nat) : K :=
  let A := nth i ops one_by_one in let B := nth j ops one_by_one in
  tr (mr A) (mm (mc A) (mm (mc A) (me A) rho) (adj (me B))).
End Spec.

(** positive semidefinite: every expectation value is a non-negative real *)
Definition psd (d : nat) (A : array CC) : Prop :=
  forall v : nat -> CC, exists x : R, (0 <= x)%R /\
    bsum d (fun i => bsum d (fun j => smul (smul (sconj (v i)) (A i j)) (v j))) = ((x, 0%R) : CC).
Definition density (d : nat) (A : array CC) : Prop := hermitian d A /\ psd d A /\ tr d A = s1.

(** the rows and columns from, .., to-1 of a matrix *)
Definition block {K : StarRing} (W : marr K) (from to : nat) : marr K :=
  MA (to - from) (to - from) (fun i j => me W (from + i) (from + j)).
(** the diagonal blocks cut out by the boundaries, the last one running to the end *)
Fixpoint diagonal_blocks {K : StarRing} (W : marr K) (from : nat) (boundaries : list nat) : list (marr K) :=
  match boundaries with
  | [] => [block W from (mr W)]
  | b :: r => block W from b :: diagonal_blocks W b r
  end.

(** ** entanglement fidelity of an ensemble: sum_p p sum_i |Tr(K_i rho)|^2 *)
Open Scope R_scope.
Definition reals_sum (l : list R) : R := fold_right Rplus 0 l.
Definition entanglement_fidelity (ops : list (marr CC)) (rho : marr CC) : R :=
  reals_sum (map (fun A => Cmod (tr (mr A) (mm (mc A) (me A) (me rho))) ^ 2) ops).
Definition ensemble (f : marr CC -> R) (probs : list R) (states : list (marr CC)) : R :=
  reals_sum (map (fun ps => fst ps * f (snd ps)) (combine probs states)).
Close Scope R_scope.
