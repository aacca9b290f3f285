(** Specification vocabulary for the fidelity of two states. *)
From Verif Require Import Py Scalar PauliModel PauliSpec KrausSpec ChoiSpec.
From Coq Require Import Reals.
Open Scope nat_scope.

(** x = tr sqrt(sqrt(rho) sigma sqrt(rho)) *)
Definition fidelity (d : nat) (rho sigma : array CC) (x : R) : Prop :=
  exists r s, square_root d rho r /\ square_root d (mm d (mm d r sigma) r) s /\ tr d s = ((x, 0%R) : CC).
(** rho sigma = 0: the states live on orthogonal subspaces *)
Definition orthogonal_states (d : nat) (rho sigma : array CC) : Prop := eqm d d (mm d rho sigma) (fun _ _ => s0).
(** every Kraus operator acts on the support of rho as a multiple of the identity *)
Definition untouched (d : nat) (ops : list (marr CC)) (rho : array CC) : Prop :=
  Forall (fun A => exists a : CC, eqm d d (mm d (me A) rho) (scale a rho)) ops.
(** the product of a list of numbers *)
Definition reals_prod (l : list R) : R := fold_right Rmult 1%R l.
