(** Vocabulary for statements about the coherent information. *)
From Verif Require Import Py Scalar PauliModel PauliSpec KrausSpec ChoiSpec.
From Coq Require Import Reals.
Open Scope nat_scope.

(** s is the von Neumann entropy - Tr A log2 A of a Hermitian matrix *)
Definition von_neumann (d : nat) (A : array CC) (s : R) : Prop := exists l, spectrum d A l /\ s = entropy_of 0%R l.
(** two lists of operators describe the same map *)
Definition same_channel (D' : nat) (l m : list (marr CC)) : Prop :=
  forall rho, eqm D' D' (channel_map l rho) (channel_map m rho).
(** what leaving out one eigenvalue of modulus at most 1e-10 can change an entropy by *)
Definition slack : R := (34 / 10000000000)%R.
