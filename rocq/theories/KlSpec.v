(** Channels whose errors can be corrected on a code (C139). *)
From Verif Require Import Py Scalar PauliModel PauliSpec KrausModel KrausSpec CodesSpec QecSpec NoCorrectSpec.
Open Scope nat_scope.
Open Scope K_scope.
(** the conditions of Knill and Laflamme: W embeds d dimensions into the D on which the operators
    act, and W^dagger B^dagger A W is a multiple of the identity for any two of them *)
Definition correctable (O D d : nat) (ops : list (marr CC)) (W : array CC) : Prop :=
  forall A B, In A ops -> In B ops -> exists z : CC, eqm d d (mm O (adj (mm D (me B) W)) (mm D (me A) W)) (scale z eye).
(** W^dagger W = 1 *)
Definition isometry (D d : nat) (W : array CC) : Prop := eqm d d (mm D (adj W) W) eye.
(** W sigma W^dagger *)
Definition embedded (D d : nat) (W sigma : array CC) : marr CC := MA D D (mm d (mm d W sigma) (adj W)).
(** a sum of multiples of tensor products of Pauli matrices that act on at most t of n qubits *)
Definition acts_on_few (n t : nat) (A : marr CC) : Prop :=
  mr A = (2 ^ n)%nat /\ mc A = (2 ^ n)%nat /\
  exists Ms, Forall (fun M => exists a b, pauli_multiple_of n a b M /\ weight n b <= t) Ms /\
    eqm (2 ^ n) (2 ^ n) (me A) (fun i j => ksum (map (fun M => me M i j) Ms)).
