(** Specification vocabulary for processing what leaves a channel. *)
From Verif Require Import Py Scalar PauliModel PauliSpec KrausSpec.
From Coq Require Import Reals.
Open Scope nat_scope.
Open Scope K_scope.

(** whatever goes in, the channel c returns what some fixed trace-preserving operation makes of
    the output (of dimension O) of the channel a *)
Definition processed (O E : nat) (a c : list (marr CC)) : Prop :=
  exists m, fits E O m /\ trace_preserving O m /\ forall rho, eqm E E (channel_map c rho) (channel_map m (channel_map a rho)).
(** a fixed trace-preserving operation makes the output of the channel out of its exchange
    matrix Tr(K_i rho K_j^dagger), which is what the environment holds *)
Definition environment_imitates (O : nat) (a : list (marr CC)) : Prop :=
  exists m, fits O (length a) m /\ trace_preserving (length a) m /\ forall rho, eqm O O (channel_map a rho) (channel_map m (exchange_entry a rho)).
(** ... and the other way round *)
Definition output_imitates (O : nat) (a : list (marr CC)) : Prop :=
  exists m, fits (length a) O m /\ trace_preserving O m /\ forall rho, eqm (length a) (length a) (exchange_entry a rho) (channel_map m (channel_map a rho)).
(** the state of the first input, and of the others, of a system of dimension p*r *)
Definition first_of (r : nat) (X : array CC) : array CC := fun i j => bsum r (fun t => X (i * r + t)%nat (j * r + t)%nat).
Definition rest_of (p r : nat) (X : array CC) : array CC := fun t s => bsum p (fun i => X (i * r + t)%nat (i * r + s)%nat).
(** the states of the n inputs, each of dimension D *)
Fixpoint marginals (D n : nat) (rho : array CC) : list (marr CC) :=
  match n with O => [] | S k => MA D D (first_of (D ^ k) rho) :: marginals D k (rest_of D (D ^ k) rho) end.
(** the states Z 0, .., Z (k-1) with probabilities c 0, .., c (k-1) *)
Definition mixture (k : nat) (c : nat -> R) (Z : nat -> array CC) : array CC := fun i j => bsum k (fun x => ((c x, 0%R) : CC) * Z x i j).
