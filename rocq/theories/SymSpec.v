(** What the environment receives (C141) and rotated inputs (C142). *)
From Verif Require Import Py Scalar PauliModel PauliSpec KrausModel KrausSpec.
From Coq Require Import Reals.
Open Scope nat_scope.
Open Scope K_scope.
(** the channel to the environment, from a channel into O dimensions on D dimensions: its operator number x has as
    row t the row x of the operator number t *)
Definition environment_ops (O D : nat) (ops : list (marr CC)) : list (marr CC) :=
  map (fun x => MA (length ops) D (fun t i => me (nth t ops one_by_one) x i)) (seq 0 O).
(** the channel after its input went through V: A V for every operator A *)
Definition prepared (V : marr CC) (ops : list (marr CC)) : list (marr CC) := map (fun A => MA (mr A) (mc V) (mm (mc A) (me A) (me V))) ops.
(** what enters n uses when each input went through V: V^(x)n rho V^(x)n^dagger *)
Definition sent (V : marr CC) (n : nat) (rho : array CC) : marr CC := MA (mr V ^ n) (mr V ^ n) (channel_map (power_ops [V] n) rho).
