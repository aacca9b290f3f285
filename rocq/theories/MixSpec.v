(** Channels mixed without telling which one acted (C138). *)
From Verif Require Import Py Scalar PauliModel PauliSpec KrausModel KrausSpec ChannelSpec ChoiSpec KnownSpec.
From Coq Require Import Reals.
Open Scope nat_scope.
Open Scope K_scope.
(** sqrt(x) A *)
Definition scaled (x : R) (A : marr CC) : marr CC := MA (mr A) (mc A) (fun i j => rt x * me A i j).
(** with probability 1-q the channel a acts, with probability q the channel b *)
Definition mixture (q : R) (a b : list (marr CC)) : list (marr CC) := map (scaled (1 - q)) a ++ map (scaled q) b.
