(** Unital operators (C108, C109). *)
From Verif Require Import Py Scalar PauliModel PauliSpec KrausModel KrausSpec.
Open Scope nat_scope.
Open Scope K_scope.
(** sum_A A A^dagger = I, on outputs of dimension N *)
Definition unital {K : StarRing} (N : nat) (ops : list (marr K)) : Prop :=
  eqm N N (fun i j => ksum (map (fun A => mm (mc A) (me A) (adj (me A)) i j) ops)) eye.
