(** Specification for C127 and C128. *)
From Verif Require Import Py Scalar PauliModel KrausModel KrausSpec.
Open Scope nat_scope.
Open Scope K_scope.

(** the operators before position b are orthogonal to those from b on, K_j^dagger K_i = 0: the
    outputs of the two groups can be told apart *)
Definition apart_at {K : StarRing} (c : nat) (l : list (marr K)) (b : nat) : Prop :=
  forall i j x y, (i < b)%nat -> (b <= j < length l)%nat -> (x < c)%nat -> (y < c)%nat ->
    mm (mr (nth i l one_by_one)) (adj (me (nth j l one_by_one))) (me (nth i l one_by_one)) x y = 0.
