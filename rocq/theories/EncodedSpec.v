(** Notions for the signs of the generators on encoded states (C105). *)
From Verif Require Import Py CodesSpec PauliSpec.
Open Scope nat_scope.

(** The sum of c_i c_l (z_i . x_l) over l < i: multiplying out the product of the
    chosen rows gives the matrix of their sum up to (-1) to this power. *)
Definition cross_sign (n : nat) (cs : list Z) (rows : list (list Z)) : Z :=
  fold_right Z.add 0%Z (map (fun i =>
    fold_right Z.add 0%Z (map (fun l => nth i cs 0 * (nth l cs 0 * zx_dot n (nth i rows []) (nth l rows [])))%Z (seq 0 i)))
    (seq 0 (length rows))).
(** only letters X and I, or only letters Z and I *)
Definition css_row (n : nat) (r : list Z) : Prop :=
  (forall j, j < n -> nth (n + j) r 0%Z = 0%Z) \/ (forall j, j < n -> nth j r 0%Z = 0%Z).
