(** Specification of the rank of an integer matrix over the rationals (m = 0) and
    over GF(2) (m = 2): the size of a largest linearly independent subfamily of
    rows.  A combination of integer rows vanishes over Z/m when [m] divides every
    entry; over the rationals integer coefficients suffice, and [0] divides only
    [0]. *)
From Verif Require Import Py.
From Coq Require Import Permutation.
Open Scope Z_scope.

(** entry [j] of the combination [sum_i c_i row_i] *)
Fixpoint lcomb (c : list Z) (rows : list (list Z)) (j : nat) : Z :=
  match c, rows with
  | x :: c', r :: rows' => x * nth j r 0 + lcomb c' rows' j
  | _, _ => 0
  end.

Definition indep (m : Z) (nc : nat) (rows : list (list Z)) : Prop :=
  forall c, length c = length rows ->
    (forall j, (j < nc)%nat -> (m | lcomb c rows j)) -> Forall (Z.divide m) c.

Definition is_rank (m : Z) (nc : nat) (rows : list (list Z)) (r : nat) : Prop :=
  (exists sub rest, Permutation rows (sub ++ rest) /\ length sub = r /\ indep m nc sub) /\
  (forall sub rest, Permutation rows (sub ++ rest) -> indep m nc sub -> (length sub <= r)%nat).
