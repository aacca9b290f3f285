(** Products of Pauli strings, and the textbook matrices of Pauli strings (C143). *)
From Verif Require Import Py ZMat Scalar PauliModel PauliSpec.
From Coq Require Import Reals.
Open Scope nat_scope.
(** the string of the product of two Paulis *)
Definition times (a b : list Z) : list Z := map (fun xy => (fst xy + snd xy) mod 2)%Z (combine a b).
(** (-1)^s times the library's matrix of r is a product of the library's matrices of rows.  The matrices of a and
    b multiply to (-1)^(zx_dot n a b) times the matrix of [times a b] (C05). *)
Inductive product_of (n : nat) (rows : list (list Z)) : bool -> list Z -> Prop :=
| po_one r : In r rows -> product_of n rows false r
| po_mul s t a b : product_of n rows s a -> product_of n rows t b -> product_of n rows (xorb (xorb s t) (Z.odd (zx_dot n a b))) (times a b).

Open Scope K_scope.
(** the textbook's I, X, Z and Y, entry (i, j) *)
Definition letter (x z : Z) (i j : bool) : CC :=
  match (x =? 1)%Z, (z =? 1)%Z with
  | false, false => if eqb i j then 1 else 0
  | true, false => if eqb i j then 0 else 1
  | false, true => if eqb i j then (if i then - (1) else 1) else 0
  | true, true => if eqb i j then 0 else (if i then ((0, 1)%R : CC) else ((0, -1)%R : CC))
  end.
(** the textbook's matrix of a row: the tensor product of the letters, the first one on the left *)
Definition textbook (n : nat) (r : list Z) : array CC := fun i j =>
  fold_right smul 1 (map (fun l => letter (nth l r 0%Z) (nth (n + l) r 0%Z) (Nat.testbit i (n - 1 - l)) (Nat.testbit j (n - 1 - l))) (seq O n)).
(** v is fixed by the textbook's matrices of all rows *)
Definition stabilised (n : nat) (rows : list (list Z)) (v : nat -> CC) : Prop :=
  forall r, In r rows -> forall i, (i < 2 ^ n)%nat -> bsum (2 ^ n) (fun l => textbook n r i l * v l) = v i.
(** two sets of generators stabilise the same vectors *)
Definition same_code_space (n : nat) (rows rows' : list (list Z)) : Prop := forall v, stabilised n rows v <-> stabilised n rows' v.
(** two encoders with the same code space: as many columns, the same projector, and the columns of the one are the
    columns of the other, rotated *)
Definition same_space (E E' : marr CC) : Prop :=
  mr E' = mr E /\ mc E' = mc E /\ eqm (mr E) (mr E) (mm (mc E) (me E) (adj (me E))) (mm (mc E) (me E') (adj (me E'))) /\
  exists U : array CC, eqm (mc E) (mc E) (mm (mc E) (adj U) U) eye /\ eqm (mc E) (mc E) (mm (mc E) U (adj U)) eye /\ eqm (mr E) (mc E) (me E') (mm (mc E) (me E) U).
(** two encoders with orthogonal code spaces *)
Definition orthogonal_spaces (E E' : marr CC) : Prop := mr E' = mr E /\ eqm (mc E) (mc E') (mm (mr E) (adj (me E)) (me E')) (fun _ _ => 0).
