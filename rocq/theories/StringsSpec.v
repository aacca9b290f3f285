(** Strings of Pauli letters and rows of bits; nothing here refers to the model. *)
From Verif Require Import Py CodesSpec.
From Coq Require Import Ascii.
Open Scope nat_scope.

(** The first n letters of [p] and the row [r] denote the same operator: X and Y set the
    bit of the X half, Z and Y that of the Z half. *)
Definition spells (n : nat) (p : list ascii) (r : list Z) : Prop :=
  length r = 2 * n /\
  forall j, j < n -> exists c, nth_error p j = Some c /\ pauli_letter c /\
    nth j r 0%Z = (if (Ascii.eqb c "X" || Ascii.eqb c "Y")%bool then 1 else 0)%Z /\
    nth (n + j) r 0%Z = (if (Ascii.eqb c "Z" || Ascii.eqb c "Y")%bool then 1 else 0)%Z.
