(** Pauli strings with the textbook matrices X, Y = [[0, -i], [i, 0]] and Z:
    letter j acts on qubit j. *)
From Verif Require Import Py CodesModel CodesSpec Scalar CircuitModel CircuitSpec.
Open Scope nat_scope.

Section TextbookSpec.
Context {K : StarRing}.
Variables h im : K.

Definition letter_on (c : ascii) (j : nat) (psi : @state K) : @state K :=
  if Ascii.eqb c "X" then apply_gate h im [] GX j psi
  else if Ascii.eqb c "Y" then apply_gate h im [] GY j psi
  else if Ascii.eqb c "Z" then apply_gate h im [] GZ j psi
  else psi.
Fixpoint string_from (j : nat) (p : list ascii) (psi : @state K) : @state K :=
  match p with [] => psi | c :: r => string_from (S j) r (letter_on c j psi) end.
(** S psi for the string S = p *)
Definition pauli_on (p : list ascii) (psi : @state K) : @state K := string_from 0 p psi.
End TextbookSpec.

(** the number of letters Y *)
Definition count_y (p : list ascii) : nat := length (filter (Ascii.eqb "Y"%char) p).
(** [arg] hands over the string p itself or a binary row of it *)
Definition stands_for (p : list ascii) (arg : stabarg) : Prop :=
  arg = AsString p \/ exists row, arg = AsArray row /\ binary row /\ length row = 2 * length p /\ binary_rep_to_pauli_str row = Ok p.
