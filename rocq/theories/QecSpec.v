(** Textbook notions for error correction with a stabilizer code: weight and distance of
    Pauli operators, and a round of syndrome measurements. *)
From Verif Require Import Py CodesModel CodesSpec Scalar CircuitModel CircuitSpec.
Open Scope nat_scope.

(** the number of qubits on which a row acts *)
Definition weight (n : nat) (row : list Z) : nat :=
  length (filter (fun j => Z.eqb (nth j row 0%Z) 1 || Z.eqb (nth (n + j) row 0%Z) 1)%bool (seq 0 n)).
(** operators that commute with the stabilizers and act on fewer than d qubits are
    stabilizers *)
Definition distance_at_least (n : nat) (stabilizers : list (list Z)) (d : nat) : Prop :=
  forall v, length v = 2 * n -> binary v -> (forall r, In r stabilizers -> commute n r v) -> weight n v < d -> in_rowspace n stabilizers v.

(** what the measurements of the rows show on a state with the error err, one after the
    other on the same ancilla, which holds a at first: the ancilla is not reset, so each
    shows the previous value flipped by the syndrome bit *)
Fixpoint readings (n : nat) (rows : list (list Z)) (err : list Z) (a : bool) : list bool :=
  match rows with
  | [] => []
  | r :: rest => let b := xorb a (Z.odd (symp n r err)) in b :: readings n rest err b
  end.
(** the user's loop over the rows: measure each, with the outcomes outs *)
Fixpoint measure_syndromes {K : StarRing} (h im : K) (n : nat) (c : code) (rows : list (list Z)) (outs : list bool) (psi : @state K) : @state K :=
  match rows, outs with
  | r :: rest, b :: bs =>
      measure_syndromes h im n c rest bs (exec h im [b] (fst (single_syndrome_measurement c (n + 1) (seq 0 (n + 1)) (AsArray r))) psi)
  | _, _ => psi
  end.
