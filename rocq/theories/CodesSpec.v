(** Textbook notions used to state the stabilizer-code properties; nothing here
    refers to the model of the code. *)
From Verif Require Import Py RankSpec.
From Coq Require Import Ascii.
Open Scope Z_scope.

(** A row of length 2n: n bits for the X part, then n bits for the Z part. *)
Definition binary (row : list Z) : Prop := Forall (fun x => x = 0 \/ x = 1) row.

(** The symplectic product sum_j (u_j v_{n+j} + u_{n+j} v_j), an integer. *)
Definition symp (n : nat) (u v : list Z) : Z :=
  fold_right Z.add 0
    (map (fun j => nth j u 0 * nth (n + j) v 0 + nth (n + j) u 0 * nth j v 0) (seq 0 n)).

(** Two Pauli operators commute iff this product is even (C03 proves that for the
    matrices). *)
Definition commute (n : nat) (u v : list Z) : Prop := (2 | symp n u v).
Definition all_commute (n : nat) (rows : list (list Z)) : Prop :=
  forall u v, In u rows -> In v rows -> commute n u v.

(** Membership in the GF(2) row space. *)
Definition in_rowspace (n : nat) (rows : list (list Z)) (v : list Z) : Prop :=
  exists c, length c = length rows /\
    forall j, (j < 2 * n)%nat -> (2 | nth j v 0 - lcomb c rows j).

(** A set of generators of an [[n,k]] stabilizer code. *)
Definition valid_generators (n k : nat) (rows : list (list Z)) : Prop :=
  (0 < length rows)%nat /\ length rows = (n - k)%nat /\
  Forall (fun r => length r = (2 * n)%nat) rows /\ Forall binary rows /\
  all_commute n rows /\ indep 2 (2 * n) rows.

(** Relabelling the qubits of a row by p. *)
Definition qubit_perm (n : nat) (p : nat -> nat) : Prop :=
  (forall i, (i < n)%nat -> (p i < n)%nat) /\
  (forall i j, (i < n)%nat -> (j < n)%nat -> p i = p j -> i = j).
Definition relabel (n : nat) (p : nat -> nat) (row : list Z) : list Z :=
  map (fun j => nth (if Nat.ltb j n then p j else (n + p (j - n))%nat) row 0) (seq 0 (2 * n)).

(** Columns 0..n-1 of the rows. *)
Definition x_parts (n : nat) (rows : list (list Z)) : list (list Z) := map (firstn n) rows.

(** Entry (i, j) of a list of rows. *)
Definition entry (rows : list (list Z)) (i j : nat) : Z := nth j (nth i rows []) 0.

(** The letters of Pauli strings. *)
Definition pauli_letter (c : ascii) : Prop :=
  c = "I"%char \/ c = "X"%char \/ c = "Y"%char \/ c = "Z"%char.
(** A string whose first n letters exist and are Pauli letters. *)
Definition readable (n : nat) (p : list ascii) : Prop :=
  (n <= length p)%nat /\ Forall pauli_letter (firstn n p).

(** The X part (Z part) of a row, with the other half set to zero. *)
Definition x_only (m : nat) (l : list Z) : list Z := (firstn m l ++ repeat 0 m)%list.
Definition z_only (m : nat) (l : list Z) : list Z := (repeat 0 m ++ skipn m l)%list.
