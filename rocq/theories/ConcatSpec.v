(** Vocabulary for concatenated codes; nothing here refers to the model of the code. *)
From Verif Require Import Py RankSpec CodesSpec.
Open Scope nat_scope.

(** The entries of qubit [p] of block [b] in a row for [nb] blocks of [m] qubits:
    X parts of all blocks first, then the Z parts. *)
Definition x_at (nb m : nat) (r : list Z) (b p : nat) : Z := nth (b * m + p) r 0%Z.
Definition z_at (nb m : nat) (r : list Z) (b p : nat) : Z := nth (nb * m + (b * m + p)) r 0%Z.

(** [r] is the operator [g] on block [i] and the identity on the others. *)
Definition in_block (nb m i : nat) (g r : list Z) : Prop :=
  length r = 2 * (nb * m) /\
  forall b p, b < nb -> p < m ->
    x_at nb m r b p = (if Nat.eqb b i then nth p g 0 else 0)%Z /\
    z_at nb m r b p = (if Nat.eqb b i then nth (m + p) g 0 else 0)%Z.

(** [r] is the operator [g] on n qubits, with qubit j replaced by a logical qubit
    of block [blk j] whose logical operators are [LX j] and [LZ j]. *)
Definition encodes (n nb m : nat) (blk : nat -> nat) (LX LZ : nat -> list Z) (g r : list Z) : Prop :=
  length r = 2 * (nb * m) /\
  let part b q := (fold_right Z.add 0 (map (fun j => if Nat.eqb (blk j) b
       then nth j g 0 * nth q (LX j) 0 + nth (n + j) g 0 * nth q (LZ j) 0 else 0) (seq 0 n)) mod 2)%Z in
  forall b p, b < nb -> p < m -> x_at nb m r b p = part b p /\ z_at nb m r b p = part b (m + p).

(** The generators of the concatenated code: those of the inner code in every
    block, then the encoded ones of the outer code. *)
Definition concatenation (n nb m : nat) (blk : nat -> nat) (LX LZ : nat -> list Z) (outer inner rows : list (list Z)) : Prop :=
  exists A B, rows = (A ++ B)%list /\
    Forall2 (fun ig r => in_block nb m (fst ig) (snd ig) r) (list_prod (seq 0 nb) inner) A /\
    Forall2 (encodes n nb m blk LX LZ) outer B.

(** [LX], [LZ] are the operators of n different logical qubits in nb blocks of
    the inner code. *)
Definition logical_qubits (n nb m : nat) (blk : nat -> nat) (LX LZ : nat -> list Z) (inner : list (list Z)) : Prop :=
  (forall j, j < n -> blk j < nb) /\
  (forall j r, j < n -> In r inner -> commute m r (LX j) /\ commute m r (LZ j)) /\
  (forall i j, i < n -> j < n -> blk i = blk j ->
     (commute m (LX i) (LZ j) <-> i <> j) /\ commute m (LX i) (LX j) /\ commute m (LZ i) (LZ j)).

(** The letter of a row at a qubit is the identity. *)
Definition identity_at (n : nat) (g : list Z) (j : nat) : Prop := nth j g 0%Z = 0%Z /\ nth (n + j) g 0%Z = 0%Z.
