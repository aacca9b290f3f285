(** Vocabulary for C94: logical operators supplied by the caller. *)
From Verif Require Import Py RankSpec CodesSpec.
Open Scope Z_scope.

(** k rows of 2n bits *)
Definition bit_matrix (k n : nat) (rows : list (list Z)) : Prop :=
  length rows = k /\ Forall (fun r => length r = (2 * n)%nat) rows /\ Forall binary rows.

(** LX and LZ are logical operators of the code generated by rows: they commute with
    every generator and with each other except that the i-th X and the i-th Z do not *)
Definition logical_pair (n k : nat) (rows LX LZ : list (list Z)) : Prop :=
  bit_matrix k n LX /\ bit_matrix k n LZ /\
  (forall u v, In u (LX ++ LZ) -> In v rows -> commute n u v) /\
  (forall i j, (i < k)%nat -> (j < k)%nat -> commute n (nth i LX []) (nth j LX []) /\ commute n (nth i LZ []) (nth j LZ []) /\
     (commute n (nth i LX []) (nth j LZ []) <-> i <> j)).

(** how far, on qubit j, the operators LX differ from LX' on the message st *)
Definition difference (k : nat) (LX LX' : list (list Z)) (st : list Z) (j : nat) : Z :=
  fold_right Z.add 0 (map (fun i => nth i st 0 * (entry LX i j - entry LX' i j)) (seq 0 k)).
