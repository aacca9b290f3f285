(** When the maximally mixed state is best for one use of the dephrasure channel, and when the channel is useless (C130, C131). *)
From Coq Require Import Reals.
Open Scope R_scope.

(** PyQCodes/chan/tests/test_channel.py, L155-158: optima_mixed_state_bound(p) *)
Definition optima_mixed_state_bound (p : R) : R :=
  (1 - 2 * p - 2 * p * (1 - p) * ln ((1 - p) / p)) / (2 - 4 * p - 2 * p * (1 - p) * ln ((1 - p) / p)).
(** from this probability of erasure on the environment can imitate the receiver *)
Definition useless_bound (p : R) : R := (1 - 2 * p) / (2 - 2 * p).

From Verif Require Import Py Scalar PauliModel PauliSpec KrausModel KrausSpec KnownSpec.
Open Scope nat_scope.
Open Scope K_scope.
(** one of the matrices U is applied; U has probability p *)
Definition random_unitary (D : nat) (l : list (R * array CC)) : list (marr CC) := map (fun x => MA D D (fun i j => rt (fst x) * snd x i j)) l.
(** the matrices are unitary and orthogonal to each other, as Pauli operators are *)
Definition orthogonal_unitaries (D : nat) (l : list (R * array CC)) : Prop :=
  Forall (fun x => unitary D (snd x)) l /\ forall i j, i < j -> j < length l -> tr D (mm D (snd (nth i l (0%R, eye))) (adj (snd (nth j l (0%R, eye))))) = 0.
Definition probabilities (l : list (R * array CC)) : Prop := Forall (fun x => (0 <= fst x)%R) l /\ reals_sum (map fst l) = 1%R.
(** - sum p log2 p *)
Definition shannon (l : list R) : R := (- reals_sum (map (fun p => (p * ln p)%R) l) / ln 2)%R.
