(** Channels whose coherent information is known (C122 to C126).  The test-suite compares the code
    with these values at a few points; here they are stated for every parameter and every state. *)
From Verif Require Import Py Scalar PauliModel PauliSpec KrausModel KrausSpec.
From Coq Require Import Reals.
Open Scope nat_scope.
Open Scope K_scope.

(** h(p) = - p log2 p - (1-p) log2 (1-p), where 0 log2 0 is 0 *)
Definition binary_entropy (p : R) : R := (- (p * ln p + (1 - p) * ln (1 - p)) / ln 2)%R.
(** the square root of a number, as an entry of a matrix *)
Definition rt (x : R) : CC := (sqrt x, 0%R).

(** the channel a with probability 1-q and the channel b with probability q, where the receiver is
    told which: a uses the first O1, b the last O2 dimensions of the output *)
Definition upper (O2 : nat) (x : R) (A : marr CC) : marr CC := MA (mr A + O2) (mc A) (fun i j => if Nat.ltb i (mr A) then rt x * me A i j else 0).
Definition lower (O1 : nat) (x : R) (B : marr CC) : marr CC := MA (O1 + mr B) (mc B) (fun i j => if Nat.ltb i O1 then 0 else rt x * me B (i - O1)%nat j).
Definition flagged (q : R) (O1 O2 : nat) (a b : list (marr CC)) : list (marr CC) := map (upper O2 (1 - q)) a ++ map (lower O1 q) b.
(** <0|, .., <D-1|: everything is lost *)
Definition lost (D : nat) : list (marr CC) := map (fun k => MA 1 D (fun _ j => if Nat.eqb j k then 1 else 0)) (seq 0 D).
Definition identity_ops (D : nat) : list (marr CC) := [MA D D eye].
(** the erasure channel: the input, or with probability q the vector number D *)
Definition erasure (q : R) (D : nat) : list (marr CC) := flagged q D 1 (identity_ops D) (lost D).

Definition mat2 (a b c d : CC) : marr CC :=
  MA 2 2 (fun i j => if Nat.eqb i 0 then (if Nat.eqb j 0 then a else b) else (if Nat.eqb j 0 then c else d)).
(** sqrt(1-p) I, sqrt(p) Z *)
Definition dephasing (p : R) : list (marr CC) := [mat2 (rt (1 - p)) 0 0 (rt (1 - p)); mat2 (rt p) 0 0 (- rt p)].
(** sqrt(1-p) I, sqrt(p) X *)
Definition bit_flip (p : R) : list (marr CC) := [mat2 (rt (1 - p)) 0 0 (rt (1 - p)); mat2 0 (rt p) (rt p) 0].
(** sqrt(1-p) I, sqrt(p/3) X, sqrt(p/3) Y, sqrt(p/3) Z *)
Definition depolarising (p : R) : list (marr CC) :=
  [mat2 (rt (1 - p)) 0 0 (rt (1 - p)); mat2 0 (rt (p / 3)) (rt (p / 3)) 0;
   mat2 0 ((0, - sqrt (p / 3))%R : CC) ((0, sqrt (p / 3))%R : CC) 0; mat2 (rt (p / 3)) 0 0 (- rt (p / 3))].
(** diag(1, sqrt(1-p)), sqrt(p) |0><1| *)
Definition amplitude_damping (p : R) : list (marr CC) := [mat2 1 0 0 (rt (1 - p)); mat2 0 (rt p) 0 0].
(** the dephrasure channel: dephasing, then erasure *)
Definition dephrasure (p q : R) : list (marr CC) := flagged q 2 1 (dephasing p) (lost 2).

(** x |0..0><0..0| + (1-x) |N-1><N-1| on N dimensions *)
Definition corners (x : R) (N : nat) : marr CC :=
  MA N N (fun i j => if (Nat.eqb i 0 && Nat.eqb j 0)%bool then ((x, 0%R) : CC) else if (Nat.eqb i (N - 1) && Nat.eqb j (N - 1))%bool then ((1 - x, 0)%R : CC) else 0).
(** the maximally mixed state *)
Definition mixed_state (N : nat) : marr CC := MA N N (fun i j => if Nat.eqb i j then ((/ INR N, 0)%R : CC) else 0).
(** the value that PyQCodes/chan/tests/test_channel.py, L112-126, takes from the paper on the dephrasure channel, for a state corners x (2^n) *)
Definition paper_value (x : R) (n : nat) (p q : R) : R :=
  let h := (- x * (ln x / ln 2) - (1 - x) * (ln (1 - x) / ln 2))%R in
  let u := sqrt (1 - 4 * x * (1 - x) * (1 - (1 - 2 * p) ^ (2 * n))) in
  (((1 - q) ^ n - q ^ n) * h - (1 - q) ^ n * (1 - u * (ln ((1 + u) / (1 - u)) / ln 2) / 2 - ln (1 - u ^ 2) / ln 2 / 2))%R.
