(** The expected value of the fidelity estimate over the random phases (C144). *)
From Verif Require Import Py Scalar PauliModel CircuitModel CircuitSpec OptimModel DeviceModel DeviceSpec.
From Coq Require Import Reals.
Open Scope nat_scope.

(** the expected value of f when draw number i is 0, 1, ..., or ranges[i] - 1 with equal probabilities,
    independently of the others *)
Fixpoint expected (ranges : list nat) (f : list nat -> R) : R :=
  match ranges with
  | [] => f []
  | k :: r => (fold_right Rplus 0 (map (fun i => expected r (fun d => f (i :: d))) (seq 0 k)) / INR k)%R
  end.
(** one round on n qubits: one of three phases for each qubit, one of two phases for each ordered pair of qubits *)
Definition round_ranges (n : nat) : list nat := repeat 3 n ++ repeat 2 (n * n - n).
Definition design_ranges (n rounds : nat) : list nat := concat (repeat (round_ranges n) rounds).
(** the engine with these random numbers and measurement outcomes to come *)
Definition with_luck (w : world) (draws : list nat) (outcomes : list bool) : world := World (w_qubits w) (w_next w) (w_wave w) (w_prob w) outcomes draws.
(** one trial counts with probability p draws: it returns 0 or 1; the probability of the outcomes measured, when it is 1, is
    p draws; and 1 is returned, when that is possible, if the engine gives 0 for every qubit *)
Definition succeeds (estimate : world -> res (adaptor * world * R)) (w : world) (p : list nat -> R) : Prop :=
  forall draws outcomes, exists a' w' r, estimate (with_luck w draws outcomes) = Ok (a', w', r) /\ (r = 0 \/ r = 1)%R /\
    (r = 1 -> w_prob w' = w_prob w * p draws)%R /\ (p draws <> 0%R -> (forall i, nth i outcomes false = false) -> r = 1%R) /\ (p draws = 0 -> w_prob w <> 0 -> r = 0)%R.
Definition succeeds_with (a : adaptor) (channel : callable) (epsilon : R) (cheat : bool) (w : world) (p : list nat -> R) : Prop :=
  succeeds (estimate_average_fidelity a channel 1 epsilon cheat) w p.

Open Scope K_scope.
(** V is the 2^n x 2^n matrix A, rows and columns numbered by strings of n bits *)
Definition is_matrix (n : nat) (V : @state CC -> @state CC) (A : list bool -> list bool -> CC) : Prop :=
  forall psi, eqs n (V psi) (fun y => isum n (fun x => A y x * psi x)).
(** the fidelity |<psi|A|psi>|^2 averaged over all pure states psi of n qubits: (d + |tr A|^2) / (d (d + 1)) with
    d = 2^n (Nielsen, Phys. Lett. A 303, 249 (2002), for a unitary A) *)
Definition average_fidelity (n : nat) (A : list bool -> list bool -> CC) : R :=
  let d := (2 ^ n)%R in ((d + Cmod (isum n (fun x => A x x)) ^ 2) / (d * (d + 1)))%R.
(** the same, averaged over the 2^n states H|z> only *)
Definition hadamard_state (n : nat) (z : list bool) : @state CC :=
  fun y => (((/ sqrt (2 ^ n))%R, 0%R) : CC) * fold_right smul 1 (map (fun p => if getb y p && getb z p then - (1) else 1) (seq 0 n)).
Definition overlap (n : nat) (A : list bool -> list bool -> CC) (psi : @state CC) : CC := inner n psi (fun y => isum n (fun x => A y x * psi x)).
Definition hadamard_fidelity (n : nat) (A : list bool -> list bool -> CC) : R :=
  (fold_right Rplus 0 (map (fun z => Cmod (overlap n A (hadamard_state n z)) ^ 2) (bit_lists n)) / 2 ^ n)%R.
