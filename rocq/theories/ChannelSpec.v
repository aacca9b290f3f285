(** Vocabulary for statements about channel objects and their histories. *)
From Verif Require Import Py Scalar PauliModel PauliSpec KrausModel KrausSpec ChoiModel ChannelModel.
From Coq Require Import Reals.
Open Scope nat_scope.

(** a SparseKraus object may not be asked for n = 1 after a larger n *)
Definition clean (sp : bool) (past : list nat) (n : nat) : Prop := sp = true -> n = 1 -> Forall (fun m => m = 1) past.

(** n = 1 was not always the argument *)
Definition went_up (past : list nat) : Prop := exists m, In m past /\ 2 <= m.

Section S.
Context {K : StarRing}.
(** the object after calling update_kraus_operators with each of the arguments, and the
    channel object after calls with each of the n *)
Definition run_updates (o : kraus K) (past : list nat) : kraus K := fold_left (fun o n => fst (update_kraus_operators o n)) past o.
Definition after (c : chan K) (past : list nat) : chan K := fold_left (fun c n => fst (update_channel_tensored c n)) past c.

(** the exchange tensor of operators: entry (i,j) is the matrix K_i^dagger K_j *)
Definition exchange_tensor (ops : list (marr K)) (E : ten4 K) (d : nat) : Prop :=
  u0 E = length ops /\ u1 E = length ops /\ u2 E = d /\ u3 E = d /\
  forall i j k l, i < length ops -> j < length ops -> k < d -> l < d ->
    ue E i j k l = mm (mr (nth i ops one_by_one)) (adj (me (nth i ops one_by_one))) (me (nth j ops one_by_one)) k l.
Open Scope K_scope.
(** the adjoint: A |-> sum_ij A_ij K_i^dagger K_j *)
Definition exchange_adjoint (l : list (marr K)) (A : array K) : array K :=
  fun k m => bsum (length l) (fun i => bsum (length l) (fun j =>
     A i j * mm (mr (nth i l one_by_one)) (adj (me (nth i l one_by_one))) (me (nth j l one_by_one)) k m)).
Close Scope K_scope.
(** what the loop over the boundaries returns: block k starts at the sum of the
    earlier boundaries and ends at boundary k *)
Fixpoint code_blocks (W : marr K) (M from : nat) (bs : list nat) : list (marr K) :=
  match bs with
  | [] => []
  | b :: r => block W from (Nat.min (b * M) (mr W)) :: code_blocks W M (from + b * M) r
  end.
Definition last_start (N count : nat) : nat := if Nat.leb count N then N - count else 2 * N - count.
End S.

(** every entry of sum_i K_i^dagger K_i - I has modulus below 1e-5 *)
Definition nearly_tp (d : nat) (ops : list (marr CC)) : Prop :=
  forall i j, i < d -> j < d -> (Cmod (ssub (ksum (map (fun A => mm (mr A) (adj (me A)) (me A) i j) ops)) (eye i j)) < / 100000)%R.

(** what the dense class adds up: |sum of all entries of K_i rho|^2 *)
Definition all_entries_fidelity (ops : list (marr CC)) (rho : marr CC) : R :=
  reals_sum (map (fun A => (Cmod (bsum (mr A) (fun j => bsum (mc rho) (fun p => mm (mc A) (me A) (me rho) j p))) ^ 2)%R) ops).
(** ... and the sparse one: for every column p, |sum_d (K_d rho)_{d,p}|^2 *)
Definition diagonal_fidelity (ops : list (marr CC)) (r : nat) (rho : marr CC) : R :=
  reals_sum (map (fun p => (Cmod (bsum (Nat.min (length ops) r) (fun d => mm (mc (nth d ops one_by_one)) (me (nth d ops one_by_one)) (me rho) d p)) ^ 2)%R) (seq 0 (mc rho))).

(** off-diagonal entries vanish *)
Definition diagonal (r c : nat) (A : array CC) : Prop := forall i j, i < r -> j < c -> i <> j -> A i j = s0.

(** ** any calls in any order *)
Inductive call :=
  | Channel (rho : marr CC) (n : nat) (adjoint : bool)
  | ChannelBatch (rho : ten3 CC) (n : nat) (adjoint : bool)
  | Exchange (rho : marr CC) (n : nat)
  | ExchangeAdjoint (A : marr CC) (n : nat)
  | CoherentInformation (rho : marr CC) (n : nat) (regularized : bool)
  | FidelityTwoStates (rho : marr CC) (n : nat)
  | AverageFidelity (probs : list R) (states : list (marr CC)).
Inductive answer := AMat (r : res (marr CC)) | ABatch (r : res (ten3 CC)) | AMats (r : res (list (marr CC))) | AReal (r : res R) | ACplx (r : res CC).
Section Calls.
Variables (eigvalsh : marr CC -> list R) (sqrtm : marr CC -> marr CC).
Definition perform (c : chan CC) (x : call) : chan CC * answer :=
  match x with
  | Channel rho n adjoint => let '(c', r) := chan_channel c rho n adjoint in (c', AMat r)
  | ChannelBatch rho n adjoint => let '(c', r) := chan_channel_batch c rho n adjoint in (c', ABatch r)
  | Exchange rho n => let '(c', r) := chan_exchange c rho n in (c', AMats r)
  | ExchangeAdjoint A n => let '(c', r) := chan_exchange_adjoint c A n in (c', AMat r)
  | CoherentInformation rho n regularized => let '(c', r) := coherent_information eigvalsh sqrtm c rho n regularized in (c', AReal r)
  | FidelityTwoStates rho n => let '(c', r) := fidelity_two_states sqrtm c rho n in (c', AReal r)
  | AverageFidelity probs states => (c, ACplx (chan_fidelity c probs states))
  end.
Definition asks (x : call) : list nat :=
  match x with
  | Channel _ n _ | ChannelBatch _ n _ | Exchange _ n | ExchangeAdjoint _ n | CoherentInformation _ n _ | FidelityTwoStates _ n => [n]
  | AverageFidelity _ _ => []
  end.
Definition performed (c : chan CC) (xs : list call) : chan CC := fold_left (fun c x => fst (perform c x)) xs c.
End Calls.
