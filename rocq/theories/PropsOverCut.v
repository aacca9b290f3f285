(** Property of OverParam on density matrices with small eigenvalues: C137.
    Specification: ParamSpec.v, KrausSpec.v.  Model: ParamModel.v. *)
From Verif Require Import Py Scalar PauliModel PauliSpec EncoderProofs Spectral KrausSpec KrausProofs KrausProofs6 ChoiSpec ParamModel ParamSpec ParamProofs2 ParamProofs3 PropsParam OverCut.
From Coq Require Import Reals Lra.
Open Scope nat_scope.
Open Scope K_scope.

(** ** C137: OverParam changes a density matrix by no more than it drops *)
(** For every density matrix, whatever its eigenvalues and its rank: the state that comes back has rank at most the
    one asked for, and the matrix was w times this state plus a positive matrix of trace 1 - w. *)
Theorem C137_round_trip (eigh : marr CC -> (nat -> R) * marr CC) (nsize rank : nat) (rho : marr CC) :
  sorted_eigh eigh -> is_square nsize rho -> 1 <= rank -> rank <= nsize -> (INR nsize < 100000)%R -> density nsize (me rho) ->
  exists vec rho' w, over_vec_from_rho eigh rho nsize rank = Ok vec /\ length vec = over_numb_variables nsize rank /\
    over_rho_from_vec vec nsize (Some rank) = Ok rho' /\ is_square nsize rho' /\ density nsize (me rho') /\ rank_at_most nsize rank (me rho') /\
    (0 < w <= 1)%R /\ psd nsize (fun i j => me rho i j + - (me rho' i j * ((w, 0%R) : CC))) /\
    (forall i j, i < nsize -> j < nsize -> (Cmod (me rho' i j + - me rho i j) <= 2 * (1 - w))%R) /\
    (rank_at_most nsize rank (me rho) -> (1 - w <= INR rank * / 100000)%R).
Proof.
  intros EG [R1 C1] H1 Hr N D. destruct (over_cut eigh rho nsize rank EG R1 C1 H1 Hr) as (vec & rho' & w & E1 & L & E2 & R2 & C2 & DD & RK & W & P & B & T); [unfold tol5; lra|exact D|].
  exists vec, rho', w. split; [exact E1|]. split; [exact L|]. split; [exact E2|]. split; [split; assumption|]. split; [exact DD|]. split; [exact RK|]. split; [exact W|]. split; [exact P|]. split; [exact B|exact T].
Qed.
(** So, for a matrix of at most the rank asked for, no entry moves by more than 2 rank / 100000. *)
Corollary C137_entries (eigh : marr CC -> (nat -> R) * marr CC) (nsize rank : nat) (rho : marr CC) :
  sorted_eigh eigh -> is_square nsize rho -> 1 <= rank -> rank <= nsize -> (INR nsize < 100000)%R -> density nsize (me rho) -> rank_at_most nsize rank (me rho) ->
  exists vec rho', over_vec_from_rho eigh rho nsize rank = Ok vec /\ over_rho_from_vec vec nsize (Some rank) = Ok rho' /\
    forall i j, i < nsize -> j < nsize -> (Cmod (me rho' i j + - me rho i j) <= 2 * INR rank / 100000)%R.
Proof.
  intros EG S H1 Hr N D K. destruct (C137_round_trip eigh nsize rank rho EG S H1 Hr N D) as (vec & rho' & w & E1 & _ & E2 & _ & _ & _ & _ & _ & B & T).
  exists vec, rho'. split; [exact E1|]. split; [exact E2|]. intros i j Hi Hj. specialize (B i j Hi Hj). specialize (T K). lra.
Qed.
Print Assumptions C137_round_trip.
Print Assumptions C137_entries.
(** diag(1 - 1e-6, 1e-6): a density matrix of rank two with an eigenvalue that is cut off *)
Definition almost_pure : array CC := fun i j => if Nat.eqb i j then (if Nat.eqb i 0 then ((1 - / 1000000, 0)%R : CC) else ((/ 1000000, 0)%R : CC)) else s0.
Example C137_case : (exists eigh, sorted_eigh eigh) /\ (INR 2 < 100000)%R /\ density 2 almost_pure /\ rank_at_most 2 2 almost_pure /\
  eigenvalue 2 almost_pure (/ 1000000).
Proof.
  split; [exact ParamExists.sorted_eigh_exists|]. split; [cbn; lra|]. split; [|split].
  - split; [|split].
    + intros [|[|i]] [|[|j]] Hi Hj; try lia; apply CC_eq; cbn; lra.
    + intros v. exists ((1 - / 1000000) * (fst (v 0%nat) ^ 2 + snd (v 0%nat) ^ 2) + / 1000000 * (fst (v 1%nat) ^ 2 + snd (v 1%nat) ^ 2))%R. split; [|destruct (v 0%nat) as [a b] eqn:V0, (v 1%nat) as [c d] eqn:V1; cbn [bsum]; rewrite V0, V1; apply CC_eq; cbn; ring].
      apply Rplus_le_le_0_compat; apply Rmult_le_pos; try lra; apply Rplus_le_le_0_compat; apply pow2_ge_0.
    + apply CC_eq; cbn; lra.
  - exists almost_pure, eye. intros [|[|i]] [|[|j]] Hi Hj; try lia; apply CC_eq; cbn; lra.
  - exists (fun i => if Nat.eqb i 1 then s1 else s0). split; [exists 1%nat; split; [lia|]; cbn; intros Z; apply (f_equal fst) in Z; cbn in Z; lra|].
    intros [|[|i]] Hi; try lia; apply CC_eq; cbn; lra.
Qed.
