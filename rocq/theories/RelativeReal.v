(** Weighted sums of logarithms compared through their derivatives. *)
From Verif Require Import Py Scalar PauliModel PauliSpec EncoderProofs EighExists Spectral SpectralProofs PowerSums KrausModel KrausSpec KrausProofs KrausProofs2 KrausProofs6 KrausProofs8 KrausProofs11 KrausProofs12
  ChoiModel ChannelModel ChannelSpec ChoiSpec ChoiProofs ChoiProofs2 ChoiProofs3 EntropyProofs Subadd.
From Coq Require Import Reals Lra.
Open Scope R_scope.

Definition logs (n : nat) (a r : nat -> R) (t : R) : R := rsum n (fun k => a k * ln (r k + t)).
Definition slope (n : nat) (a r : nat -> R) (t : R) : R := rsum n (fun k => a k / (r k + t)).

Lemma logs_derivative n a r t : (forall k, (k < n)%nat -> 0 <= r k) -> 0 < t -> derivable_pt_lim (logs n a r) t (slope n a r t).
Proof.
  intros H T. unfold logs, slope. induction n as [|n IH].
  - cbn [rsum]. apply derivable_pt_lim_const.
  - cbn [rsum]. apply (derivable_pt_lim_plus (fun t => rsum n (fun k => a k * ln (r k + t))) (fun t => a n * ln (r n + t))).
    + apply IH. intros; apply H; lia.
    + apply (derivable_pt_lim_scal (fun t => ln (r n + t)) (a n) t (/ (r n + t))).
      assert (0 < r n + t) by (pose proof (H n (Nat.lt_succ_diag_r n)); lra).
      replace (/ (r n + t)) with (/ (r n + t) * 1) by ring.
      apply (derivable_pt_lim_comp (fun t => r n + t) ln t 1 (/ (r n + t))).
      * replace 1 with (0 + 1) by ring. apply (derivable_pt_lim_plus (fun _ => r n) (fun t => t)); [apply derivable_pt_lim_const|apply derivable_pt_lim_id].
      * apply derivable_pt_lim_ln. assumption.
Qed.
Lemma ln_1p x : 0 <= x -> 0 <= ln (1 + x) <= x.
Proof. intros H. split; [rewrite <- ln_1; destruct (Req_dec x 0) as [->|N]; [rewrite Rplus_0_r; lra|left; apply ln_increasing; lra]|]. pose proof (ln_le_minus (1 + x)). lra. Qed.

Section Compare.
Variables (n n' : nat) (a r a' r' : nat -> R).
Hypothesis A0 : forall k, (k < n)%nat -> 0 <= a k.
Hypothesis A0' : forall k, (k < n')%nat -> 0 <= a' k.
Hypothesis R0 : forall k, (k < n)%nat -> 0 <= r k.
Hypothesis R0' : forall k, (k < n')%nat -> 0 <= r' k.
Hypothesis S0 : forall k, (k < n)%nat -> r k = 0 -> a k = 0.
Hypothesis S0' : forall k, (k < n')%nat -> r' k = 0 -> a' k = 0.
Hypothesis TOT : rsum n a = rsum n' a'.
Hypothesis SL : forall t, 0 < t -> slope n' a' r' t <= slope n a r t.

Let gap t := logs n a r t - logs n' a' r' t.
Lemma gap_grows s t : 0 < s -> s < t -> gap s <= gap t.
Proof.
  intros Hs Hst. destruct (MVT_cor2 gap (fun x => slope n a r x - slope n' a' r' x) s t Hst) as (c & E & Hc & _).
  - intros c [H1 H2]. apply (derivable_pt_lim_minus (logs n a r) (logs n' a' r')); apply logs_derivative; try assumption; lra.
  - pose proof (SL c). assert (0 <= (slope n a r c - slope n' a' r' c) * (t - s)) by (apply Rmult_le_pos; lra). lra.
Qed.
(** for large t the logarithms are all close to ln t *)
Lemma logs_large m b q t : (forall k, (k < m)%nat -> 0 <= b k) -> (forall k, (k < m)%nat -> 0 <= q k) -> 0 < t ->
  rsum m b * ln t <= logs m b q t <= rsum m b * ln t + rsum m (fun k => b k * q k) / t.
Proof.
  intros B Q T. unfold logs. rewrite <- rsum_scale_r. unfold Rdiv. rewrite <- rsum_scale_r, <- rsum_add.
  assert (E : forall k, (k < m)%nat -> ln (q k + t) = ln t + ln (1 + q k * / t) /\ 0 <= ln (1 + q k * / t) <= q k * / t).
  { intros k Hk. pose proof (Q k Hk). pose proof (Rinv_0_lt_compat t T). assert (0 <= q k * / t) by (apply Rmult_le_pos; lra). split; [|apply ln_1p; assumption].
    rewrite <- ln_mult by lra. f_equal. field. lra. }
  split; apply rsum_le; intros k Hk; destruct (E k Hk) as (-> & L & U); pose proof (B k Hk).
  - nra.
  - replace (b k * ln t + b k * q k * / t) with (b k * (ln t + q k * / t)) by ring. apply Rmult_le_compat_l; lra.
Qed.
Lemma gap_neg s : 0 < s -> gap s <= 0.
Proof.
  intros Hs. apply Rnot_lt_le. intros N. set (C := rsum n (fun k => a k * r k)).
  assert (C0 : 0 <= C) by (apply rsum_nonneg; intros; apply Rmult_le_pos; auto).
  set (t := s + 1 + 2 * C / gap s). assert (0 <= 2 * C / gap s) by (apply Rmult_le_pos; [lra|left; apply Rinv_0_lt_compat, N]).
  assert (T : 0 < t) by (unfold t; lra). assert (gap s <= gap t) by (apply gap_grows; unfold t; lra).
  destruct (logs_large n a r t A0 R0 T) as [_ U]. destruct (logs_large n' a' r' t A0' R0' T) as [L _]. rewrite TOT in U. fold C in U.
  assert (gap t <= C / t) by (unfold gap; lra).
  assert (gap s * t <= C). { replace C with (C / t * t) by (field; lra). apply Rmult_le_compat_r; lra. }
  assert (gap s * t = gap s * (s + 1) + 2 * C) by (unfold t; field; lra). assert (0 < gap s * (s + 1)) by (apply Rmult_lt_0_compat; lra). lra.
Qed.
Theorem logs_compare : rsum n (fun k => a k * ln (r k)) <= rsum n' (fun k => a' k * ln (r' k)).
Proof.
  apply Rnot_lt_le. intros N. set (X := rsum n (fun k => a k * ln (r k))) in *. set (Y := rsum n' (fun k => a' k * ln (r' k))) in *.
  set (C := rsum n' (fun k => a' k / r' k)).
  assert (P : forall x, 0 <= x -> x <> 0 -> 0 < x) by (intros; lra).
  assert (C0 : 0 <= C). { apply rsum_nonneg. intros k Hk. destruct (Req_dec (r' k) 0) as [Z|NZ]; [rewrite (S0' k Hk Z); unfold Rdiv; lra|]. apply Rmult_le_pos; [auto|]. left. apply Rinv_0_lt_compat, P; auto. }
  set (s := (X - Y) / (2 * (C + 1))). assert (Hs : 0 < s) by (apply Rdiv_lt_0_compat; lra). pose proof (gap_neg s Hs) as G.
  assert (L : X <= logs n a r s).
  { apply rsum_le. intros k Hk. destruct (Req_dec (r k) 0) as [Z|NZ]; [rewrite (S0 k Hk Z); lra|]. apply Rmult_le_compat_l; [auto|]. left. apply ln_increasing; [apply P; auto|lra]. }
  assert (U : logs n' a' r' s <= Y + C * s).
  { unfold logs, Y, C. rewrite <- rsum_scale_r, <- rsum_add. apply rsum_le. intros k Hk. destruct (Req_dec (r' k) 0) as [Z|NZ]; [rewrite (S0' k Hk Z); unfold Rdiv; lra|].
    assert (0 < r' k) by (apply P; auto). assert (0 < / r' k) by (apply Rinv_0_lt_compat; lra). assert (0 <= s * / r' k) by (apply Rmult_le_pos; lra).
    replace (r' k + s) with (r' k * (1 + s * / r' k)) by (field; lra). rewrite ln_mult by lra.
    pose proof (ln_1p (s * / r' k)) as W. replace (a' k * ln (r' k) + a' k / r' k * s) with (a' k * (ln (r' k) + s * / r' k)) by (unfold Rdiv; ring). apply Rmult_le_compat_l; [auto|]. lra. }
  unfold gap in G. assert (E : (C + 1) * s = (X - Y) / 2) by (unfold s; field; lra). nra.
Qed.
End Compare.
