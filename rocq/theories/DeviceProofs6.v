(** The phases drawn by the design (C61). *)
From Verif Require Import Py Scalar PauliModel CircuitModel CircuitSpec OptimModel DeviceModel DeviceSpec DeviceProofs DeviceProofs2 DeviceProofs3.
From Coq Require Import Reals Lra.
Open Scope nat_scope.

Lemma pairs_length n : length (pairs n) = n * n - n.
Proof.
  assert (F : forall i l, NoDup l -> In i l -> length (filter (fun j => negb (Nat.eqb i j)) l) = length l - 1).
  { intros i l. induction l as [|x l IH]; intros ND HI; [destruct HI|]. inversion ND; subst. cbn [filter length]. destruct (Nat.eqb_spec i x) as [->|N]; cbn [negb].
    - assert (E : filter (fun j => negb (Nat.eqb x j)) l = l).
      { clear IH ND HI H2. induction l as [|y l IH]; [reflexivity|]. cbn. destruct (Nat.eqb_spec x y) as [->|N]; [exfalso; apply H1; left; reflexivity|]. cbn. f_equal. apply IH. intros X. apply H1. right. exact X. }
      rewrite E. lia.
    - destruct HI as [->|HI]; [congruence|]. cbn [length]. rewrite IH by assumption. destruct l; [destruct HI|cbn; lia]. }
  assert (G : forall l, incl l (seq 0 n) -> length (flat_map (fun i => map (pair i) (filter (fun j => negb (Nat.eqb i j)) (seq 0 n))) l) = length l * (n - 1)).
  { induction l as [|i l IH]; intros I; [reflexivity|]. cbn [flat_map length]. rewrite app_length, map_length, F by (apply seq_NoDup || (apply I; left; reflexivity)).
    rewrite IH by (intros x Hx; apply I; right; exact Hx). rewrite seq_length. lia. }
  unfold pairs. rewrite G by apply incl_refl. rewrite seq_length. destruct n; [reflexivity|]. nia.
Qed.
Fixpoint rows_of (n t : nat) (d : list nat) : list (list R) :=
  match t with
  | O => []
  | S t => let '(ps, qs, d') := round_phases n d in (ps ++ qs) :: rows_of n t d'
  end.
Lemma execute_draws l : forall w w', execute_all l w = Ok w' -> w_draws w' = w_draws w.
Proof.
  induction l as [|c l IH]; intros w w' H; [injection H as <-; reflexivity|]. unfold execute_all in H. cbn [foldM] in H. apply bind_ok in H. destruct H as (w1 & H1 & H). rewrite (IH _ _ H).
  destruct c; cbn [execute] in H1; repeat (apply bind_ok in H1; destruct H1 as (? & _ & H1)); injection H1 as <-; reflexivity.
Qed.
Lemma rounds_rows register n (L : length register = n) t : forall w w' used, design_rounds register n t w = Ok (w', used) -> used = rows_of n t (w_draws w).
Proof.
  induction t as [|t IH]; intros w w' used H; [injection H as _ <-; reflexivity|]. cbn [design_rounds rows_of] in *.
  destruct (design_round_run register n L (w_draws w)) as (ps & qs & d1 & E & ER & _). rewrite E in H. rewrite ER. cbn [bind] in H. apply bind_ok in H. destruct H as (w1 & H1 & H). apply bind_ok in H. destruct H as ([w2 rest] & H2 & [= <- <-]).
  rewrite (IH _ _ _ H2), (execute_draws _ _ _ H1). reflexivity.
Qed.
Lemma square_le n : n <= n * n. Proof. destruct n; nia. Qed.
Lemma rows_phases n t : forall d, length (rows_of n t d) = t /\ Forall (design_phases n) (rows_of n t d).
Proof.
  induction t as [|t IH]; intros d; [split; [reflexivity|constructor]|]. cbn [rows_of]. unfold round_phases.
  pose proof (choices_length phases3 n d) as L1. pose proof (choices_in phases3 n ltac:(discriminate) d) as I1. destruct (choices phases3 n d) as [ps d1].
  pose proof (choices_length phases2 (length (pairs n)) d1) as L2. pose proof (choices_in phases2 (length (pairs n)) ltac:(discriminate) d1) as I2. destruct (choices phases2 (length (pairs n)) d1) as [qs d2]. cbn [fst] in *.
  destruct (IH d2) as [E F]. split; [cbn; lia|]. constructor; [|exact F]. unfold design_phases. rewrite app_length, L1, L2, pairs_length. pose proof (square_le n).
  split; [lia|]. rewrite firstn_app, skipn_app, L1, Nat.sub_diag, firstn_all2, skipn_all2 by lia. cbn [firstn skipn app]. rewrite app_nil_r.
  split; [revert I1|revert I2]; apply Forall_impl; intros x Hx; cbn in Hx; intuition.
Qed.
Lemma choice_any l x : In x l -> exists k, forall rest, choice l (k :: rest) = (x, rest).
Proof.
  intros H. apply (In_nth _ _ 0%R) in H. destruct H as (k & Hk & <-). exists k. intros rest. unfold choice. cbn [hd tl]. rewrite Nat.mod_small by exact Hk. reflexivity.
Qed.
Lemma choices_any l xs : Forall (fun x => In x l) xs -> exists ds, forall rest, choices l (length xs) (ds ++ rest) = (xs, rest).
Proof.
  induction 1 as [|x xs Hx _ (ds & E)]; [exists []; reflexivity|]. destruct (choice_any l x Hx) as (k & Ek). exists (k :: ds). intros rest. cbn [length choices app]. rewrite Ek, E. reflexivity.
Qed.
Lemma rows_any n rows : Forall (design_phases n) rows -> exists ds, forall rest, rows_of n (length rows) (ds ++ rest) = rows.
Proof.
  induction 1 as [|r rows (L & F1 & F2) _ (ds & E)]; [exists []; reflexivity|]. pose proof (square_le n).
  destruct (choices_any phases3 (firstn n r)) as (d1 & E1); [revert F1; apply Forall_impl; intros x Hx; cbn; intuition|].
  destruct (choices_any phases2 (skipn n r)) as (d2 & E2); [revert F2; apply Forall_impl; intros x Hx; cbn; intuition|].
  rewrite firstn_length_le in E1 by lia. rewrite skipn_length, L, <- pairs_length in E2.
  exists (d1 ++ d2 ++ ds). intros rest. cbn [length rows_of]. unfold round_phases. rewrite <- !app_assoc, E1, E2, firstn_skipn, E. reflexivity.
Qed.
