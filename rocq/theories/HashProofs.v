(** Random orthogonal unitary matrices on the maximally mixed state (C132). *)
From Verif Require Import Py Scalar PauliModel PauliSpec EncoderProofs EighExists Spectral SpectralProofs PowerSums KrausModel KrausSpec KrausProofs KrausProofs2 KrausProofs5 KrausProofs6 KrausProofs8 KrausProofs11 KrausProofs12
  ChoiModel ChannelModel ChannelSpec ChoiSpec ChoiProofs ChoiProofs2 ChoiProofs3 Sqrt EntropyProofs EntropySpec Subadd CohProofs CohProofs2 CohProofs3 CohProofs4 Processing ProcessingSpec Processing2 Degradable KnownSpec KnownProofs KnownProofs2 KnownProofs3 KnownProofs4 DephSpec.
From Coq Require Import Reals Lra Psatz.
Open Scope nat_scope.
Open Scope K_scope.
Add Ring CCring66 : (s_rt CC).

Lemma rsum_list {X} (f : X -> R) d l : rsum (length l) (fun t => f (nth t l d)) = reals_sum (map f l).
Proof.
  induction l as [|x l IH] using rev_ind; [reflexivity|]. rewrite app_length, map_app. cbn [length]. rewrite Nat.add_1_r. cbn [rsum]. rewrite app_nth2, Nat.sub_diag by lia. cbn [nth].
  replace (reals_sum (map f l ++ map f [x])) with (reals_sum (map f l) + f x)%R by (unfold reals_sum; rewrite fold_right_app; cbn [map fold_right]; rewrite Rplus_0_r; clear; induction (map f l) as [|y m IH]; cbn; lra).
  f_equal. rewrite <- IH. clear IH. set (g := fun t => f (nth t l d)). assert (G : forall n, n <= length l -> rsum n (fun t => f (nth t (l ++ [x]) d)) = rsum n g). { induction n as [|n IH]; intros H; [reflexivity|]. cbn [rsum]. rewrite IH by lia. f_equal. unfold g. rewrite app_nth1 by lia. reflexivity. }
  apply G. lia.
Qed.
Section Hash.
Variables (D : nat) (l : list (R * array CC)).
Hypothesis HD : 0 < D.
Hypothesis OU : orthogonal_unitaries D l.
Hypothesis PR : probabilities l.
Let ops := random_unitary D l.
Lemma hash_fits : fits D D ops.
Proof. apply Forall_forall. intros A HA. apply in_map_iff in HA. destruct HA as (x & <- & _). split; reflexivity. Qed.
Lemma hash_some : ops <> [].
Proof. intros E. apply map_eq_nil in E. destruct PR as [_ P]. rewrite E in P. cbn in P. lra. Qed.
Lemma sum_rc (m : list (R * array CC)) : ksum (map (fun x => rc (fst x)) m) = rc (reals_sum (map fst m)).
Proof. induction m as [|x m IH]; [reflexivity|]. cbn [map]. unfold ksum, reals_sum in *. cbn [fold_right]. rewrite IH. apply rc_add. Qed.
Lemma weighted (F : array CC -> CC) (c : CC) : (forall x, In x l -> F (snd x) = c) -> ksum (map (fun x => rc (fst x) * F (snd x)) l) = c.
Proof.
  intros H. transitivity (ksum (map (fun x => rc (fst x)) l) * c); [|rewrite sum_rc; destruct PR as [_ ->]; change (rc 1) with (1 : CC); ring].
  clear PR OU ops. induction l as [|x m IH]; [unfold ksum; cbn [map fold_right]; ring|]. cbn [map]. unfold ksum in *. cbn [fold_right]. rewrite IH by (intros; apply H; right; assumption). rewrite (H x) by (left; reflexivity). ring.
Qed.
Lemma prob_in x : In x l -> (0 <= fst x)%R. Proof. intros H. destruct PR as [P _]. rewrite Forall_forall in P. apply P, H. Qed.
Lemma unit_in x : In x l -> unitary D (snd x). Proof. intros H. destruct OU as [P _]. rewrite Forall_forall in P. apply P, H. Qed.
Lemma hash_tp : trace_preserving D ops.
Proof.
  intros i j Hi Hj. unfold ops, random_unitary. rewrite map_map. rewrite <- (weighted (fun U => mm D (adj U) U i j) (eye i j)).
  - f_equal. apply map_ext_in. intros [w U] Hx. pose proof (prob_in _ Hx) as W. cbn [mr mc me fst snd] in *. rewrite <- (rt_rt w) by exact W. unfold mm, adj. rewrite <- bsum_mul_l. apply bsum_ext. intros k _. rewrite sconj_mul, rt_conj. ring.
  - intros x Hx. apply (proj1 (unit_in x Hx)); assumption.
Qed.
Lemma hash_out : eqm D D (channel_map ops (me (mixed_state D))) (me (mixed_state D)).
Proof.
  intros i j Hi Hj. unfold channel_map, ops, random_unitary. rewrite map_map. rewrite <- (weighted (fun U => rc (/ INR D) * mm D U (adj U) i j) (me (mixed_state D) i j)).
  - f_equal. apply map_ext_in. intros [w U] Hx. pose proof (prob_in _ Hx) as W. cbn [mr mc me fst snd] in *. rewrite <- (rt_rt w) by exact W. unfold mm at 1. transitivity (bsum D (fun k => rt w * U i k * rc (/ INR D) * adj (fun i0 j0 => rt w * U i0 j0) k j)).
    + apply bsum_ext. intros k Hk. f_equal. unfold mm. rewrite (bsum_ext D _ (fun u => if Nat.eqb u k then rt w * U i u * rc (/ INR D) else 0)); [apply (bsum_delta D k (fun u => rt w * U i u * rc (/ INR D)) Hk)|]. intros u _. cbn [mixed_state me]. destruct (Nat.eqb u k); [reflexivity|ring].
    + unfold mm, adj. rewrite <- !bsum_mul_l. apply bsum_ext. intros k _. rewrite sconj_mul, rt_conj. ring.
  - intros x Hx. rewrite (proj2 (unit_in x Hx) i j Hi Hj). cbn [mixed_state me]. unfold eye. destruct (Nat.eqb i j); [change (rc (/ INR D) * 1 = rc (/ INR D)); ring|ring].
Qed.
Lemma tr_adj_sym (A B : array CC) : tr D (mm D A (adj B)) = (tr D (mm D B (adj A)))^*.
Proof.
  unfold tr, mm, adj. rewrite bsum_conj. apply bsum_ext. intros i _. rewrite bsum_conj. apply bsum_ext. intros k _. rewrite sconj_mul, sconj_conj. ring.
Qed.
Lemma tr_eye : tr D (eye : array CC) = rc (INR D).
Proof. unfold tr, eye. rewrite (bsum_ext D _ (fun _ => 1)) by (intros; rewrite Nat.eqb_refl; reflexivity). clear. induction D as [|d IH]; [reflexivity|]. cbn [bsum]. rewrite IH, S_INR. apply CC_eq; cbn; ring. Qed.
Lemma hash_env : eqm (length ops) (length ops) (exchange_entry ops (me (mixed_state D))) (fun i j => if Nat.eqb i j then rc (fst (nth i l (0%R, eye))) else 0).
Proof.
  intros i j Hi Hj. unfold ops, random_unitary in Hi, Hj. rewrite map_length in Hi, Hj.
  assert (N : forall k, k < length l -> nth k ops one_by_one = MA D D (fun u v => rt (fst (nth k l (0%R, eye))) * snd (nth k l (0%R, eye)) u v)). { intros k Hk. unfold ops, random_unitary. rewrite (nth_indep _ one_by_one (MA D D (fun u v => rt (fst (0%R, eye : array CC)) * snd (0%R, eye : array CC) u v))) by (rewrite map_length; exact Hk). apply (map_nth (fun x => MA D D (fun u v => rt (fst x) * snd x u v))). }
  unfold exchange_entry. rewrite !N by assumption. cbn [mr mc me].
  transitivity (rt (fst (nth i l (0%R, eye))) * rt (fst (nth j l (0%R, eye))) * rc (/ INR D) * tr D (mm D (snd (nth i l (0%R, eye))) (adj (snd (nth j l (0%R, eye)))))).
  { destruct (nth i l (0%R, eye)) as [w U]. destruct (nth j l (0%R, eye)) as [w' V]. cbn [fst snd]. unfold tr. rewrite <- bsum_mul_l. apply bsum_ext. intros u _. unfold mm at 1. transitivity (bsum D (fun k => rt w * U u k * rc (/ INR D) * adj (fun i0 j0 => rt w' * V i0 j0) k u)).
    + apply bsum_ext. intros k Hk. f_equal. unfold mm. rewrite (bsum_ext D _ (fun z => if Nat.eqb z k then rt w * U u z * rc (/ INR D) else 0)); [apply (bsum_delta D k (fun z => rt w * U u z * rc (/ INR D)) Hk)|]. intros z _. cbn [mixed_state me]. destruct (Nat.eqb z k); [reflexivity|ring].
    + unfold mm, adj. rewrite <- !bsum_mul_l. apply bsum_ext. intros k _. rewrite sconj_mul, rt_conj. ring. }
  destruct (Nat.eqb_spec i j) as [E|NE].
  - subst j. set (y := nth i l (0%R, eye)). assert (IN : In y l) by (apply nth_In; exact Hi). rewrite (tr_eqm D _ eye (proj2 (unit_in y IN))), tr_eye, rt_rt by (apply prob_in, IN). rewrite !rc_mul. f_equal. field. apply not_0_INR. lia.
  - destruct (Nat.lt_ge_cases i j) as [L|L].
    + destruct OU as [_ OR]. rewrite (OR i j L Hj). ring.
    + rewrite tr_adj_sym. destruct OU as [_ OR]. rewrite (OR j i ltac:(lia) Hi), sconj_0. ring.
Qed.
Theorem hash_entropies : entropies D ops (me (mixed_state D)) (log2 (INR D), shannon (map fst l)).
Proof.
  split; cbn [fst snd].
  - apply (von_ext D _ _ _ (eqm_sym _ _ _ _ hash_out)), mixed_state_entropy, HD.
  - replace (shannon (map fst l)) with (- rsum (length ops) (fun t => xlx (fst (nth t l (0%R, eye)))) / ln 2)%R.
    + apply von_diag; [|exact hash_env]. intros t Ht. unfold ops, random_unitary in Ht. rewrite map_length in Ht. apply prob_in, nth_In, Ht.
    + unfold shannon. rewrite map_map. replace (length ops) with (length l) by (unfold ops, random_unitary; rewrite map_length; reflexivity). rewrite (rsum_list (fun x => xlx (fst x))). reflexivity.
Qed.
End Hash.
