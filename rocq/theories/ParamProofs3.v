(** OverParam. *)
From Verif Require Import Py Scalar PauliModel PauliSpec EncoderProofs EighExists Spectral SpectralProofs KrausSpec KrausProofs KrausProofs2 KrausProofs6 KrausProofs8 ChoiSpec ChoiProofs2 ChoiProofs3 ParamModel ParamSpec ParamProofs ParamProofs2.
From Coq Require Import Reals Lra.
Open Scope nat_scope.
Open Scope K_scope.
Add Ring CCring14 : (s_rt CC).

Lemma vget_nth v i : i < length v -> vget v i = Ok (nth i v 0%R).
Proof. intros H. unfold vget. rewrite (nth_error_nth' v 0%R H). reflexivity. Qed.
Definition pair_at (vec : list R) (start k : nat) : CC := ((nth (start + 2 * k) vec 0%R, nth (start + 2 * k + 1) vec 0%R) : CC).
Lemma complex_pairs_ok vec start m : (length vec = start + 2 * m)%nat -> complex_pairs vec start = Ok (map (pair_at vec start) (seq 0 m)).
Proof.
  intros L. unfold complex_pairs. replace ((length vec - start + 1) / 2)%nat with m by (rewrite L; replace (start + 2 * m - start + 1)%nat with (1 + m * 2)%nat by lia; rewrite Nat.div_add by lia; reflexivity).
  apply mapM_map. intros k Hk. apply in_seq in Hk. cbv zeta. rewrite !vget_nth by lia. reflexivity.
Qed.
Lemma complex_pairs_odd vec start m : (length vec = start + 2 * m + 1)%nat -> complex_pairs vec start = Err IndexError.
Proof.
  intros L. unfold complex_pairs. replace ((length vec - start + 1) / 2)%nat with (m + 1)%nat by (rewrite L; replace (start + 2 * m + 1 - start + 1)%nat with ((m + 1) * 2)%nat by lia; rewrite Nat.div_mul by lia; reflexivity).
  rewrite seq_app. cbn [seq plus].
  assert (G : forall l, (forall k, In k l -> (k < m)%nat) -> mapM (fun k => let x := (start + 2 * k)%nat in do a <- vget vec x; do b <- vget vec (x + 1); Ok ((a, b) : CC)) (l ++ [m]) = Err IndexError).
  { induction l as [|k l IH]; intros Hl; cbn [List.app mapM].
    - cbv zeta. rewrite vget_nth by lia. cbn [bind]. unfold vget. rewrite (proj2 (nth_error_None vec (start + 2 * m + 1))) by lia. reflexivity.
    - cbv zeta in *. assert (k < m)%nat by (apply Hl; left; reflexivity). rewrite !vget_nth by lia. cbn [bind]. rewrite IH by (intros; apply Hl; right; assumption). reflexivity. }
  apply G. intros k Hk. apply in_seq in Hk. lia.
Qed.

Lemma row_index i j r : (j < r -> (i * r + j) / r = i /\ (i * r + j) mod r = j)%nat.
Proof. intros H. split; [symmetry; apply (Nat.div_unique _ r i j); lia|symmetry; apply (Nat.mod_unique _ r i j); lia]. Qed.
Lemma row_bound i j n r : (i < n -> j < r -> i * r + j < n * r)%nat.
Proof. nia. Qed.

(** the common tail of both cases of rank *)
Lemma over_tail vec n r : (length vec = 2 * r * n)%nat ->
  (do cv <- complex_pairs vec 0; do a <- np_reshape cv n r; normalised_product a) = normalised_product (MA n r (fun i j => nth (i * r + j) (map (pair_at vec 0) (seq 0 (n * r))) ((0%R, 0%R) : CC))).
Proof.
  intros L. rewrite (complex_pairs_ok vec 0 (n * r)) by lia. cbn [bind]. unfold np_reshape. rewrite map_length, seq_length, Nat.eqb_refl. reflexivity.
Qed.
Lemma tail_entry vec n r i j : i < n -> j < r -> nth (i * r + j) (map (pair_at vec 0) (seq 0 (n * r))) ((0%R, 0%R) : CC) = matrix_of_pairs r vec i j.
Proof.
  intros Hi Hj. pose proof (row_bound i j n r Hi Hj). rewrite (nth_indep _ _ (pair_at vec 0 0)) by (rewrite map_length, seq_length; assumption).
  rewrite map_nth, seq_nth by assumption. reflexivity.
Qed.
Lemma gram_congr n r (A B : array CC) : eqm n r A B -> eqm n n (mm r A (adj A)) (mm r B (adj B)).
Proof. intros E i j Hi Hj. unfold mm, adj. apply bsum_ext; intros k Hk. rewrite !E by assumption. reflexivity. Qed.
Lemma nonzero_entry vec n r : (length vec = 2 * r * n)%nat -> (exists x, In x vec /\ x <> 0%R) <-> exists i k, i < n /\ k < r /\ matrix_of_pairs r vec i k <> (0 : CC).
Proof.
  intros L. split.
  - intros (x & Hx & N). destruct (In_nth vec x 0%R Hx) as (p & Hp & E).
    set (q := (p / 2)%nat). assert (Hq : (q < n * r)%nat) by (apply Nat.div_lt_upper_bound; lia). assert (R0 : r <> 0%nat) by (intros ->; lia).
    exists (q / r)%nat, (q mod r)%nat. split; [apply Nat.div_lt_upper_bound; [exact R0|lia]|]. split; [apply Nat.mod_upper_bound, R0|].
    unfold matrix_of_pairs. replace (q / r * r + q mod r)%nat with q by (rewrite (Nat.div_mod q r R0) at 1; lia).
    intros Z. pose proof (Nat.div_mod p 2 ltac:(lia)) as D. fold q in D. destruct (Nat.mod_upper_bound p 2 ltac:(lia)) as [|]; apply N; rewrite <- E.
    + assert (p mod 2 = 1 \/ p mod 2 = 0)%nat as [M|M] by (pose proof (Nat.mod_upper_bound p 2); lia).
      * apply (f_equal snd) in Z. cbn [snd] in Z. rewrite D, M. exact Z.
      * apply (f_equal fst) in Z. cbn [fst] in Z. rewrite D, M, Nat.add_0_r. exact Z.
    + assert (p mod 2 = 1 \/ p mod 2 = 0)%nat as [M|M] by (pose proof (Nat.mod_upper_bound p 2); lia).
      * apply (f_equal snd) in Z. cbn [snd] in Z. rewrite D, M. exact Z.
      * apply (f_equal fst) in Z. cbn [fst] in Z. rewrite D, M, Nat.add_0_r. exact Z.
  - intros (i & k & Hi & Hk & N). pose proof (row_bound i k n r Hi Hk). unfold matrix_of_pairs in N.
    destruct (Req_EM_T (nth (2 * (i * r + k)) vec 0%R) 0) as [E1|N1]; [|eexists; split; [apply nth_In|exact N1]; lia].
    destruct (Req_EM_T (nth (2 * (i * r + k) + 1) vec 0%R) 0) as [E2|N2]; [|eexists; split; [apply nth_In|exact N2]; lia].
    exfalso. apply N. apply CC_eq; assumption.
Qed.

Lemma over_tail_density vec n r : (length vec = 2 * r * n)%nat -> (exists x, In x vec /\ x <> 0%R) ->
  exists rho, (do cv <- complex_pairs vec 0; do a <- np_reshape cv n r; normalised_product a) = Ok rho /\ mr rho = n /\ mc rho = n /\
    density n (me rho) /\ rank_at_most n r (me rho) /\ normalises n r (matrix_of_pairs r vec) (me rho).
Proof.
  intros L NZ. rewrite (over_tail vec n r L). set (A := fun i j => nth (i * r + j) _ _).
  assert (EA : eqm n r A (matrix_of_pairs r vec)) by (intros i j Hi Hj; apply tail_entry; assumption).
  destruct (product_density n r A) as (rho & t & E & R & C & D & K & T0 & T & Q).
  { apply (nonzero_entry vec n r L) in NZ. destruct NZ as (i & k & Hi & Hk & N). exists i, k. rewrite (EA i k Hi Hk). auto. }
  exists rho. repeat split; try assumption; [apply D|apply D|apply D|]. exists t. split; [exact T0|].
  pose proof (gram_congr n r _ _ EA) as G. split; [rewrite <- (tr_eqm n _ _ G); exact T|]. apply (eqm_trans _ _ _ _ _ Q G).
Qed.
Theorem over_density vec n r : r <= n -> (length vec = 2 * r * n)%nat -> (exists x, In x vec /\ x <> 0%R) ->
  exists rho, over_rho_from_vec vec n (Some r) = Ok rho /\ mr rho = n /\ mc rho = n /\
    density n (me rho) /\ rank_at_most n r (me rho) /\ normalises n r (matrix_of_pairs r vec) (me rho).
Proof.
  intros Hr L NZ. unfold over_rho_from_vec, over_rank. rewrite (proj2 (Nat.leb_le _ _) Hr). cbn [assert_ bind]. rewrite (proj2 (Nat.eqb_eq _ _) L). cbn [assert_ bind].
  apply over_tail_density; assumption.
Qed.
Theorem over_density_none vec n r : 0 < n -> (length vec = 2 * r * n)%nat -> (exists x, In x vec /\ x <> 0%R) ->
  exists rho, over_rho_from_vec vec n None = Ok rho /\ mr rho = n /\ mc rho = n /\
    density n (me rho) /\ rank_at_most n r (me rho) /\ normalises n r (matrix_of_pairs r vec) (me rho).
Proof.
  intros Hn L NZ. unfold over_rho_from_vec, over_rank. destruct (Nat.eqb_spec n 0); [lia|]. cbn [bind].
  replace (length vec / (2 * n))%nat with r by (rewrite L; replace (2 * r * n)%nat with (r * (2 * n))%nat by lia; rewrite Nat.div_mul by lia; reflexivity).
  apply over_tail_density; assumption.
Qed.
Theorem over_errors vec n r : ~ (r <= n /\ length vec = 2 * r * n)%nat -> over_rho_from_vec vec n (Some r) = Err AssertionError.
Proof.
  intros H. unfold over_rho_from_vec, over_rank. destruct (Nat.leb_spec r n); [|reflexivity]. cbn [assert_ bind].
  destruct (Nat.eqb_spec (length vec) (2 * r * n)); [exfalso; auto|reflexivity].
Qed.
Theorem over_errors_none vec n : 0 < n -> (forall r, length vec <> 2 * r * n)%nat ->
  over_rho_from_vec vec n None = Err (if Nat.even (length vec) then ValueError else IndexError).
Proof.
  intros Hn H. unfold over_rho_from_vec, over_rank. destruct (Nat.eqb_spec n 0); [lia|]. cbn [bind].
  destruct (Nat.even (length vec)) eqn:Ev.
  - apply Nat.even_spec in Ev. destruct Ev as [m Em]. rewrite (complex_pairs_ok vec 0 m) by lia. cbn [bind]. unfold np_reshape. rewrite map_length, seq_length.
    destruct (Nat.eqb_spec m (n * (length vec / (2 * n)))) as [E|_]; [|reflexivity]. exfalso. apply (H (length vec / (2 * n))%nat). rewrite Em at 1. rewrite E at 1. lia.
  - assert (Od : Nat.odd (length vec) = true) by (rewrite <- Nat.negb_even, Ev; reflexivity). apply Nat.odd_spec in Od. destruct Od as [m Em]. rewrite (complex_pairs_odd vec 0 m) by lia. reflexivity.
Qed.
(** on the zero vector the code divides by zero *)
Theorem over_zero vec n r : r <= n -> (length vec = 2 * r * n)%nat -> (forall x, In x vec -> x = 0%R) -> over_rho_from_vec vec n (Some r) = Err Unmodelled.
Proof.
  intros Hr L Z. unfold over_rho_from_vec, over_rank. rewrite (proj2 (Nat.leb_le _ _) Hr). cbn [assert_ bind]. rewrite (proj2 (Nat.eqb_eq _ _) L). cbn [assert_ bind].
  rewrite (over_tail vec n r L). set (A := fun i j => nth (i * r + j) _ _).
  assert (EA : eqm n r A (matrix_of_pairs r vec)) by (intros i j Hi Hj; apply tail_entry; assumption).
  unfold normalised_product, np_dot, np_dagger. cbn [mc mr me]. rewrite Nat.eqb_refl. cbn [bind mr mc me].
  replace (tr n (mm r A (adj A))) with (rc 0); [rewrite cmod_rc by lra; destruct (Req_EM_T 0 0); [reflexivity|lra]|].
  symmetry. change (rc 0) with (0 : CC). unfold tr. apply bsum_zero. intros i Hi. unfold mm. apply bsum_zero. intros k Hk. rewrite (EA i k Hi Hk). unfold matrix_of_pairs.
  assert (N : forall p, nth p vec 0%R = 0%R). { intros p. destruct (nth_in_or_default p vec 0%R) as [I|D]; [apply Z, I|exact D]. } rewrite !N. change ((0%R, 0%R) : CC) with (0 : CC). ring.
Qed.

(** ** vec_from_rho *)
Definition two (z : CC) : list R := [fst z; snd z].
Lemma over_step w k z : over_vec_step (w ++ repeat 0%R (2 + k), length w) z = Ok ((w ++ two z) ++ repeat 0%R k, (length w + 2)%nat).
Proof.
  unfold over_vec_step, two. cbn [repeat plus]. rewrite vset_mid. cbn [bind].
  replace (w ++ fst z :: 0%R :: repeat 0%R k) with ((w ++ [fst z]) ++ 0%R :: repeat 0%R k) by (rewrite <- app_assoc; reflexivity).
  replace (length w + 1)%nat with (length (w ++ [fst z])) by (rewrite app_length; reflexivity).
  rewrite vset_mid. cbn [bind]. rewrite <- !app_assoc. reflexivity.
Qed.
Lemma over_loop : forall a w, foldM over_vec_step a (w ++ repeat 0%R (2 * length a), length w) = Ok (w ++ flat_map two a, (length w + 2 * length a)%nat).
Proof.
  induction a as [|z a IH]; intros w; [cbn; rewrite Nat.add_0_r; reflexivity|]. cbn [foldM length flat_map]. replace (2 * S (length a))%nat with (2 + 2 * length a)%nat by lia.
  rewrite over_step. cbn [bind]. replace (length w + 2)%nat with (length (w ++ two z)) by (rewrite app_length; reflexivity). rewrite IH, <- app_assoc. rewrite app_length. cbn [two length]. do 2 f_equal. lia.
Qed.
Lemma nth_nil_R k : nth k (@nil R) 0%R = 0%R. Proof. destruct k; reflexivity. Qed.
Lemma flat_two_nth a : forall q, nth (2 * q) (flat_map two a) 0%R = fst (nth q a ((0%R, 0%R) : CC)) /\ nth (2 * q + 1) (flat_map two a) 0%R = snd (nth q a ((0%R, 0%R) : CC)).
Proof.
  induction a as [|z a IH]; intros q; [cbn [flat_map]; rewrite !nth_nil_R; destruct q; split; reflexivity|].
  destruct q as [|q]; [split; reflexivity|]. replace (2 * S q)%nat with (S (S (2 * q))) by lia. cbn [flat_map two List.app nth plus]. apply IH.
Qed.
Lemma flat_two_length a : length (flat_map two a) = (2 * length a)%nat.
Proof. induction a as [|z a IH]; [reflexivity|]. cbn [flat_map two List.app length]. rewrite IH. lia. Qed.
Lemma flat_rows_nth {X} (f : nat -> nat -> X) r d : forall n i j, i < n -> j < r -> nth (i * r + j) (flat_map (fun i => map (f i) (seq 0 r)) (seq 0 n)) d = f i j.
Proof.
  assert (G : forall n s i j, i < n -> j < r -> nth (i * r + j) (flat_map (fun i => map (f i) (seq 0 r)) (seq s n)) d = f (s + i)%nat j).
  { induction n as [|n IH]; intros s i j Hi Hj; [lia|]. cbn [seq flat_map]. destruct i as [|i].
    - rewrite app_nth1 by (rewrite map_length, seq_length; lia). cbn [Nat.mul plus]. rewrite (nth_indep _ d (f s 0%nat)) by (rewrite map_length, seq_length; lia). rewrite map_nth, seq_nth by lia. rewrite Nat.add_0_r. reflexivity.
    - rewrite app_nth2 by (rewrite map_length, seq_length; nia). rewrite map_length, seq_length. replace (S i * r + j - r)%nat with (i * r + j)%nat by nia. rewrite IH by lia. f_equal. lia. }
  intros n i j Hi Hj. apply (G n 0%nat i j Hi Hj).
Qed.
Lemma flat_rows_length {X} (f : nat -> nat -> X) r n : length (flat_map (fun i => map (f i) (seq 0 r)) (seq 0 n)) = (n * r)%nat.
Proof. rewrite (flat_map_concat_map). generalize 0%nat at 2. induction n as [|n IH]; intros s; [reflexivity|]. cbn [seq map concat]. rewrite app_length, IH, map_length, seq_length. lia. Qed.

Theorem over_invert eigh rho n r : sorted_eigh eigh -> mr rho = n -> mc rho = n -> r <= n -> density n (me rho) -> rank_at_most n r (me rho) ->
  (forall x, eigenvalue n (me rho) x -> x <> 0%R -> (tol5 <= x)%R) ->
  exists vec rho', over_vec_from_rho eigh rho n r = Ok vec /\ (length vec = over_numb_variables n r)%nat /\ over_rho_from_vec vec n (Some r) = Ok rho' /\
    mr rho' = n /\ mc rho' = n /\ eqm n n (me rho') (me rho).
Proof.
  intros EG MR MC Hr (HH & PS & TR) RK EV. destruct (EG n rho MR MC HH) as (R1 & C1 & ED & Srt). unfold over_vec_from_rho. rewrite MR, MC, Nat.eqb_refl. cbn [guard bind].
  destruct (eigh rho) as [e V] eqn:EE. cbn [fst snd] in *.
  replace (slice_from (Z.of_nat n - Z.of_nat r) n) with (n - r)%nat by (unfold slice_from; destruct (Z.ltb_spec (Z.of_nat n - Z.of_nat r) 0); lia).
  replace (n - (n - r))%nat with r by lia. set (k := (n - r)%nat). set (B := me V) in *.
  set (a := flat_map _ _).
  assert (La : length a = (n * r)%nat) by (apply (flat_rows_length (fun i t => B i (k + t)%nat * ((sqrt (clip_eig (e (k + t)%nat)), 0%R) : CC)))).
  pose proof (over_loop a []) as Lp. cbn [List.app length plus] in Lp. rewrite La in Lp. replace (2 * n * r)%nat with (2 * (n * r))%nat by lia.
  match goal with |- context [foldM ?f ?l ?s] => replace (foldM f l s) with (@Ok (list R * nat) (flat_map two a, (2 * (n * r))%nat)) by (symmetry; exact Lp) end.
  cbn [bind fst]. set (vec := flat_map two a).
  assert (Lv : (length vec = 2 * r * n)%nat) by (unfold vec; rewrite flat_two_length, La; lia).
  exists vec. unfold over_rho_from_vec, over_rank. rewrite (proj2 (Nat.leb_le _ _) Hr), (proj2 (Nat.eqb_eq _ _) Lv). cbn [assert_ bind]. rewrite (over_tail vec n r Lv). set (A := fun i j => nth (i * r + j) _ _).
  assert (EA : eqm n r A (fun i j => B i (k + j)%nat * rc (sqrt (clip_eig (e (k + j)%nat))))).
  { intros i j Hi Hj. unfold A. rewrite (tail_entry vec n r i j Hi Hj). unfold matrix_of_pairs, vec. destruct (flat_two_nth a (i * r + j)) as [-> ->].
    rewrite <- surjective_pairing. unfold a. rewrite (flat_rows_nth (fun i t => B i (k + t)%nat * ((sqrt (clip_eig (e (k + t)%nat)), 0%R) : CC))) by assumption. reflexivity. }
  pose proof (psd_eig n _ _ _ ED PS) as Pe. pose proof (rank_eigs n r _ _ _ PS RK ED Srt) as Z.
  assert (Sq : forall t, t < n -> (sqrt (clip_eig (e t)) * sqrt (clip_eig (e t)))%R = e t).
  { intros t Ht. rewrite sqrt_sqrt.
    - unfold clip_eig, below. destruct (Rlt_dec (Rabs (e t)) tol5) as [Lt|_]; [|reflexivity]. destruct (Req_EM_T (e t) 0) as [E0|N0]; [symmetry; exact E0|]. exfalso.
      assert (Q : (tol5 <= e t)%R).
      { apply EV; [|exact N0]. pose proof ED as [[U1 U2] EVV]. exists (fun i => B i t). split.
        - destruct (Classical_Prop.classic (exists i, i < n /\ B i t <> 0)) as [Y|N]; [exact Y|]. exfalso.
          specialize (U1 t t Ht Ht). unfold mm, adj, eye in U1. rewrite Nat.eqb_refl in U1. assert (F : bsum n (fun j => (B j t)^* * B j t) = 0).
          { apply bsum_zero. intros j Hj. destruct (Classical_Prop.classic (B j t = 0)) as [->|X]; [ring|]. exfalso. apply N. exists j. auto. }
          fold B in U1. rewrite F in U1. apply (f_equal fst) in U1. cbn in U1. lra.
        - intros i Hi. specialize (EVV i t Hi Ht). unfold mm in EVV. fold B in EVV. rewrite EVV. unfold rc. ring. }
      specialize (Pe t Ht). rewrite Rabs_pos_eq in Lt by exact Pe. lra.
    - unfold clip_eig. destruct (below _ _); [lra|apply Pe, Ht]. }
  assert (G : eqm n n (mm r A (adj A)) (me rho)).
  { apply (eqm_trans _ _ _ _ _ (gram_congr n r _ _ EA)). intros i j Hi Hj. rewrite (entry_form n _ _ _ ED i j Hi Hj). replace n with (k + r)%nat at 1 by lia. rewrite bsum_split.
    fold B. rewrite (bsum_zero k); [|intros t Ht; rewrite Z by lia; change (rc 0) with (0 : CC); ring].
    unfold mm, adj. transitivity (bsum r (fun s => B i (k + s)%nat * rc (e (k + s)%nat) * (B j (k + s)%nat)^*)); [|ring].
    apply bsum_ext; intros s Hs. rewrite sconj_mul, rc_conj. rewrite <- (Sq (k + s)%nat) at 3 by lia. rewrite <- rc_mul. ring. }
  destruct (product_trace_one n r A) as (rho' & E' & R' & C' & Q').
  { rewrite (tr_eqm n _ _ G). exact TR. }
  exists rho'. split; [reflexivity|]. split; [unfold over_numb_variables; lia|]. split; [exact E'|]. split; [exact R'|]. split; [exact C'|]. apply (eqm_trans _ _ _ _ _ Q' G).
Qed.
