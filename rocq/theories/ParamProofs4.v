(** CholeskyParam. *)
From Verif Require Import Py Scalar PauliModel PauliSpec EncoderProofs EighExists Spectral SpectralProofs KrausSpec KrausProofs KrausProofs2 KrausProofs6 KrausProofs8 ChoiSpec ChoiProofs2 ChoiProofs3 ParamModel ParamSpec ParamProofs ParamProofs2 ParamProofs3.
From Coq Require Import Reals Lra.
Open Scope nat_scope.
Open Scope K_scope.
Add Ring CCring15 : (s_rt CC).

(** ** counting *)
Lemma filter_lt i m : forall s, filter (fun j => Nat.ltb j i) (seq s m) = seq s (Nat.min (i - s) m).
Proof.
  induction m as [|m IH]; intros s; cbn [seq filter]; [rewrite Nat.min_0_r; reflexivity|]. destruct (Nat.ltb_spec s i).
  - replace (Nat.min (i - s) (S m)) with (S (Nat.min (i - S s) m)) by lia. cbn [seq]. rewrite IH. reflexivity.
  - rewrite IH. replace (Nat.min (i - S s) m) with O by lia. replace (Nat.min (i - s) (S m)) with O by lia. reflexivity.
Qed.
Lemma filter_map_pair i l : filter (fun p : nat * nat => Nat.ltb (snd p) (fst p)) (map (fun j => (i, j)) l) = map (fun j => (i, j)) (filter (fun j => Nat.ltb j i) l).
Proof. induction l as [|j l IH]; [reflexivity|]. cbn [map filter fst snd]. destruct (Nat.ltb j i); cbn [map]; rewrite IH; reflexivity. Qed.
Lemma tril_lower n m : tril_indices n m = strictly_lower n m.
Proof.
  unfold tril_indices, strictly_lower. generalize (seq 0 n). induction l as [|i l IH]; [reflexivity|]. cbn [flat_map list_prod]. rewrite filter_app, IH. f_equal.
  rewrite filter_map_pair, filter_lt, Nat.sub_0_r. reflexivity.
Qed.
Lemma tril_S n m : tril_indices (S n) m = tril_indices n m ++ map (fun j => (n, j)) (seq 0 (Nat.min n m)).
Proof. unfold tril_indices. rewrite seq_S, flat_map_app. cbn [flat_map plus]. rewrite app_nil_r. reflexivity. Qed.
Lemma tril_length_S n m : length (tril_indices (S n) m) = (length (tril_indices n m) + Nat.min n m)%nat.
Proof. rewrite tril_S, app_length, map_length, seq_length. reflexivity. Qed.
Lemma tril_count r : forall n, (2 * length (tril_indices n r) = if Nat.leb n r then n * (n - 1) else r * (r - 1) + 2 * (n - r) * r)%nat.
Proof.
  induction n as [|n IH]; [reflexivity|]. rewrite tril_length_S. rewrite Nat.mul_add_distr_l, IH. destruct (Nat.leb_spec n r), (Nat.leb_spec (S n) r); try lia.
  - rewrite Nat.min_l by lia. destruct n; nia.
  - assert (n = r) by lia. subst. rewrite Nat.min_id. destruct r; nia.
Qed.
Theorem chol_count n r : r <= n -> chol_numb_variables n r = Z.of_nat (r + 2 * length (strictly_lower n r)).
Proof.
  intros H. rewrite <- tril_lower. unfold chol_numb_variables. rewrite tril_count. destruct (Nat.leb_spec n r); [assert (n = r) by lia; subst; destruct r; nia|destruct r; nia].
Qed.
Theorem chol_bounds_length n r lo hi : r <= n -> Z.of_nat (length (chol_bounds n r lo hi)) = chol_numb_variables n r.
Proof.
  intros H. unfold chol_bounds. rewrite app_length, !repeat_length, chol_count by exact H. lia.
Qed.

(** ** filling the factor *)
Lemma fold_aset_other : forall (l : list (nat * nat * CC)) (A : array CC) a b, ~ In (a, b) (map fst l) -> fold_left (fun A p => aset A (fst (fst p)) (snd (fst p)) (snd p)) l A a b = A a b.
Proof.
  induction l as [|p l IH]; intros A a b H; [reflexivity|]. cbn [fold_left map] in *. rewrite IH by (intros X; apply H; right; exact X). apply aset_other.
  intros E. apply H. left. rewrite E. destruct p as [[? ?] ?]. reflexivity.
Qed.
Lemma fold_aset_in : forall (l : list (nat * nat * CC)) (A : array CC) a b z, NoDup (map fst l) -> In (a, b, z) l -> fold_left (fun A p => aset A (fst (fst p)) (snd (fst p)) (snd p)) l A a b = z.
Proof.
  induction l as [|p l IH]; intros A a b z ND H; [destruct H|]. cbn [fold_left map] in *. apply NoDup_cons_iff in ND. destruct ND as [NI ND]. destruct H as [->|H].
  - cbn [fst snd] in *. rewrite fold_aset_other by exact NI. apply aset_same.
  - apply IH; assumption.
Qed.
Lemma map_fst_combine {X Y} (a : list X) : forall b : list Y, length a = length b -> map fst (combine a b) = a.
Proof. induction a as [|x a IH]; intros [|y b] H; try discriminate; [reflexivity|]. cbn. rewrite IH by (apply Nat.succ_inj; exact H). reflexivity. Qed.
Lemma combine_nth_In {X Y} (a : list X) : forall (b : list Y) k da db, length a = length b -> k < length a -> In (nth k a da, nth k b db) (combine a b).
Proof.
  intros b k da db H Hk. rewrite <- (combine_nth a b k da db H). apply nth_In. rewrite combine_length. lia.
Qed.
Lemma fancy_set_ok A idx v : NoDup idx -> length v = length idx ->
  exists A', fancy_set A idx v = Ok A' /\ (forall k, k < length idx -> forall p z, A' (fst (nth k idx p)) (snd (nth k idx p)) = nth k v z) /\ (forall a b, ~ In (a, b) idx -> A' a b = A a b).
Proof.
  intros ND L. unfold fancy_set. rewrite L, Nat.eqb_refl. eexists. split; [reflexivity|]. split.
  - intros k Hk p z. apply fold_aset_in; [rewrite map_fst_combine by (symmetry; exact L); exact ND|].
    pose proof (combine_nth_In idx v k p z (eq_sym L) Hk) as I. rewrite (surjective_pairing (nth k idx p)) in I. exact I.
  - intros a b N. apply fold_aset_other. rewrite map_fst_combine by (symmetry; exact L). exact N.
Qed.
Lemma tril_NoDup n m : NoDup (tril_indices n m).
Proof. apply (NoDup_flat_rows (fun i => seq 0 (Nat.min i m))); [apply seq_NoDup|intros; apply seq_NoDup]. Qed.
Lemma tril_In n m i j : In (i, j) (tril_indices n m) <-> (j < i < n /\ j < m)%nat.
Proof.
  unfold tril_indices. rewrite in_flat_map. split.
  - intros (a & Ha & H). apply in_map_iff in H. destruct H as (b & E & Hb). inversion E; subst. apply in_seq in Ha, Hb. lia.
  - intros H. exists i. split; [apply in_seq; lia|]. apply in_map_iff. exists j. split; [reflexivity|apply in_seq; lia].
Qed.
Lemma tril_nth n m i j p : (j < i < n)%nat -> j < m -> (length (tril_indices i m) + j < length (tril_indices n m))%nat /\ nth (length (tril_indices i m) + j) (tril_indices n m) p = (i, j).
Proof.
  intros Hi Hj. induction n as [|n IH]; [lia|]. rewrite tril_length_S. destruct (Nat.eq_dec i n) as [->|N].
  - split; [lia|]. rewrite tril_S. rewrite app_nth2 by lia. replace (length (tril_indices n m) + j - length (tril_indices n m))%nat with j by lia.
    rewrite (nth_indep _ p (n, 0%nat)) by (rewrite map_length, seq_length; lia). rewrite (map_nth (fun j => (n, j)) _ 0%nat), seq_nth by lia. reflexivity.
  - destruct IH as [IH1 IH2]; [lia|]. split; [lia|]. rewrite tril_S, app_nth1 by exact IH1. exact IH2.
Qed.
Lemma diag_nth r k p : k < r -> nth k (map (fun i => (i, i)) (seq 0 r)) p = (k, k).
Proof. intros H. rewrite (nth_indep _ p (0%nat, 0%nat)) by (rewrite map_length, seq_length; exact H). rewrite (map_nth (fun i => (i, i)) _ 0%nat), seq_nth by exact H. reflexivity. Qed.
Lemma diag_NoDup r : NoDup (map (fun i : nat => (i, i)) (seq 0 r)).
Proof. generalize (seq_NoDup r 0). generalize (seq 0 r). induction 1 as [|x l N _ IH]; cbn; constructor; [|exact IH]. intros H. apply in_map_iff in H. destruct H as (y & E & Hy). inversion E; subst. contradiction. Qed.
Lemma nth_firstn_lt {X} (v : list X) : forall r k d, k < r -> nth k (firstn r v) d = nth k v d.
Proof. induction v as [|x v IH]; intros [|r] [|k] d H; cbn; try lia; try reflexivity. apply IH. lia. Qed.

Lemma chol_fill vec n r : 1 <= r -> r <= n -> (length vec = r + 2 * length (tril_indices n r))%nat ->
  exists L, eqm n r L (lower_matrix r vec) /\
    (do cv <- complex_pairs vec r; do L <- fancy_set azeros (tril_indices n r) cv;
     do L <- fancy_set L (map (fun i => (i, i)) (seq 0 r)) (map (fun x => (x, 0%R) : CC) (firstn r vec)); normalised_product (MA n r L)) = normalised_product (MA n r L).
Proof.
  intros H1 Hr L. rewrite (complex_pairs_ok vec r (length (tril_indices n r)) L). cbn [bind].
  destruct (fancy_set_ok azeros (tril_indices n r) (map (pair_at vec r) (seq 0 (length (tril_indices n r))))) as (L1 & E1 & V1 & O1).
  { apply tril_NoDup. } { rewrite map_length, seq_length. reflexivity. }
  rewrite E1. cbn [bind].
  destruct (fancy_set_ok L1 (map (fun i => (i, i)) (seq 0 r)) (map (fun x => (x, 0%R) : CC) (firstn r vec))) as (L2 & E2 & V2 & O2).
  { apply diag_NoDup. } { rewrite !map_length, seq_length, firstn_length. lia. }
  match goal with |- context [fancy_set L1 ?a ?b] => replace (fancy_set L1 a b) with (@Ok (array CC) L2) by (symmetry; exact E2) end. cbn [bind].
  exists L2. split; [|reflexivity]. intros i j Hi Hj. unfold lower_matrix. destruct (Nat.eqb_spec i j) as [->|N].
  - specialize (V2 j). rewrite map_length, seq_length in V2. specialize (V2 Hj (0%nat, 0%nat) ((0%R, 0%R) : CC)). rewrite diag_nth in V2 by exact Hj. cbn [fst snd] in V2. rewrite V2.
    rewrite (map_nth (fun x => (x, 0%R) : CC) (firstn r vec) 0%R), nth_firstn_lt by exact Hj. reflexivity.
  - rewrite O2 by (intros I; apply in_map_iff in I; destruct I as (x & E & _); inversion E; lia). destruct (Nat.ltb_spec j i).
    + rewrite <- tril_lower. destruct (tril_nth n r i j (0%nat, 0%nat)) as [B E]; [lia|exact Hj|].
      specialize (V1 _ B (0%nat, 0%nat) (pair_at vec r 0)). rewrite E in V1. cbn [fst snd] in V1. rewrite V1. rewrite map_nth, seq_nth by exact B. reflexivity.
    + rewrite O1 by (rewrite tril_In; lia). reflexivity.
Qed.
Lemma chol_nonzero vec n r : 1 <= r -> r <= n -> (length vec = r + 2 * length (tril_indices n r))%nat -> (exists x, In x vec /\ x <> 0%R) -> exists i k, i < n /\ k < r /\ lower_matrix r vec i k <> (0 : CC).
Proof.
  intros H1 Hr L (x & Hx & N). destruct (In_nth vec x 0%R Hx) as (p & Hp & E). destruct (Nat.lt_ge_cases p r) as [Lt|Ge].
  - exists p, p. split; [lia|]. split; [exact Lt|]. unfold lower_matrix. rewrite Nat.eqb_refl. intros Z. apply N. rewrite <- E. apply (f_equal fst) in Z. exact Z.
  - set (q := ((p - r) / 2)%nat). assert (Hq : (q < length (tril_indices n r))%nat) by (apply Nat.div_lt_upper_bound; lia).
    destruct (nth q (tril_indices n r) (0%nat, 0%nat)) as [i j] eqn:Eq. assert (I : In (i, j) (tril_indices n r)) by (rewrite <- Eq; apply nth_In, Hq).
    apply tril_In in I. destruct (tril_nth n r i j (0%nat, 0%nat)) as [B E']; [lia|lia|].
    assert (Q : q = (length (tril_indices i r) + j)%nat).
    { apply (proj1 (NoDup_nth (tril_indices n r) (0%nat, 0%nat)) (tril_NoDup n r) _ _ Hq B). rewrite Eq, E'. reflexivity. }
    exists i, j. split; [lia|]. split; [lia|]. unfold lower_matrix. destruct (Nat.eqb_spec i j); [lia|]. destruct (Nat.ltb_spec j i); [|lia]. rewrite <- tril_lower, <- Q.
    intros Z. apply N. rewrite <- E. pose proof (Nat.div_mod (p - r) 2 ltac:(lia)) as D. fold q in D.
    assert ((p - r) mod 2 = 1 \/ (p - r) mod 2 = 0)%nat as [M|M] by (pose proof (Nat.mod_upper_bound (p - r) 2); lia).
    + apply (f_equal snd) in Z. cbn [snd] in Z. replace p with (r + 2 * q + 1)%nat by lia. exact Z.
    + apply (f_equal fst) in Z. cbn [fst] in Z. replace p with (r + 2 * q)%nat by lia. exact Z.
Qed.
Lemma chol_head vec n rank : 1 <= rank_of rank n -> rank_of rank n <= n -> Z.of_nat (length vec) = chol_numb_variables n (rank_of rank n) ->
  exists L, eqm n (rank_of rank n) L (lower_matrix (rank_of rank n) vec) /\ chol_rho_from_vec vec n rank = normalised_product (MA n (rank_of rank n) L).
Proof.
  intros H1 Hr L. unfold chol_rho_from_vec. fold (rank_of rank n). set (r := rank_of rank n) in *. rewrite (proj2 (Nat.leb_le _ _) H1), (proj2 (Nat.leb_le _ _) Hr), (proj2 (Z.eqb_eq _ _) L). cbn [andb assert_ bind].
  apply chol_fill; try assumption. rewrite (chol_count n r Hr), <- tril_lower in L. lia.
Qed.
Theorem chol_density vec n rank : 1 <= rank_of rank n -> rank_of rank n <= n -> Z.of_nat (length vec) = chol_numb_variables n (rank_of rank n) -> (exists x, In x vec /\ x <> 0%R) ->
  exists rho, chol_rho_from_vec vec n rank = Ok rho /\ mr rho = n /\ mc rho = n /\ density n (me rho) /\ rank_at_most n (rank_of rank n) (me rho) /\
    normalises n (rank_of rank n) (lower_matrix (rank_of rank n) vec) (me rho).
Proof.
  intros H1 Hr L NZ. destruct (chol_head vec n rank H1 Hr L) as (F & EF & E). rewrite E. set (r := rank_of rank n) in *.
  destruct (product_density n r F) as (rho & t & Eq & R1 & C1 & D & K & T0 & T & Q).
  { rewrite (chol_count n r Hr), <- tril_lower in L. destruct (chol_nonzero vec n r H1 Hr ltac:(lia) NZ) as (i & k & Hi & Hk & N). exists i, k. rewrite (EF i k Hi Hk). auto. }
  exists rho. repeat split; try assumption; [apply D|apply D|apply D|]. exists t. split; [exact T0|]. pose proof (gram_congr n r _ _ EF) as G.
  split; [rewrite <- (tr_eqm n _ _ G); exact T|]. apply (eqm_trans _ _ _ _ _ Q G).
Qed.
Theorem chol_errors vec n rank : ~ (1 <= rank_of rank n /\ rank_of rank n <= n /\ Z.of_nat (length vec) = chol_numb_variables n (rank_of rank n)) -> chol_rho_from_vec vec n rank = Err AssertionError.
Proof.
  intros H. unfold chol_rho_from_vec. fold (rank_of rank n). destruct (Nat.leb_spec 1 (rank_of rank n)); [|reflexivity]. destruct (Nat.leb_spec (rank_of rank n) n); [|reflexivity]. cbn [andb assert_ bind].
  destruct (Z.eqb_spec (Z.of_nat (length vec)) (chol_numb_variables n (rank_of rank n))); [exfalso; auto|reflexivity].
Qed.
Theorem chol_zero vec n rank : 1 <= rank_of rank n -> rank_of rank n <= n -> Z.of_nat (length vec) = chol_numb_variables n (rank_of rank n) -> (forall x, In x vec -> x = 0%R) ->
  chol_rho_from_vec vec n rank = Err Unmodelled.
Proof.
  intros H1 Hr L Z. destruct (chol_head vec n rank H1 Hr L) as (F & EF & E). rewrite E. set (r := rank_of rank n) in *.
  unfold normalised_product, np_dot, np_dagger. cbn [mc mr me]. rewrite Nat.eqb_refl. cbn [bind mr mc me].
  replace (tr n (mm r F (adj F))) with (rc 0); [rewrite cmod_rc by lra; destruct (Req_EM_T 0 0); [reflexivity|lra]|].
  assert (N : forall p, nth p vec 0%R = 0%R). { intros p. destruct (nth_in_or_default p vec 0%R) as [I|D]; [apply Z, I|exact D]. }
  symmetry. change (rc 0) with (0 : CC). unfold tr. apply bsum_zero. intros i Hi. unfold mm. apply bsum_zero. intros k Hk. rewrite (EF i k Hi Hk).
  replace (lower_matrix r vec i k) with (0 : CC); [ring|]. unfold lower_matrix. cbv zeta. rewrite !N. destruct (Nat.eqb i k); [reflexivity|]. destruct (Nat.ltb k i); reflexivity.
Qed.
