(** The round trip of CholeskyParam, and the random vectors. *)
From Verif Require Import Py Scalar PauliModel PauliSpec EncoderProofs EighExists Spectral SpectralProofs KrausSpec KrausProofs KrausProofs2 KrausProofs6 KrausProofs8 ChoiSpec ChoiProofs2 ChoiProofs3 ParamModel ParamSpec ParamProofs ParamProofs2 ParamProofs3 ParamProofs4 ParamProofs5.
From Coq Require Import Reals Lra.
From Coq Require String.
Import String.StringSyntax.
Delimit Scope string_scope with string.
Open Scope nat_scope.
Open Scope K_scope.
Add Ring CCring17 : (s_rt CC).

Definition entry_list (L : array CC) (idx : list (nat * nat)) : list CC := map (fun p => L (fst p) (snd p)) idx.
Definition chol_vec (n r : nat) (L : array CC) : list R :=
  map (fun i => fst (L i i)) (seq 0 n) ++ map fst (entry_list L (tril_indices n r)) ++ map snd (entry_list L (tril_indices n r)).
Lemma chol_vec_length n r L : length (chol_vec n r L) = (n + 2 * length (tril_indices n r))%nat.
Proof. unfold chol_vec, entry_list. rewrite !app_length, !map_length, seq_length. lia. Qed.
Lemma fancy_get_ok L n m : mr L = n -> mc L = n -> m <= n -> fancy_get L (tril_indices n m) = Ok (entry_list (me L) (tril_indices n m)).
Proof.
  intros R1 C1 Hm. unfold fancy_get, entry_list. apply mapM_map. intros [i j] H. apply tril_In in H. cbn [fst snd]. rewrite R1, C1.
  destruct (Nat.ltb_spec i n); [|lia]. destruct (Nat.ltb_spec j n); [|lia]. reflexivity.
Qed.
Theorem chol_vec_value cholesky rho n rank : cholesky_contract cholesky -> mr rho = n -> mc rho = n -> positive_definite n (me rho) -> 1 <= rank_of rank n -> rank_of rank n <= n ->
  exists L, cholesky_factor n (me rho) L /\ chol_vec_from_rho cholesky rho n rank = Ok (chol_vec n (rank_of rank n) L).
Proof.
  intros CC0 R1 C1 PD H1 Hr. destruct (CC0 n rho R1 C1 PD) as (L & EL & RL & CL & FL). exists (me L). split; [exact FL|]. unfold chol_vec_from_rho. fold (rank_of rank n).
  rewrite (proj2 (Nat.leb_le _ _) H1), (proj2 (Nat.leb_le _ _) Hr). cbn [andb assert_ bind]. rewrite EL. cbn [bind]. rewrite RL, CL, Nat.min_id.
  rewrite (fancy_get_ok L n _ RL CL Hr). cbn [bind]. unfold chol_vec. rewrite <- app_assoc. reflexivity.
Qed.
(** with a rank below the size the vector does not even have the right length *)
Theorem chol_low_rank cholesky rho n r vec : mr rho = n -> mc rho = n -> (forall L, cholesky rho = Ok L -> mr L = n /\ mc L = n) -> r < n -> chol_vec_from_rho cholesky rho n (Some r) = Ok vec -> chol_rho_from_vec vec n (Some r) = Err AssertionError.
Proof.
  intros R1 C1 SH Hr E. apply chol_errors. cbn [rank_of]. intros (H1 & _ & Le). revert E. unfold chol_vec_from_rho. rewrite (proj2 (Nat.leb_le _ _) H1), (proj2 (Nat.leb_le r n)) by lia. cbn [andb assert_ bind].
  destruct (cholesky rho) as [L|e] eqn:EL; [|discriminate]. destruct (SH L eq_refl) as [RL CL]. cbn [bind]. rewrite (fancy_get_ok L n r RL CL) by lia. cbn [bind]. rewrite RL, CL, Nat.min_id.
  intros E. inversion E; subst vec. revert Le. rewrite (chol_count n r) by lia. rewrite <- tril_lower. rewrite !app_length, !map_length, seq_length. unfold entry_list. rewrite map_length. lia.
Qed.

Lemma chol_round_if n rank L rho : 1 <= n -> rank_of rank n = n -> cholesky_factor n rho L -> tr n rho = 1 -> eqm n n (lower_matrix n (chol_vec n n L)) L ->
  exists rho', chol_rho_from_vec (chol_vec n n L) n rank = Ok rho' /\ mr rho' = n /\ mc rho' = n /\ eqm n n (me rho') rho.
Proof.
  intros Hn RK (E & T & P) TR EQ. destruct (chol_head (chol_vec n n L) n rank) as (F & EF & V).
  { lia. } { lia. } { rewrite RK, (chol_count n n) by lia. rewrite chol_vec_length, tril_lower. reflexivity. }
  rewrite V. rewrite RK in *. assert (G : eqm n n (mm n F (adj F)) rho).
  { apply (eqm_trans _ _ _ _ _ (gram_congr n n _ _ (eqm_trans _ _ _ _ _ EF EQ))). apply eqm_sym, E. }
  destruct (product_trace_one n n F) as (rho' & E' & R' & C' & Q'). { rewrite (tr_eqm n _ _ G). exact TR. }
  exists rho'. split; [exact E'|]. split; [exact R'|]. split; [exact C'|]. apply (eqm_trans _ _ _ _ _ Q' G).
Qed.
Lemma chol_vec_diag n r L i : i < n -> nth i (chol_vec n r L) 0%R = fst (L i i).
Proof.
  intros Hi. unfold chol_vec. rewrite app_nth1 by (rewrite map_length, seq_length; exact Hi). rewrite (nth_indep _ 0%R (fst (L 0%nat 0%nat))) by (rewrite map_length, seq_length; exact Hi).
  rewrite (map_nth (fun i => fst (L i i)) (seq 0 n) 0%nat), seq_nth by exact Hi. reflexivity.
Qed.
Lemma chol_vec_off n r L k : nth (n + k) (chol_vec n r L) 0%R =
  nth k (map fst (entry_list L (tril_indices n r)) ++ map snd (entry_list L (tril_indices n r))) 0%R.
Proof. unfold chol_vec. rewrite app_nth2 by (rewrite map_length, seq_length; lia). rewrite map_length, seq_length. f_equal. lia. Qed.
Lemma diag_entry d A L i : cholesky_factor d A L -> i < d -> L i i = ((fst (L i i), 0%R) : CC).
Proof. intros (_ & _ & P) Hi. apply CC_eq; [reflexivity|]. apply P, Hi. Qed.

Theorem chol_small cholesky rho n rank : cholesky_contract cholesky -> mr rho = n -> mc rho = n -> positive_definite n (me rho) -> tr n (me rho) = 1 -> 1 <= n <= 2 -> rank_of rank n = n ->
  exists vec rho', chol_vec_from_rho cholesky rho n rank = Ok vec /\ chol_rho_from_vec vec n rank = Ok rho' /\ mr rho' = n /\ mc rho' = n /\ eqm n n (me rho') (me rho).
Proof.
  intros CC0 R1 C1 PD TR Hn RK. destruct (chol_vec_value cholesky rho n rank CC0 R1 C1 PD) as (L & FL & V); [lia|lia|]. rewrite RK in V.
  destruct (chol_round_if n rank L (me rho)) as (rho' & E' & R' & C' & Q'); [lia|exact RK|exact FL|exact TR| |].
  - intros i j Hi Hj. unfold lower_matrix. destruct (Nat.eqb_spec i j) as [->|N].
    + rewrite chol_vec_diag by exact Hj. symmetry. apply (diag_entry n (me rho)); assumption.
    + destruct (Nat.ltb_spec j i).
      * assert (n = 2 /\ i = 1 /\ j = 0)%nat as (-> & -> & ->) by lia. cbv zeta. rewrite <- Nat.add_assoc, !chol_vec_off. apply CC_eq; reflexivity.
      * destruct FL as (_ & T & _). rewrite (T i j) by lia. reflexivity.
  - exists (chol_vec n n L), rho'. auto.
Qed.
Theorem chol_diagonal cholesky rho n rank : cholesky_contract cholesky -> mr rho = n -> mc rho = n -> positive_definite n (me rho) -> tr n (me rho) = 1 -> 1 <= n -> rank_of rank n = n ->
  (forall i j, i < n -> j < n -> i <> j -> me rho i j = 0) ->
  exists vec rho', chol_vec_from_rho cholesky rho n rank = Ok vec /\ chol_rho_from_vec vec n rank = Ok rho' /\ mr rho' = n /\ mc rho' = n /\ eqm n n (me rho') (me rho).
Proof.
  intros CC0 R1 C1 PD TR Hn RK DG. destruct (chol_vec_value cholesky rho n rank CC0 R1 C1 PD) as (L & FL & V); [lia|lia|]. rewrite RK in V.
  assert (U : eqm n n L (fun i j => if Nat.eqb i j then rc (sqrt (fst (me rho i i))) else 0)).
  { apply (cholesky_unique n (me rho) _ _ FL). split; [|split].
    - intros i j Hi Hj. unfold mm, adj. rewrite (bsum_one n i); [|exact Hi|].
      + rewrite Nat.eqb_refl. destruct (Nat.eqb_spec j i) as [->|N].
        * rewrite rc_conj, rc_mul. destruct FL as (E & _ & _). pose proof (E i i Hi Hi) as Ei. assert (P0 : (0 <= fst (me rho i i))%R) by (rewrite Ei, gram_entry; apply dot_self_nonneg).
          rewrite sqrt_sqrt by exact P0. apply CC_eq; [reflexivity|]. destruct PD as [HA _]. specialize (HA i i Hi Hi). unfold adj in HA. apply (f_equal snd) in HA. cbn in *. lra.
        * rewrite DG by auto. rewrite sconj_0. ring.
      + intros k Hk N. destruct (Nat.eqb_spec i k); [congruence|]. ring.
    - intros i j Hij Hj. destruct (Nat.eqb_spec i j); [lia|reflexivity].
    - intros i Hi. rewrite Nat.eqb_refl. split; [reflexivity|]. cbn [rc fst]. apply sqrt_lt_R0. destruct FL as (E & _ & P). rewrite (E i i Hi Hi), gram_entry.
      destruct (P i Hi) as [_ Pi]. pose proof (dot_self_nonneg n (fun k => (L i k)^*)) as NN. destruct (Req_EM_T (fst (dot n (fun k => (L i k)^*) (fun k => (L i k)^*))) 0) as [Z|NZ]; [|lra].
      exfalso. pose proof (dot_self_zero n _ Z i Hi) as Q. cbn beta in Q. apply (f_equal fst) in Q. cbn in Q. lra. }
  assert (Z : forall i j, i < n -> j < n -> i <> j -> L i j = 0). { intros i j Hi Hj N. rewrite (U i j Hi Hj). destruct (Nat.eqb_spec i j); [contradiction|reflexivity]. }
  assert (ZL : forall k, nth (n + k) (chol_vec n n L) 0%R = 0%R).
  { intros k. rewrite chol_vec_off. assert (A : forall x, In x (map fst (entry_list L (tril_indices n n)) ++ map snd (entry_list L (tril_indices n n))) -> x = 0%R).
    { intros x Hx. apply in_app_or in Hx. unfold entry_list in Hx. rewrite !map_map in Hx. destruct Hx as [Hx|Hx]; apply in_map_iff in Hx; destruct Hx as ([i j] & <- & I); apply tril_In in I; cbn [fst snd]; rewrite Z by lia; reflexivity. }
    destruct (nth_in_or_default k (map fst (entry_list L (tril_indices n n)) ++ map snd (entry_list L (tril_indices n n))) 0%R) as [I|D]; [apply A, I|exact D]. }
  destruct (chol_round_if n rank L (me rho)) as (rho' & E' & R' & C' & Q'); [lia|exact RK|exact FL|exact TR| |].
  - intros i j Hi Hj. unfold lower_matrix. destruct (Nat.eqb_spec i j) as [->|N].
    + rewrite chol_vec_diag by exact Hj. symmetry. apply (diag_entry n (me rho)); assumption.
    + rewrite (Z i j Hi Hj N). destruct (Nat.ltb_spec j i); [|reflexivity]. cbv zeta. rewrite <- Nat.add_assoc, !ZL. reflexivity.
  - exists (chol_vec n n L), rho'. auto.
Qed.

(** ** a state that does not come back *)
Section Bad.
Variable n : nat.
Hypothesis Hn : 3 <= n.
Definition amp : R := (/ sqrt (INR n + 1))%R.
Definition bad_factor : array CC := fun i j => if Nat.eqb i j || (Nat.eqb i 2 && Nat.eqb j 0) then rc amp else 0.
Definition bad_state : marr CC := MA n n (mm n bad_factor (adj bad_factor)).
Lemma n_pos : (0 < INR n + 1)%R. Proof. pose proof (pos_INR n). lra. Qed.
Lemma amp_pos : (0 < amp)%R. Proof. unfold amp. apply Rinv_0_lt_compat, sqrt_lt_R0, n_pos. Qed.
Lemma amp_sq : (amp * amp * (INR n + 1) = 1)%R.
Proof.
  unfold amp. pose proof n_pos as P. rewrite <- Rinv_mult, sqrt_sqrt by lra. field. lra.
Qed.
Lemma bad_is_factor : cholesky_factor n (me bad_state) bad_factor.
Proof.
  split; [apply eqm_refl|]. split.
  - intros i j Hij Hj. unfold bad_factor. destruct (Nat.eqb_spec i j); [lia|]. destruct (Nat.eqb_spec j 0); [lia|]. rewrite andb_false_r. reflexivity.
  - intros i Hi. unfold bad_factor. rewrite Nat.eqb_refl. cbn. split; [reflexivity|apply amp_pos].
Qed.
Lemma bad_diag i : i < n -> me bad_state i i = rc (if Nat.eqb i 2 then (2 * (amp * amp))%R else (amp * amp)%R).
Proof.
  intros Hi. unfold bad_state. cbn [me]. unfold mm, adj. destruct (Nat.eqb_spec i 2) as [->|N].
  - rewrite (bsum_pair n 2 0); [|lia|lia|lia|intros k Hk N1 N2; unfold bad_factor; destruct (Nat.eqb_spec 2 k); [congruence|]; destruct (Nat.eqb_spec k 0); [congruence|]; cbn [Nat.eqb orb andb]; ring].
    unfold bad_factor. cbn [Nat.eqb orb andb]. rewrite rc_conj, rc_mul. apply CC_eq; cbn; ring.
  - rewrite (bsum_one n i); [|exact Hi|].
    + unfold bad_factor. rewrite Nat.eqb_refl. cbn [orb]. rewrite rc_conj, rc_mul. reflexivity.
    + intros k Hk Nk. unfold bad_factor. destruct (Nat.eqb_spec i k); [congruence|]. destruct (Nat.eqb_spec i 2); [contradiction|]. cbn [Nat.eqb orb andb]. ring.
Qed.
Lemma bad_trace : tr n (me bad_state) = 1.
Proof.
  unfold tr. rewrite (bsum_ext n _ (fun i => rc (amp * amp) + (if Nat.eqb i 2 then rc (amp * amp) else 0))).
  - rewrite bsum_add. rewrite (bsum_delta n 2 (fun _ => rc (amp * amp))) by lia.
    assert (G : forall m, bsum m (fun _ => rc (amp * amp)) = rc (INR m * (amp * amp))).
    { induction m as [|m IH]; [cbn [bsum INR]; rewrite Rmult_0_l; reflexivity|]. cbn [bsum]. rewrite IH, S_INR. apply CC_eq; cbn; ring. }
    rewrite G. pose proof amp_sq as A. apply CC_eq; cbn; [|ring]. lra.
  - intros i Hi. rewrite bad_diag by exact Hi. destruct (Nat.eqb i 2); apply CC_eq; cbn; ring.
Qed.
Lemma bad_10 : me bad_state 1%nat 0%nat = 0.
Proof.
  unfold bad_state. cbn [me]. unfold mm, adj. apply bsum_zero. intros k Hk. unfold bad_factor. destruct (Nat.eqb_spec 1 k) as [<-|N]; [cbn [Nat.eqb orb andb]; rewrite sconj_0; ring|]. cbn [Nat.eqb orb andb]. ring.
Qed.
Lemma tril_start : exists rest, tril_indices n n = (1, 0)%nat :: (2, 0)%nat :: rest.
Proof.
  unfold tril_indices. replace (seq 0 n) with ([0; 1; 2] ++ seq 3 (n - 3))%nat by (replace n with (3 + (n - 3))%nat at 2 by lia; rewrite seq_app; reflexivity).
  rewrite flat_map_app. cbn [flat_map]. replace (Nat.min 0 n) with 0%nat by lia. replace (Nat.min 1 n) with 1%nat by lia. replace (Nat.min 2 n) with 2%nat by lia. cbn. eexists. reflexivity.
Qed.
Theorem chol_refuted cholesky rank : cholesky_contract cholesky -> rank_of rank n = n ->
  exists vec rho', chol_vec_from_rho cholesky bad_state n rank = Ok vec /\ chol_rho_from_vec vec n rank = Ok rho' /\ ~ eqm n n (me rho') (me bad_state).
Proof.
  intros CC0 RK. destruct (chol_vec_value cholesky bad_state n rank CC0 eq_refl eq_refl (factor_positive _ _ _ bad_is_factor)) as (L & FL & V); [lia|lia|].
  rewrite RK in V. exists (chol_vec n n L). pose proof (cholesky_unique n _ _ _ FL bad_is_factor) as U.
  destruct (chol_density (chol_vec n n L) n rank) as (rho' & E' & R' & C' & _ & _ & (t & T0 & _ & Q)).
  { lia. } { lia. } { rewrite RK, (chol_count n n) by lia. rewrite chol_vec_length, tril_lower. reflexivity. }
  { exists amp. split; [|pose proof amp_pos; lra]. replace amp with (nth 0 (chol_vec n n L) 0%R) by (rewrite chol_vec_diag by lia; rewrite (U 0%nat 0%nat) by lia; reflexivity). apply nth_In. rewrite chol_vec_length. lia. }
  exists rho'. split; [exact V|]. split; [exact E'|]. intros EQ. rewrite RK in Q. specialize (Q 1%nat 0%nat ltac:(lia) ltac:(lia)). cbv beta in Q. rewrite (EQ 1%nat 0%nat), bad_10 in Q by lia.
  unfold mm, adj in Q. rewrite (bsum_one n 0) in Q; [|lia|].
  - unfold lower_matrix at 1 2 in Q. cbn [Nat.eqb Nat.ltb Nat.leb] in Q. cbv zeta in Q.
    replace (length (strictly_lower 1 n) + 0)%nat with 0%nat in Q by (rewrite <- tril_lower; reflexivity). rewrite Nat.mul_0_r, Nat.add_0_r in Q.
    rewrite (chol_vec_diag n n L 0) in Q by lia. rewrite (U 0%nat 0%nat) in Q by lia.
    destruct tril_start as (rest & TS). pose proof (chol_vec_off n n L 0) as A0. pose proof (chol_vec_off n n L 1) as A1. rewrite TS in A0, A1. unfold entry_list in A0, A1. cbn [map List.app nth fst snd] in A0, A1.
    rewrite Nat.add_0_r in A0. rewrite A0, A1 in Q. rewrite (U 1%nat 0%nat), (U 2%nat 0%nat) in Q by lia. unfold bad_factor in Q. cbn [Nat.eqb orb andb] in Q.
    apply (f_equal snd) in Q. cbn in Q. pose proof amp_pos. nra.
  - intros k Hk N. unfold lower_matrix at 2. destruct (Nat.eqb_spec 0 k); [congruence|]. destruct (Nat.ltb_spec k 0); [lia|]. change ((0%R, 0%R) : CC) with (0 : CC). rewrite sconj_0. ring.
Qed.
End Bad.

(** ** random vectors *)
Lemma repeat_bounds (v : list R) (lo hi : R) : Forall (fun x => (lo <= x <= hi)%R) v -> Forall2 (fun x b => (fst b <= x <= snd b)%R) v (repeat (lo, hi) (length v)).
Proof. induction 1; cbn [length repeat]; constructor; auto. Qed.
Theorem over_random normal uniform n r dist : draws normal -> uniform_draws uniform ->
  match over_random_vectors normal uniform n r dist with
  | Ok v => (dist = "normal"%string \/ dist = "uniform"%string) /\ length v = length (over_bounds n r) /\ (dist = "uniform"%string -> Forall2 (fun x b => (fst b <= x <= snd b)%R) v (over_bounds n r))
  | Err e => e = TypeError /\ (dist <> "normal"%string /\ dist <> "uniform"%string)
  end.
Proof.
  intros DN DU. unfold over_random_vectors, over_bounds. destruct (String.eqb_spec dist "normal"%string) as [->|N1].
  - split; [left; reflexivity|]. rewrite repeat_length. split; [apply DN|]. discriminate.
  - destruct (String.eqb_spec dist "uniform"%string) as [->|N2]; [|auto]. split; [right; reflexivity|]. rewrite repeat_length. destruct (DU (-1)%R 1%R (over_numb_variables n r)) as [Le B]. split; [exact Le|]. intros _.
    specialize (B ltac:(lra)). rewrite <- Le at 2. apply repeat_bounds, B.
Qed.
Theorem chol_random normal uniform n r dist lo hi : draws normal -> uniform_draws uniform -> 1 <= r -> r <= n -> (lo <= hi)%R ->
  match chol_random_vectors normal uniform n r dist lo hi with
  | Ok v => (0 <= hi)%R /\ (dist = "normal"%string \/ dist = "uniform"%string) /\ Z.of_nat (length v) = chol_numb_variables n r /\ (dist = "uniform"%string -> Forall2 (fun x b => (fst b <= x <= snd b)%R) v (chol_bounds n r lo hi))
  | Err AssertionError => ~ (0 <= hi)%R
  | Err TypeError => (0 <= hi)%R /\ (dist <> "normal"%string /\ dist <> "uniform"%string)
  | Err _ => dist = "normal"%string /\ Forall (fun x => x = 0%R) (normal (hi / 2)%R (hi / 4)%R r)
  end.
Proof.
  intros DN DU H1 Hr LH. unfold chol_random_vectors, chol_bounds. destruct (Rle_dec 0 hi) as [Hh|Nh]; [|exact Nh]. cbn [assert_ bind]. rewrite (chol_count n r Hr).
  replace (Z.of_nat (r + 2 * length (strictly_lower n r)) - Z.of_nat r)%Z with (Z.of_nat (2 * length (strictly_lower n r))) by lia. set (m := (2 * length (strictly_lower n r))%nat). rewrite Nat2Z.id.
  destruct (String.eqb_spec dist "normal"%string) as [->|N1]; [|destruct (String.eqb_spec dist "uniform"%string) as [->|N2]; [|auto]].
  - pose proof (DN (hi / 2)%R (hi / 4)%R r) as Ld. destruct (normal (hi / 2)%R (hi / 4)%R r) as [|x l] eqn:EN; [cbn in Ld; lia|]. cbn [map np_max bind].
    destruct (Z.leb_spec 0 (Z.of_nat m)); [|lia]. cbn [guard bind].
    assert (MX : forall l x, (x <= fold_left Rmax l x)%R /\ forall y, In y l -> (y <= fold_left Rmax l x)%R).
    { clear. induction l as [|a l IH]; intros x; cbn [fold_left]; [split; [lra|intros y []]|]. destruct (IH (Rmax x a)) as [I1 I2]. pose proof (Rmax_l x a). pose proof (Rmax_r x a). split; [lra|]. intros y [<-|Hy]; [lra|apply I2, Hy]. }
    destruct (MX (map Rabs l) (Rabs x)) as [M1 M2]. destruct (Req_EM_T (fold_left Rmax (map Rabs l) (Rabs x)) 0) as [Z|NZ].
    + split; [reflexivity|]. rewrite Z in *. assert (A0 : forall y, (Rabs y <= 0)%R -> y = 0%R). { intros y Hy. pose proof (Rabs_pos y). destruct (Req_EM_T y 0); [assumption|]. pose proof (Rabs_pos_lt y ltac:(assumption)). lra. }
      constructor; [apply A0, M1|]. apply Forall_forall. intros y Hy. apply A0, M2. apply in_map, Hy.
    + split; [exact Hh|]. split; [left; reflexivity|]. split; [|discriminate]. rewrite app_length, DN. cbn [length]. rewrite !map_length. cbn [length] in Ld. lia.
  - destruct (Z.leb_spec 0 (Z.of_nat m)); [|lia]. cbn [guard bind]. destruct (DU 0%R hi r) as [L1 B1]. destruct (DU lo hi m) as [L2 B2].
    split; [exact Hh|]. split; [right; reflexivity|]. split; [rewrite app_length, L1, L2; lia|]. intros _. apply Forall2_app; [rewrite <- L1 at 2; apply repeat_bounds, B1, Hh|rewrite <- L2 at 2; apply repeat_bounds, B2, LH].
Qed.

(** which states come back *)
Lemma chol_same n L A : cholesky_factor n A L -> eqm n n (lower_matrix n (chol_vec n n L)) L <->
  forall k, k < length (tril_indices n n) ->
    nth (2 * k) (map fst (entry_list L (tril_indices n n)) ++ map snd (entry_list L (tril_indices n n))) 0%R = nth k (map fst (entry_list L (tril_indices n n))) 0%R /\
    nth (2 * k + 1) (map fst (entry_list L (tril_indices n n)) ++ map snd (entry_list L (tril_indices n n))) 0%R = nth k (map snd (entry_list L (tril_indices n n))) 0%R.
Proof.
  intros FL.
  assert (N1 : forall k, k < length (tril_indices n n) -> forall i j, nth k (tril_indices n n) (0%nat, 0%nat) = (i, j) ->
     nth k (map fst (entry_list L (tril_indices n n))) 0%R = fst (L i j) /\ nth k (map snd (entry_list L (tril_indices n n))) 0%R = snd (L i j)).
  { intros k Hk i j E. unfold entry_list. rewrite !map_map. split.
    - rewrite (nth_indep _ 0%R (fst (L 0%nat 0%nat))) by (rewrite map_length; exact Hk). rewrite (map_nth (fun p => fst (L (fst p) (snd p))) _ (0%nat, 0%nat)), E. reflexivity.
    - rewrite (nth_indep _ 0%R (snd (L 0%nat 0%nat))) by (rewrite map_length; exact Hk). rewrite (map_nth (fun p => snd (L (fst p) (snd p))) _ (0%nat, 0%nat)), E. reflexivity. }
  assert (LM : forall i j, j < i -> i < n -> lower_matrix n (chol_vec n n L) i j = (nth (2 * (length (tril_indices i n) + j)) (map fst (entry_list L (tril_indices n n)) ++ map snd (entry_list L (tril_indices n n))) 0%R,
     nth (2 * (length (tril_indices i n) + j) + 1) (map fst (entry_list L (tril_indices n n)) ++ map snd (entry_list L (tril_indices n n))) 0%R)).
  { intros i j Hj Hi. unfold lower_matrix. destruct (Nat.eqb_spec i j); [lia|]. destruct (Nat.ltb_spec j i); [|lia]. cbv zeta. rewrite <- tril_lower, <- Nat.add_assoc, !chol_vec_off. reflexivity. }
  split.
  - intros E k Hk. destruct (nth k (tril_indices n n) (0%nat, 0%nat)) as [i j] eqn:P. destruct (N1 k Hk i j P) as [-> ->].
    assert (I : In (i, j) (tril_indices n n)) by (rewrite <- P; apply nth_In, Hk). apply tril_In in I. destruct (tril_nth n n i j (0%nat, 0%nat)) as [B E']; [lia|lia|].
    assert (Q : k = (length (tril_indices i n) + j)%nat).
    { apply (proj1 (NoDup_nth (tril_indices n n) (0%nat, 0%nat)) (tril_NoDup n n) _ _ Hk B). rewrite P, E'. reflexivity. }
    rewrite Q. pose proof (LM i j ltac:(lia) ltac:(lia)) as M. rewrite (E i j) in M by lia. split; [exact (eq_sym (f_equal fst M))|exact (eq_sym (f_equal snd M))].
  - intros C i j Hi Hj. destruct (lt_eq_lt_dec i j) as [[Lt|Eq]|Gt].
    + destruct FL as (_ & T & _). rewrite (T i j) by lia. unfold lower_matrix. destruct (Nat.eqb_spec i j); [lia|]. destruct (Nat.ltb_spec j i); [lia|reflexivity].
    + subst j. unfold lower_matrix. rewrite Nat.eqb_refl, chol_vec_diag by exact Hi. symmetry. apply (diag_entry n A); assumption.
    + rewrite LM by lia. destruct (tril_nth n n i j (0%nat, 0%nat)) as [B E']; [lia|lia|]. destruct (N1 _ B i j E') as [A1 A2]. destruct (C _ B) as [B1 B2]. rewrite B1, B2, A1, A2. apply CC_eq; reflexivity.
Qed.
Lemma lower_matrix_lower n L A : cholesky_factor n A L ->
  (forall i j, i < j -> j < n -> lower_matrix n (chol_vec n n L) i j = 0) /\ (forall i, i < n -> snd (lower_matrix n (chol_vec n n L) i i) = 0%R /\ (0 < fst (lower_matrix n (chol_vec n n L) i i))%R).
Proof.
  intros (_ & _ & P). split.
  - intros i j H Hj. unfold lower_matrix. destruct (Nat.eqb_spec i j); [lia|]. destruct (Nat.ltb_spec j i); [lia|reflexivity].
  - intros i Hi. unfold lower_matrix. rewrite Nat.eqb_refl, chol_vec_diag by exact Hi. split; [reflexivity|]. apply P, Hi.
Qed.
Lemma scaled_factor n A F L (t : R) : 1 <= n -> (0 < t)%R -> cholesky_factor n A L ->
  (forall i j, i < j -> j < n -> F i j = 0) -> (forall i, i < n -> F i i = L i i) ->
  eqm n n (fun i j => A i j * ((t, 0%R) : CC)) (mm n F (adj F)) -> eqm n n F L.
Proof.
  intros Hn T0 (EL & TL & PL) TF DF E.
  assert (F1 : cholesky_factor n (fun i j => A i j * ((t, 0%R) : CC)) F). { split; [exact E|]. split; [exact TF|]. intros i Hi. rewrite DF by exact Hi. apply PL, Hi. }
  assert (SQ : (sqrt t * sqrt t = t)%R) by (apply sqrt_sqrt; lra). pose proof (sqrt_lt_R0 t T0) as SP.
  assert (F2 : cholesky_factor n (fun i j => A i j * ((t, 0%R) : CC)) (fun i j => ((sqrt t, 0%R) : CC) * L i j)).
  { split; [|split].
    - intros i j Hi Hj. rewrite (EL i j Hi Hj). unfold mm, adj. rewrite <- bsum_mul_r. apply bsum_ext. intros k Hk. change ((t, 0%R) : CC) with (rc t). change ((sqrt t, 0%R) : CC) with (rc (sqrt t)). rewrite sconj_mul. replace ((rc (sqrt t))^*) with (rc (sqrt t)) by (apply CC_eq; cbn; ring). rewrite <- SQ at 1. rewrite <- rc_mul. ring.
    - intros i j H Hj. rewrite (TL i j H Hj). ring.
    - intros i Hi. destruct (PL i Hi) as [I P]. cbn. rewrite I. split; [ring|]. nra. }
  pose proof (cholesky_unique n _ _ _ F1 F2) as U. assert (S1 : sqrt t = 1%R).
  { specialize (U 0%nat 0%nat ltac:(lia) ltac:(lia)). rewrite DF in U by lia. destruct (PL 0%nat ltac:(lia)) as [I P]. apply (f_equal fst) in U. cbn in U. rewrite I in U. nra. }
  intros i j Hi Hj. rewrite (U i j Hi Hj), S1. apply CC_eq; cbn; ring.
Qed.
Theorem chol_exactly cholesky rho n L : cholesky_contract cholesky -> 1 <= n -> mr rho = n -> mc rho = n -> tr n (me rho) = 1 -> cholesky_factor n (me rho) L ->
  exists rho', chol_vec_from_rho cholesky rho n None = Ok (chol_vec n n L) /\ chol_rho_from_vec (chol_vec n n L) n None = Ok rho' /\ mr rho' = n /\ mc rho' = n /\ density n (me rho') /\
    normalises n n (lower_matrix n (chol_vec n n L)) (me rho') /\
    (eqm n n (me rho') (me rho) <-> eqm n n (lower_matrix n (chol_vec n n L)) L).
Proof.
  intros CC0 Hn R1 C1 TR FL. destruct (chol_vec_value cholesky rho n None CC0 R1 C1 (factor_positive _ _ _ FL)) as (M & FM & V); [cbn; lia|cbn; lia|]. cbn [rank_of] in V.
  pose proof (cholesky_unique n _ _ _ FM FL) as U.
  assert (EV : chol_vec n n M = chol_vec n n L).
  { unfold chol_vec, entry_list. rewrite !map_map. f_equal; [|f_equal].
    - apply map_ext_in. intros i Hi. apply in_seq in Hi. rewrite (U i i) by lia. reflexivity.
    - apply map_ext_in. intros [i j] H. apply tril_In in H. cbn [fst snd]. rewrite (U i j) by lia. reflexivity.
    - apply map_ext_in. intros [i j] H. apply tril_In in H. cbn [fst snd]. rewrite (U i j) by lia. reflexivity. }
  rewrite EV in V. destruct (lower_matrix_lower n L _ FL) as [TF PF].
  destruct (chol_density (chol_vec n n L) n None) as (rho' & E' & R' & C' & D' & _ & N').
  { cbn; lia. } { cbn; lia. } { cbn [rank_of]. rewrite (chol_count n n) by lia. rewrite chol_vec_length, tril_lower. reflexivity. }
  { exists (fst (L 0%nat 0%nat)). split; [|destruct FL as (_ & _ & P); destruct (P 0%nat ltac:(lia)); lra]. rewrite <- (chol_vec_diag n n L 0) by lia. apply nth_In. rewrite chol_vec_length. lia. }
  cbn [rank_of] in N'. exists rho'. split; [exact V|]. split; [exact E'|]. split; [exact R'|]. split; [exact C'|]. split; [exact D'|]. split; [exact N'|]. split.
  - intros Q. destruct N' as (t & T0 & _ & EQ). apply (scaled_factor n (me rho) _ L t Hn T0 FL TF).
    + intros i Hi. unfold lower_matrix. rewrite Nat.eqb_refl, chol_vec_diag by exact Hi. symmetry. apply (diag_entry n (me rho)); assumption.
    + intros i j Hi Hj. rewrite <- (EQ i j Hi Hj). rewrite (Q i j Hi Hj). reflexivity.
  - intros Q. destruct (chol_round_if n None L (me rho) Hn eq_refl FL TR Q) as (r2 & E2 & _ & _ & Q2). rewrite E' in E2. injection E2 as <-. exact Q2.
Qed.
