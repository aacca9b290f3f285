(** Properties of the parameterisations of density matrices (PyQCodes/chan/param.py). *)
From Verif Require Import Py Scalar PauliModel PauliSpec EncoderProofs KrausSpec KrausProofs2 ParamModel ParamSpec ParamProofs ParamProofs2 ParamProofs3 ParamProofs4 ParamProofs5 ParamProofs6 ParamExists.
From Coq Require Import Reals Lra.
From Coq Require String.
Import String.StringSyntax.
Delimit Scope string_scope with string.
Open Scope nat_scope.

(** ** C50: StandardBasis is a bijection *)
(** vec -> rho -> vec *)
Theorem C50_vector_round_trip (d : nat) (vec : list R) : length vec = d * d ->
  exists rho, std_rho_from_vec vec d = Ok rho /\ mr rho = d /\ mc rho = d /\ hermitian d (me rho) /\ std_vec_from_rho rho d = Ok vec.
Proof.
  intros L. destruct (std_rho_value vec d L) as (rho & E & R1 & C1 & H & V). exists rho. rewrite (std_vec_value rho d R1 C1), V. auto.
Qed.
Print Assumptions C50_vector_round_trip.
(** rho -> vec -> rho *)
Theorem C50_matrix_round_trip (d : nat) (rho : marr CC) : is_square d rho -> hermitian d (me rho) ->
  exists vec rho', std_vec_from_rho rho d = Ok vec /\ length vec = std_numb_variables d /\ std_rho_from_vec vec d = Ok rho' /\ same_mat rho' rho.
Proof.
  intros [R1 C1] H. exists (flat_map (enc (me rho)) (upper_pairs d)).
  destruct (std_rho_value (flat_map (enc (me rho)) (upper_pairs d)) d) as (rho' & E & R2 & C2 & H2 & V). { rewrite flat_enc_length. apply total_upper. }
  exists rho'. split; [apply std_vec_value; assumption|]. split; [rewrite flat_enc_length, total_upper; unfold std_numb_variables; cbn; lia|]. split; [exact E|]. unfold same_mat. rewrite R1, R2, C1, C2. repeat split. apply herm_enc; assumption.
Qed.
Print Assumptions C50_matrix_round_trip.
(** The order of the variables: row by row along the upper triangle, one variable for a
    diagonal entry, real and imaginary part for the others. *)
Theorem C50_layout (d : nat) (vec : list R) (rho : marr CC) : length vec = d * d -> std_rho_from_vec vec d = Ok rho ->
  (forall i, i < d -> me rho i i = ((nth (i * (2 * d - i)) vec 0%R, 0%R) : CC)) /\
  (forall i j, i < j -> j < d -> me rho i j = ((nth (i * (2 * d - i) + 2 * (j - i) - 1) vec 0%R, nth (i * (2 * d - i) + 2 * (j - i)) vec 0%R) : CC)).
Proof.
  intros L E. destruct (std_rho_value vec d L) as (rho' & E' & _ & _ & H & V). rewrite E in E'. inversion E'; subst rho'. split.
  - intros i Hi. rewrite <- V, std_layout_diag by exact Hi. apply CC_eq; [reflexivity|]. specialize (H i i Hi Hi). unfold adj in H. apply (f_equal snd) in H. cbn in *. lra.
  - intros i j Hij Hj. rewrite <- V. destruct (std_layout_off (me rho) d i j Hij Hj) as [-> ->]. apply surjective_pairing.
Qed.
Print Assumptions C50_layout.
Theorem C50_errors (d : nat) :
  (forall vec, length vec <> d * d -> std_rho_from_vec vec d = Err AssertionError) /\
  (forall rho, ~ is_square d rho -> std_vec_from_rho rho d = Err AssertionError) /\
  length (std_bounds d) = std_numb_variables d.
Proof.
  split; [|split].
  - intros vec N. unfold std_rho_from_vec. destruct (Nat.eqb_spec (length vec) (d * d)); [contradiction|reflexivity].
  - intros rho N. unfold std_vec_from_rho. destruct (Nat.eqb_spec (mr rho) d); [|reflexivity]. destruct (Nat.eqb_spec (mc rho) d); [exfalso; apply N; split; assumption|reflexivity].
  - apply repeat_length.
Qed.
Print Assumptions C50_errors.
Example C50_case : exists rho, std_rho_from_vec [/ 2; / 5; / 10; / 2]%R 2 = Ok rho /\ me rho 0 1 = ((/ 5, / 10)%R : CC) /\ me rho 1 0 = ((/ 5, - / 10)%R : CC).
Proof. eexists. split; [reflexivity|]. cbn [me]. split; apply CC_eq; cbn; lra. Qed.

(** ** C51: OverParam yields density matrices *)
Theorem C51_density (nsize rank : nat) (vec : list R) : rank <= nsize -> length vec = 2 * rank * nsize -> (exists x, In x vec /\ x <> 0%R) ->
  exists rho, over_rho_from_vec vec nsize (Some rank) = Ok rho /\ is_square nsize rho /\
    density nsize (me rho) /\ rank_at_most nsize rank (me rho) /\ normalises nsize rank (matrix_of_pairs rank vec) (me rho).
Proof. intros H L N. destruct (over_density vec nsize rank H L N) as (rho & E & R1 & C1 & R2). exists rho. split; [exact E|]. split; [split; assumption|exact R2]. Qed.
Print Assumptions C51_density.
(** without a rank, the rank is read off the length (and may exceed nsize) *)
Theorem C51_density_no_rank (nsize rank : nat) (vec : list R) : 0 < nsize -> length vec = 2 * rank * nsize -> (exists x, In x vec /\ x <> 0%R) ->
  exists rho, over_rho_from_vec vec nsize None = Ok rho /\ is_square nsize rho /\
    density nsize (me rho) /\ rank_at_most nsize rank (me rho) /\ normalises nsize rank (matrix_of_pairs rank vec) (me rho).
Proof. intros H L N. destruct (over_density_none vec nsize rank H L N) as (rho & E & R1 & C1 & R2). exists rho. split; [exact E|]. split; [split; assumption|exact R2]. Qed.
Print Assumptions C51_density_no_rank.
Theorem C51_errors (nsize : nat) (vec : list R) :
  (forall rank, ~ (rank <= nsize /\ length vec = 2 * rank * nsize) -> over_rho_from_vec vec nsize (Some rank) = Err AssertionError) /\
  (0 < nsize -> (forall rank, length vec <> 2 * rank * nsize) -> over_rho_from_vec vec nsize None = Err (if Nat.even (length vec) then ValueError else IndexError)) /\
  (forall rank, length (over_bounds nsize rank) = over_numb_variables nsize rank /\ over_numb_variables nsize rank = 2 * rank * nsize).
Proof.
  split; [intros; apply over_errors; assumption|]. split; [intros; apply over_errors_none; assumption|]. intros. split; [apply repeat_length|reflexivity].
Qed.
Print Assumptions C51_errors.
Example C51_case : 1 <= 2 /\ length [0; 0; 1; 0]%R = 2 * 1 * 2 /\ exists x, In x [0; 0; 1; 0]%R /\ x <> 0%R.
Proof. split; [lia|]. split; [reflexivity|]. exists 1%R. split; [cbn; auto|lra]. Qed.

(** ** C52: OverParam inverts *)
Theorem C52_round_trip (eigh : marr CC -> (nat -> R) * marr CC) (nsize rank : nat) (rho : marr CC) :
  sorted_eigh eigh -> is_square nsize rho -> rank <= nsize -> density nsize (me rho) -> rank_at_most nsize rank (me rho) ->
  (forall x, eigenvalue nsize (me rho) x -> x <> 0%R -> (/ 100000 <= x)%R) ->
  exists vec rho', over_vec_from_rho eigh rho nsize rank = Ok vec /\ length vec = over_numb_variables nsize rank /\
    over_rho_from_vec vec nsize (Some rank) = Ok rho' /\ same_mat rho' rho.
Proof.
  intros EG [R1 C1] Hr D K E. destruct (over_invert eigh rho nsize rank EG R1 C1 Hr D K E) as (vec & rho' & E1 & L & E2 & R2 & C2 & Q). exists vec, rho'.
  unfold same_mat. rewrite R1, R2, C1, C2. auto 10.
Qed.
Print Assumptions C52_round_trip.
(** |0><0| on one qubit: a density matrix of rank one *)
Definition ket0 : array CC := fun i j => if Nat.eqb i 0 && Nat.eqb j 0 then s1 else s0.
Example C52_case : (exists eigh, sorted_eigh eigh) /\ 1 <= 2 /\ density 2 ket0 /\ rank_at_most 2 1 ket0 /\ (forall x, eigenvalue 2 ket0 x -> x <> 0%R -> (/ 100000 <= x)%R).
Proof.
  split; [exact sorted_eigh_exists|]. split; [lia|]. split; [|split].
  - split; [|split].
    + intros [|[|i]] [|[|j]] Hi Hj; try lia; apply CC_eq; cbn; lra.
    + apply (psd_ext 2 (mm 1 ket0 (adj ket0))); [|apply gram_psd]. intros [|[|i]] [|[|j]] Hi Hj; try lia; apply CC_eq; cbn; lra.
    + apply CC_eq; cbn; lra.
  - exists ket0, ket0. intros [|[|i]] [|[|j]] Hi Hj; try lia; apply CC_eq; cbn; lra.
  - intros x (v & (i & Hi & N) & E) Nx. pose proof (E 0 ltac:(lia)) as E0. pose proof (E 1 ltac:(lia)) as E1.
    assert (V1 : v 1 = s0). { apply (f_equal fst) in E1 as A. apply (f_equal snd) in E1 as B. cbn in A, B. apply CC_eq; cbn; nra. }
    assert (X : x = 1%R).
    { assert (V0 : v 0 <> s0) by (destruct i as [|[|i]]; [exact N|contradiction|lia]). apply (f_equal fst) in E0 as A. apply (f_equal snd) in E0 as B. cbn in A, B. rewrite V1 in A, B. cbn in A, B.
      destruct (Req_EM_T x 1) as [|M]; [assumption|]. exfalso. apply V0. apply CC_eq; cbn; nra. }
    subst. lra.
Qed.

(** ** C53: CholeskyParam yields density matrices and its counts agree *)
Theorem C53_counts (nsize rank : nat) (l_bnd u_bnd : R) : rank <= nsize ->
  chol_numb_variables nsize rank = Z.of_nat (rank + 2 * length (strictly_lower nsize rank)) /\
  Z.of_nat (length (chol_bounds nsize rank l_bnd u_bnd)) = chol_numb_variables nsize rank.
Proof. intros H. split; [apply chol_count, H|apply chol_bounds_length, H]. Qed.
Print Assumptions C53_counts.
(** [rank_of] is the effective rank: nsize when no rank is given *)
Theorem C53_density (nsize : nat) (rank : option nat) (vec : list R) : 1 <= rank_of rank nsize <= nsize ->
  Z.of_nat (length vec) = chol_numb_variables nsize (rank_of rank nsize) -> (exists x, In x vec /\ x <> 0%R) ->
  exists rho, chol_rho_from_vec vec nsize rank = Ok rho /\ is_square nsize rho /\ density nsize (me rho) /\
    rank_at_most nsize (rank_of rank nsize) (me rho) /\ normalises nsize (rank_of rank nsize) (lower_matrix (rank_of rank nsize) vec) (me rho).
Proof.
  intros [H1 H2] L N. destruct (chol_density vec nsize rank H1 H2 L N) as (rho & E & R1 & C1 & R2). exists rho. split; [exact E|]. split; [split; assumption|exact R2].
Qed.
Print Assumptions C53_density.
Theorem C53_errors (nsize : nat) (rank : option nat) (vec : list R) :
  ~ (1 <= rank_of rank nsize <= nsize /\ Z.of_nat (length vec) = chol_numb_variables nsize (rank_of rank nsize)) -> chol_rho_from_vec vec nsize rank = Err AssertionError.
Proof. intros H. apply chol_errors. tauto. Qed.
Print Assumptions C53_errors.
Example C53_case : 1 <= rank_of None 3 <= 3 /\ Z.of_nat (length [1; 0; 2; 0; 0; 0; 5; 0; 0]%R) = chol_numb_variables 3 3 /\ length (strictly_lower 4 2) = 5 /\ chol_numb_variables 4 2 = 12%Z.
Proof. cbn. repeat split; lia. Qed.

(** ** C54: CholeskyParam does not invert *)
(** for every size of at least three there is a state that does not come back, whatever
    numpy.linalg.cholesky does within its contract *)
Theorem C54_refuted (n : nat) : 3 <= n ->
  exists rho, is_square n rho /\ positive_definite n (me rho) /\ tr n (me rho) = s1 /\
    forall cholesky, cholesky_contract cholesky ->
      exists vec rho', chol_vec_from_rho cholesky rho n None = Ok vec /\ chol_rho_from_vec vec n None = Ok rho' /\ ~ eqm n n (me rho') (me rho).
Proof.
  intros H. exists (bad_state n). split; [split; reflexivity|]. split; [apply (factor_positive _ _ _ (bad_is_factor n H))|]. split; [apply bad_trace, H|].
  intros c CC0. apply chol_refuted; [exact H|exact CC0|reflexivity].
Qed.
Print Assumptions C54_refuted.
(** it does for one and two levels *)
Theorem C54_small_partial (cholesky : marr CC -> res (marr CC)) (n : nat) (rho : marr CC) : cholesky_contract cholesky ->
  1 <= n <= 2 -> is_square n rho -> positive_definite n (me rho) -> tr n (me rho) = s1 ->
  exists vec rho', chol_vec_from_rho cholesky rho n None = Ok vec /\ chol_rho_from_vec vec n None = Ok rho' /\ same_mat rho' rho.
Proof.
  intros CC0 Hn [R1 C1] P T. destruct (chol_small cholesky rho n None CC0 R1 C1 P T Hn eq_refl) as (vec & rho' & E1 & E2 & R2 & C2 & Q). exists vec, rho'. unfold same_mat. rewrite R1, R2, C1, C2. auto 10.
Qed.
Print Assumptions C54_small_partial.
(** and for diagonal states of every size *)
Theorem C54_diagonal_partial (cholesky : marr CC -> res (marr CC)) (n : nat) (rho : marr CC) : cholesky_contract cholesky ->
  1 <= n -> is_square n rho -> positive_definite n (me rho) -> tr n (me rho) = s1 -> (forall i j, i < n -> j < n -> i <> j -> me rho i j = s0) ->
  exists vec rho', chol_vec_from_rho cholesky rho n None = Ok vec /\ chol_rho_from_vec vec n None = Ok rho' /\ same_mat rho' rho.
Proof.
  intros CC0 Hn [R1 C1] P T DG. destruct (chol_diagonal cholesky rho n None CC0 R1 C1 P T Hn eq_refl DG) as (vec & rho' & E1 & E2 & R2 & C2 & Q). exists vec, rho'. unfold same_mat. rewrite R1, R2, C1, C2. auto 10.
Qed.
Print Assumptions C54_diagonal_partial.
(** which states come back exactly: the vector lists the diagonal of the Cholesky factor,
    then all the real parts and then all the imaginary parts of its lower entries, and is
    read back as consecutive pairs; the state returned is the one of the factor so read, and
    it is rho only if every pair read is the pair meant *)
Theorem C54_exactly_partial (cholesky : marr CC -> res (marr CC)) (n : nat) (rho : marr CC) (L : array CC) : cholesky_contract cholesky ->
  1 <= n -> is_square n rho -> tr n (me rho) = s1 -> cholesky_factor n (me rho) L ->
  let diagonal := map (fun i => fst (L i i)) (seq 0 n) in
  let reals := map (fun p => fst (L (fst p) (snd p))) (strictly_lower n n) in
  let imags := map (fun p => snd (L (fst p) (snd p))) (strictly_lower n n) in
  exists rho', chol_vec_from_rho cholesky rho n None = Ok (diagonal ++ reals ++ imags) /\
    chol_rho_from_vec (diagonal ++ reals ++ imags) n None = Ok rho' /\ is_square n rho' /\ density n (me rho') /\
    normalises n n (lower_matrix n (diagonal ++ reals ++ imags)) (me rho') /\
    (same_mat rho' rho <->
     forall k, k < length (strictly_lower n n) ->
       nth (2 * k) (reals ++ imags) 0%R = nth k reals 0%R /\ nth (2 * k + 1) (reals ++ imags) 0%R = nth k imags 0%R).
Proof.
  intros CC0 Hn [R1 C1] T FL diagonal reals imags. destruct (chol_exactly cholesky rho n L CC0 Hn R1 C1 T FL) as (rho' & E1 & E2 & R2 & C2 & D & N & Q).
  pose proof (chol_same n L (me rho) FL) as K. unfold chol_vec, entry_list in *. rewrite !map_map, tril_lower in *. fold diagonal reals imags in E1, E2, N, Q, K.
  exists rho'. split; [exact E1|]. split; [exact E2|]. split; [split; assumption|]. split; [exact D|]. split; [exact N|].
  unfold same_mat. rewrite R1, R2, C1, C2. rewrite <- K, <- Q. intuition.
Qed.
Print Assumptions C54_exactly_partial.
(** with a rank below nsize the vector produced is never accepted back *)
Theorem C54_low_rank_partial (cholesky : marr CC -> res (marr CC)) (n rank : nat) (rho : marr CC) (vec : list R) : is_square n rho -> (forall L, cholesky rho = Ok L -> is_square n L) -> rank < n ->
  chol_vec_from_rho cholesky rho n (Some rank) = Ok vec -> chol_rho_from_vec vec n (Some rank) = Err AssertionError.
Proof. intros [R1 C1] SH H E. apply (chol_low_rank cholesky rho n rank vec R1 C1 SH H E). Qed.
Print Assumptions C54_low_rank_partial.
Example C54_case : (exists cholesky, cholesky_contract cholesky) /\
  exists rho : marr CC, is_square 2 rho /\ positive_definite 2 (me rho) /\ tr 2 (me rho) = s1 /\ me rho 1 0 <> s0.
Proof.
  split; [exact cholesky_contract_exists|].
  set (L := (fun i j => match i, j with 0, 0 => (/ 2, 0)%R | 1, 0 => (/ 2, / 2)%R | 1, 1 => (/ 2, 0)%R | _, _ => (0, 0)%R end) : array CC).
  exists (MA 2 2 (mm 2 L (adj L))). cbn [me]. split; [split; reflexivity|]. split; [|split].
  - apply (factor_positive 2 _ L). split; [apply eqm_refl|]. split.
    + intros [|[|i]] [|[|j]] H H'; try lia; reflexivity.
    + intros [|[|i]] H; try lia; cbn; split; lra.
  - apply CC_eq; cbn; lra.
  - intros E. apply (f_equal fst) in E. cbn in E. lra.
Qed.

(** ** C71: random starting vectors have the shape and range the parameterisation asks for *)
Theorem C71_over (normal uniform : R -> R -> nat -> list R) (nsize rank : nat) (dist : String.string) : draws normal -> uniform_draws uniform ->
  match over_random_vectors normal uniform nsize rank dist with
  | Ok v => (dist = "normal"%string \/ dist = "uniform"%string) /\ length v = length (over_bounds nsize rank) /\
            (dist = "uniform"%string -> Forall2 (fun x b => (fst b <= x <= snd b)%R) v (over_bounds nsize rank))
  | Err e => e = TypeError /\ (dist <> "normal"%string /\ dist <> "uniform"%string)
  end.
Proof. exact (over_random normal uniform nsize rank dist). Qed.
Print Assumptions C71_over.
(** the remaining outcome of "normal" is a division by zero, when every drawn diagonal
    entry is zero *)
Theorem C71_cholesky (normal uniform : R -> R -> nat -> list R) (nsize rank : nat) (dist : String.string) (l_bnd u_bnd : R) : draws normal -> uniform_draws uniform ->
  1 <= rank -> rank <= nsize -> (l_bnd <= u_bnd)%R ->
  match chol_random_vectors normal uniform nsize rank dist l_bnd u_bnd with
  | Ok v => (0 <= u_bnd)%R /\ (dist = "normal"%string \/ dist = "uniform"%string) /\ Z.of_nat (length v) = chol_numb_variables nsize rank /\
            (dist = "uniform"%string -> Forall2 (fun x b => (fst b <= x <= snd b)%R) v (chol_bounds nsize rank l_bnd u_bnd))
  | Err AssertionError => ~ (0 <= u_bnd)%R
  | Err TypeError => (0 <= u_bnd)%R /\ (dist <> "normal"%string /\ dist <> "uniform"%string)
  | Err _ => dist = "normal"%string /\ Forall (fun x => x = 0%R) (normal (u_bnd / 2)%R (u_bnd / 4)%R rank)
  end.
Proof. exact (chol_random normal uniform nsize rank dist l_bnd u_bnd). Qed.
Print Assumptions C71_cholesky.
Example C71_case : draws (fun a b k => repeat (a + b)%R k) /\ uniform_draws (fun a b k => repeat ((a + b) / 2)%R k).
Proof.
  split; [intros a b k; apply repeat_length|]. intros a b k. split; [apply repeat_length|]. intros H. apply Forall_forall. intros x Hx. apply repeat_spec in Hx. subst. lra.
Qed.
