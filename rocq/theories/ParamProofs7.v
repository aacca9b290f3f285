(** Every density matrix of rank at most r is described by a vector inside the bounds. *)
From Verif Require Import Py Scalar PauliModel PauliSpec EncoderProofs EighExists Spectral SpectralProofs KrausSpec KrausProofs KrausProofs2 KrausProofs6 ChoiSpec ChoiProofs2 ChoiProofs3
  ParamModel ParamSpec ParamProofs ParamProofs2 ParamProofs3 ParamProofs4 ParamProofs5 ParamProofs6 ParamExists.
From Coq Require Import Reals Lra.
From Coq Require String.
Import String.StringSyntax.
Delimit Scope string_scope with string.
Open Scope nat_scope.
Open Scope K_scope.
Add Ring CCring39 : (s_rt CC).

Lemma unitary_eye d : unitary d (eye : array CC).
Proof.
  split; intros i j Hi Hj; unfold mm, adj.
  - rewrite (bsum_one d i); [|exact Hi|intros k _ N; unfold eye; destruct (Nat.eqb_spec k i); [contradiction|rewrite sconj_0; ring]]. unfold eye at 1. rewrite Nat.eqb_refl, sconj_1. ring.
  - rewrite (bsum_one d i); [|exact Hi|intros k _ N; unfold eye; destruct (Nat.eqb_spec i k); [congruence|ring]]. unfold eye. rewrite Nat.eqb_refl, (Nat.eqb_sym j i). destruct (Nat.eqb i j); rewrite ?sconj_1, ?sconj_0; ring.
Qed.
Lemma app_nth2_plus_len (u v : list R) k n d : length u = n -> nth (n + k) (u ++ v) d = nth k v d.
Proof. intros <-. rewrite app_nth2 by lia. f_equal. lia. Qed.
(** ** a unitary with a given first column *)
Lemma complete d u : 0 < d -> dot d u u = 1 -> exists V, unitary d V /\ forall i, i < d -> V i 0%nat = u i.
Proof.
  intros Hd Hu. assert (G : forall m, m <= d -> 0 < m -> exists V : array CC, (forall a b, a < m -> b < m -> dot d (fun i => V i a) (fun i => V i b) = eye a b) /\ forall i, i < d -> V i 0%nat = u i).
  { induction m as [|m IH]; intros Hm H0; [lia|]. destruct m as [|m].
    - exists (fun i _ => u i). split; [|reflexivity]. intros a b Ha Hb. destruct a as [|a]; [|lia]. destruct b as [|b]; [|lia]. exact Hu.
    - destruct IH as (V & ON & E); [lia|lia|]. destruct (candidate_exists d (S m) V ON ltac:(lia)) as (v & Fv & Nv).
      exists (fun i t => if Nat.eqb t (S m) then v i else V i t). split.
      + intros a b Ha Hb. destruct (Nat.eqb_spec a (S m)) as [->|Na], (Nat.eqb_spec b (S m)) as [->|Nb].
        * unfold eye. rewrite Nat.eqb_refl. change (dot d v v = 1). rewrite dot_self_re. unfold norm2 in Nv. rewrite Nv. reflexivity.
        * rewrite <- dot_conj. change (fun i => v i) with v. rewrite (Fv b) by lia. unfold eye. destruct (Nat.eqb_spec (S m) b); [lia|]. apply sconj_0.
        * change (fun i => v i) with v. rewrite (Fv a) by lia. unfold eye. destruct (Nat.eqb_spec a (S m)); [lia|reflexivity].
        * apply ON; lia.
      + intros i Hi. cbn [Nat.eqb]. apply E, Hi. }
  destruct (G d (Nat.le_refl d) Hd) as (V & ON & E). exists V. split; [apply orthonormal_unitary, ON|exact E].
Qed.
Lemma row_unitary d (b : nat -> CC) : 0 < d -> exists U x, unitary d U /\ (0 <= x)%R /\ bsum d (fun k => b k * U k 0%nat) = rc x /\ forall j, 0 < j -> j < d -> bsum d (fun k => b k * U k j) = 0.
Proof.
  intros Hd. set (w := fun k => (b k)^*). pose proof (dot_self_nonneg d w) as P. destruct (Req_EM_T (fst (dot d w w)) 0) as [Z|N].
  - exists eye, 0%R. assert (B : forall k, k < d -> b k = 0). { intros k Hk. pose proof (dot_self_zero d w Z k Hk) as E. unfold w in E. rewrite <- (sconj_conj (b k)), E. apply sconj_0. }
    split; [apply unitary_eye|]. split; [lra|]. rewrite rc_0. split; [|intros j _ _]; apply bsum_zero; intros k Hk; rewrite (B k Hk); ring.
  - set (q := fst (dot d w w)) in *. assert (Q0 : (0 < q)%R) by lra. pose proof (sqrt_sqrt q (Rlt_le _ _ Q0)) as S2. pose proof (sqrt_lt_R0 q Q0) as S1.
    set (u := fun k => w k * rc (/ sqrt q)).
    assert (Hu : dot d u u = 1). { unfold u. rewrite dot_scale_r, dot_scale_l, dot_self_re. fold q. rewrite rc_conj, !rc_mul. replace (/ sqrt q * q * / sqrt q)%R with 1%R; [reflexivity|]. clear -S1 S2. set (z := sqrt q) in *. clearbody z. rewrite <- S2. field. lra. }
    destruct (complete d u Hd Hu) as (V & UV & E). exists V, (sqrt q). split; [exact UV|]. split; [lra|].
    assert (F : forall j, j < d -> bsum d (fun k => b k * V k j) = rc (sqrt q) * eye 0%nat j).
    { intros j Hj. destruct UV as [U1 _]. rewrite <- (U1 0%nat j Hd Hj). unfold mm, adj. rewrite <- bsum_mul_l. apply bsum_ext; intros k Hk. rewrite (E k Hk). unfold u, w. rewrite sconj_mul, rc_conj, sconj_conj.
      transitivity (rc (sqrt q) * rc (/ sqrt q) * b k * V k j); [|ring]. rewrite rc_mul, Rinv_r by lra. change (rc 1) with (1 : CC). ring. }
    split; [rewrite (F 0%nat Hd); unfold eye; cbn [Nat.eqb]; ring|]. intros j Hj0 Hj. rewrite (F j Hj). unfold eye. destruct (Nat.eqb_spec 0 j); [lia|ring].
Qed.
Lemma gram_unitary_r n r (B U : array CC) : unitary r U -> eqm n n (mm r (mm r B U) (adj (mm r B U))) (mm r B (adj B)).
Proof.
  intros [_ U2] i j Hi Hj. unfold mm at 1. transitivity (bsum r (fun t => bsum r (fun k => bsum r (fun l => B i k * (U k t * (U l t)^* ) * (B j l)^* )))).
  - apply bsum_ext; intros t Ht. unfold adj, mm. rewrite bsum_conj, <- bsum_mul_r. apply bsum_ext; intros k Hk. rewrite <- bsum_mul_l. apply bsum_ext; intros l Hl. rewrite sconj_mul. ring.
  - rewrite bsum_swap. unfold mm, adj. apply bsum_ext; intros k Hk. rewrite bsum_swap.
    transitivity (bsum r (fun l => B i k * eye k l * (B j l)^* )).
    + apply bsum_ext; intros l Hl. rewrite <- (U2 k l Hk Hl). unfold mm, adj. rewrite bsum_mul_r, bsum_mul_l. reflexivity.
    + rewrite (bsum_one r k); [|exact Hk|]; [unfold eye; rewrite Nat.eqb_refl; ring|]. intros l _ N. unfold eye. destruct (Nat.eqb_spec k l); [congruence|ring].
Qed.
Lemma bsum_front n (f : nat -> CC) : bsum (S n) f = f 0%nat + bsum n (fun i => f (S i)).
Proof. change (S n) with (1 + n)%nat. rewrite bsum_split. cbn [bsum]. f_equal. ring. Qed.
(** ** a lower triangular factor of the same shape *)
Lemma lower_factor r : forall n (B : array CC), exists L : array CC, (forall i j, i < j -> L i j = 0) /\ (forall i, (0 <= fst (L i i))%R /\ snd (L i i) = 0%R) /\ eqm n n (mm r L (adj L)) (mm r B (adj B)).
Proof.
  assert (Zr : (0 <= fst (s0 : CC))%R /\ snd (s0 : CC) = 0%R) by (cbn; lra).
  induction r as [|r IH]; intros n B.
  - exists (fun _ _ => 0). split; [reflexivity|]. split; [intros _; exact Zr|]. intros i j _ _. reflexivity.
  - destruct n as [|n]. { exists (fun _ _ => 0). split; [reflexivity|]. split; [intros _; exact Zr|]. intros i j Hi. lia. }
    destruct (row_unitary (S r) (B 0%nat) ltac:(lia)) as (U & x & UU & X0 & F0 & Fj). set (C := mm (S r) B U).
    destruct (IH n (fun i j => C (S i) (S j))) as (L & LT & LD & LG).
    exists (fun i j => match i, j with O, O => rc x | O, S _ => 0 | S i, O => C (S i) 0%nat | S i, S j => L i j end). split; [|split].
    + intros [|i] [|j] Hij; try lia; [reflexivity|]. apply LT. lia.
    + intros [|i]; [cbn; auto|apply LD].
    + assert (C0 : C 0%nat 0%nat = rc x) by exact F0. assert (Cj : forall j, j < r -> C 0%nat (S j) = 0) by (intros j Hj; apply (Fj (S j)); lia).
      apply (eqm_trans _ _ _ (mm (S r) C (adj C))); [|apply gram_unitary_r, UU]. intros i j Hi Hj. unfold mm at 1 2. rewrite !bsum_front. destruct i as [|i], j as [|j]; unfold adj.
      * rewrite C0. f_equal. apply bsum_ext; intros k Hk. rewrite (Cj k Hk). ring.
      * rewrite C0. f_equal. apply bsum_ext; intros k Hk. rewrite (Cj k Hk). ring.
      * rewrite C0. f_equal. apply bsum_ext; intros k Hk. rewrite (Cj k Hk), sconj_0. ring.
      * f_equal. exact (LG i j ltac:(lia) ltac:(lia)).
Qed.
(** ** a factor of the right width *)
Lemma rank_factor n r A : psd n A -> rank_at_most n r A -> r <= n -> exists B, eqm n n A (mm r B (adj B)).
Proof.
  intros P RK Hr. destruct (sorted_spectral n A (psd_hermitian n A P)) as (e & V & ED & Srt). pose proof (psd_eig n A V e ED P) as Pe. pose proof (rank_eigs n r A e V P RK ED Srt) as Z.
  set (k := (n - r)%nat) in *. exists (fun i t => V i (k + t)%nat * rc (sqrt (e (k + t)%nat))). intros i j Hi Hj. rewrite (entry_form n A V e ED i j Hi Hj). replace n with (k + r)%nat at 1 by lia. rewrite bsum_split.
  rewrite (bsum_zero k); [|intros t Ht; rewrite Z by lia; change (rc 0) with (0 : CC); ring].
  unfold mm, adj. transitivity (bsum r (fun s => V i (k + s)%nat * rc (e (k + s)%nat) * (V j (k + s)%nat)^* )); [ring|]. apply bsum_ext; intros s Hs. rewrite sconj_mul, rc_conj.
  transitivity (V i (k + s)%nat * (rc (sqrt (e (k + s)%nat)) * rc (sqrt (e (k + s)%nat))) * (V j (k + s)%nat)^* ); [|ring]. rewrite rc_mul, sqrt_sqrt by (apply Pe; lia). reflexivity.
Qed.
Lemma diag_le n A i : density n A -> i < n -> (0 <= fst (A i i) <= 1)%R.
Proof.
  intros (_ & P & T) Hi. assert (D0 : forall j, j < n -> (0 <= fst (A j j))%R).
  { intros j Hj. destruct (P (fun k => eye k j)) as (x & X0 & E). rewrite (bsum_one n j) in E; [|exact Hj|].
    - rewrite (bsum_one n j) in E; [|exact Hj|].
      + unfold eye in E. rewrite Nat.eqb_refl, sconj_1 in E. replace (A j j) with (1 * A j j * 1) by ring. rewrite E. exact X0.
      + intros k _ N. unfold eye. destruct (Nat.eqb_spec k j); [contradiction|ring].
    - intros k _ N. apply bsum_zero. intros l _. unfold eye. destruct (Nat.eqb_spec k j); [contradiction|]. rewrite sconj_0. ring. }
  split; [apply D0, Hi|]. unfold tr in T. pose proof (bsum_fst_ge n (fun i => A i i) D0 i Hi) as B. cbn beta in B. rewrite T in B. exact B.
Qed.
Lemma factor_bound n r A B i k : density n A -> eqm n n A (mm r B (adj B)) -> i < n -> k < r -> (-1 <= fst (B i k) <= 1)%R /\ (-1 <= snd (B i k) <= 1)%R.
Proof.
  intros D E Hi Hk. pose proof (diag_le n A i D Hi) as [_ H]. rewrite (E i i Hi Hi), gram_entry in H.
  pose proof (norm2_coord r (fun k => (B i k)^* ) k Hk) as N. unfold norm2 in N. set (q := fst (dot r _ _)) in *. change (fst ((B i k)^* )) with (fst (B i k)) in N. change (snd ((B i k)^* )) with (- snd (B i k))%R in N.
  split; split; nra.
Qed.
Lemma product_scaled n r (A rho : array CC) t : (0 < t)%R -> tr n rho = 1 -> eqm n n (mm r A (adj A)) (fun i j => rho i j * rc t) ->
  exists rho', normalised_product (MA n r A) = Ok rho' /\ mr rho' = n /\ mc rho' = n /\ eqm n n (me rho') rho.
Proof.
  intros T0 TR E. assert (T : tr n (mm r A (adj A)) = rc t). { rewrite (tr_eqm n _ _ E). unfold tr in *. rewrite bsum_mul_r, TR. ring. }
  unfold normalised_product, np_dot, np_dagger. cbn [mc mr me]. rewrite Nat.eqb_refl. cbn [bind mr mc me]. rewrite T, cmod_rc by lra.
  destruct (Req_EM_T t 0) as [Z|N]; [lra|]. eexists. split; [reflexivity|]. cbn [mr mc me]. repeat split. intros i j Hi Hj. rewrite cdiv_scale by exact N. rewrite (E i j Hi Hj).
  transitivity (rho i j * (rc t * rc (/ t))); [ring|]. rewrite rc_mul, Rinv_r by exact N. change (rc 1) with (1 : CC). ring.
Qed.

(** ** the three parameterisations *)
Lemma Forall2_repeat_bounds (v : list R) (lo hi : R) k : length v = k -> Forall (fun x => (lo <= x <= hi)%R) v -> Forall2 (fun x b => (fst b <= x <= snd b)%R) v (repeat (lo, hi) k).
Proof. intros <-. apply repeat_bounds. Qed.
Theorem std_within n rho : mr rho = n -> mc rho = n -> density n (me rho) -> exists vec, std_vec_from_rho rho n = Ok vec /\ Forall2 (fun x b => (fst b <= x <= snd b)%R) vec (std_bounds n).
Proof.
  intros R1 C1 D. exists (flat_map (enc (me rho)) (upper_pairs n)). split; [apply std_vec_value; assumption|]. unfold std_bounds. apply Forall2_repeat_bounds.
  - rewrite flat_enc_length, total_upper. unfold std_numb_variables. cbn. lia.
  - apply Forall_flat_map. apply Forall_forall. intros [i j] H. apply upper_In in H. pose proof D as (HH & P & T). destruct (square_root_exists n (me rho) P) as (S & HS & _ & ES).
    assert (G : eqm n n (me rho) (mm n S (adj S))). { apply (eqm_trans _ _ _ (mm n S S)); [apply eqm_sym, ES|]. intros a b Ha Hb. apply bsum_ext. intros k Hk. f_equal. symmetry. apply HS; assumption. }
    assert (B : (-1 <= fst (me rho i j) <= 1)%R /\ (-1 <= snd (me rho i j) <= 1)%R).
    { rewrite (G i j) by lia. pose proof (diag_le n (me rho) i D ltac:(lia)) as [_ Bi]. pose proof (diag_le n (me rho) j D ltac:(lia)) as [_ Bj]. rewrite (G i i) in Bi by lia. rewrite (G j j) in Bj by lia. clear -Bi Bj.
      assert (X : forall m, (2 * fst (mm m S (adj S) i j) <= fst (mm m S (adj S) i i) + fst (mm m S (adj S) j j))%R /\ (- (2 * fst (mm m S (adj S) i j)) <= fst (mm m S (adj S) i i) + fst (mm m S (adj S) j j))%R /\
         (2 * snd (mm m S (adj S) i j) <= fst (mm m S (adj S) i i) + fst (mm m S (adj S) j j))%R /\ (- (2 * snd (mm m S (adj S) i j)) <= fst (mm m S (adj S) i i) + fst (mm m S (adj S) j j))%R).
      { induction m as [|m IH]; [cbn; lra|]. unfold mm in *. cbn [bsum]. rewrite !fst_add, !snd_add. unfold adj in *. set (x1 := bsum m (fun l => S i l * (S j l)^* )) in *. set (x2 := bsum m (fun l => S i l * (S i l)^* )) in *. set (x3 := bsum m (fun l => S j l * (S j l)^* )) in *. clearbody x1 x2 x3.
        destruct (S i m) as [a b], (S j m) as [c e]. cbn. pose proof (Rle_0_sqr (a - c)). pose proof (Rle_0_sqr (b - e)). pose proof (Rle_0_sqr (a + c)). pose proof (Rle_0_sqr (b + e)).
        pose proof (Rle_0_sqr (b - c)). pose proof (Rle_0_sqr (a + e)). pose proof (Rle_0_sqr (b + c)). pose proof (Rle_0_sqr (a - e)). unfold Rsqr in *. lra. }
      specialize (X n). lra. }
    unfold enc. cbn [fst snd]. destruct B as [B1 B2]. destruct (Nat.eqb i j); repeat (apply Forall_cons; [assumption|]); apply Forall_nil.
Qed.
Theorem over_reaches n r rho : density n rho -> rank_at_most n r rho -> r <= n ->
  exists vec rho', Forall2 (fun x b => (fst b <= x <= snd b)%R) vec (over_bounds n r) /\ over_rho_from_vec vec n (Some r) = Ok rho' /\ mr rho' = n /\ mc rho' = n /\ eqm n n (me rho') rho.
Proof.
  intros D RK Hr. pose proof D as (_ & P & TR). destruct (rank_factor n r rho P RK Hr) as (B & EB).
  set (a := flat_map (fun i => map (fun j => B i j) (seq 0 r)) (seq 0 n)). assert (La : length a = (n * r)%nat) by apply flat_rows_length. set (vec := flat_map two a).
  assert (Lv : (length vec = 2 * r * n)%nat) by (unfold vec; rewrite flat_two_length, La; lia). exists vec.
  unfold over_rho_from_vec, over_rank. rewrite (proj2 (Nat.leb_le _ _) Hr), (proj2 (Nat.eqb_eq _ _) Lv). cbn [assert_ bind]. rewrite (over_tail vec n r Lv). set (A := fun i j => nth (i * r + j) _ _).
  assert (EA : eqm n r A B).
  { intros i j Hi Hj. unfold A. rewrite (tail_entry vec n r i j Hi Hj). unfold matrix_of_pairs, vec. destruct (flat_two_nth a (i * r + j)) as [-> ->].
    rewrite <- surjective_pairing. unfold a. rewrite (flat_rows_nth (fun i j => B i j)) by assumption. reflexivity. }
  assert (G : eqm n n (mm r A (adj A)) rho) by (apply (eqm_trans _ _ _ _ _ (gram_congr n r _ _ EA)), eqm_sym, EB).
  destruct (product_trace_one n r A) as (rho' & E' & R' & C' & Q'). { rewrite (tr_eqm n _ _ G). exact TR. }
  exists rho'. split; [|split; [exact E'|split; [exact R'|split; [exact C'|apply (eqm_trans _ _ _ _ _ Q' G)]]]].
  unfold over_bounds. apply Forall2_repeat_bounds; [exact Lv|]. unfold vec, a. apply Forall_flat_map, Forall_flat_map, Forall_forall. intros i Hi. apply in_seq in Hi. apply Forall_map, Forall_forall. intros j Hj. apply in_seq in Hj.
  destruct (factor_bound n r rho B i j D EB ltac:(lia) ltac:(lia)). repeat (apply Forall_cons; [assumption|]); apply Forall_nil.
Qed.
Theorem chol_reaches n rank rho lo hi : density n rho -> 1 <= rank_of rank n -> rank_of rank n <= n -> rank_at_most n (rank_of rank n) rho -> (lo < 0 < hi)%R ->
  exists vec rho', Forall2 (fun x b => (fst b <= x <= snd b)%R) vec (chol_bounds n (rank_of rank n) lo hi) /\ chol_rho_from_vec vec n rank = Ok rho' /\ mr rho' = n /\ mc rho' = n /\ eqm n n (me rho') rho.
Proof.
  intros D H1 Hr RK LH. pose proof D as (_ & P & TR). destruct (rank_factor n _ rho P RK Hr) as (B & EB). destruct (lower_factor (rank_of rank n) n B) as (L & LT & LD & LG).
  assert (EL : eqm n n rho (mm (rank_of rank n) L (adj L))) by (apply (eqm_trans _ _ _ _ _ EB), eqm_sym, LG). clear B EB LG. set (s := Rmin hi (- lo)).
  assert (S0 : (0 < s <= hi /\ s <= - lo)%R) by (unfold s; pose proof (Rmin_l hi (- lo)); pose proof (Rmin_r hi (- lo)); pose proof (Rmin_glb_lt hi (- lo) 0 ltac:(lra) ltac:(lra)); lra).
  set (M := fun i j => L i j * rc s). set (vec := map (fun i => fst (M i i)) (seq 0 (rank_of rank n)) ++ flat_map two (entry_list M (tril_indices n (rank_of rank n)))).
  assert (LV : (length vec = rank_of rank n + 2 * length (tril_indices n (rank_of rank n)))%nat) by (unfold vec, entry_list; rewrite app_length, flat_two_length, !map_length, seq_length; reflexivity).
  destruct (chol_head vec n rank H1 Hr) as (F & EF & V). { rewrite (chol_count n _ Hr), <- tril_lower. lia. }
  assert (MB : forall i j, i < n -> j < rank_of rank n -> (- s <= fst (M i j) <= s)%R /\ (- s <= snd (M i j) <= s)%R).
  { intros i j Hi Hj. destruct (factor_bound n _ rho L i j D EL Hi Hj) as [B1 B2]. unfold M. destruct (L i j) as [a b]. cbn in *. split; split; nra. }
  assert (EM : eqm n (rank_of rank n) (lower_matrix (rank_of rank n) vec) M).
  { intros i j Hi Hj. unfold lower_matrix, vec. destruct (Nat.eqb_spec i j) as [->|N].
    - rewrite app_nth1 by (rewrite map_length, seq_length; exact Hj). rewrite (nth_indep _ _ (fst (M 0%nat 0%nat))) by (rewrite map_length, seq_length; exact Hj). rewrite (map_nth (fun i => fst (M i i))), seq_nth by exact Hj. cbn [plus].
      apply CC_eq; [reflexivity|]. cbn [snd]. unfold M. destruct (LD j) as [_ E]. destruct (L j j) as [a b]. cbn in *. subst b. ring.
    - destruct (Nat.ltb_spec j i) as [Hji|Hij].
      + rewrite <- tril_lower. destruct (tril_nth n (rank_of rank n) i j (0%nat, 0%nat)) as [Bd E]; [lia|exact Hj|]. set (p := (length (tril_indices i (rank_of rank n)) + j)%nat) in *. cbv zeta.
        rewrite <- (Nat.add_assoc (rank_of rank n)). rewrite !app_nth2_plus_len by (rewrite map_length, seq_length; reflexivity).
        destruct (flat_two_nth (entry_list M (tril_indices n (rank_of rank n))) p) as [-> ->]. rewrite <- surjective_pairing. unfold entry_list.
        rewrite (nth_indep _ _ (M (fst (0%nat, 0%nat)) (snd (0%nat, 0%nat)))) by (rewrite map_length; exact Bd). rewrite (map_nth (fun p => M (fst p) (snd p))), E. reflexivity.
      + unfold M. rewrite LT by lia. change ((0, 0)%R : CC) with (s0 : CC). ring. }
  assert (G : eqm n n (mm (rank_of rank n) F (adj F)) (fun i j => rho i j * rc (s * s))).
  { apply (eqm_trans _ _ _ _ _ (gram_congr n _ _ _ (eqm_trans _ _ _ _ _ EF EM))). intros i j Hi Hj. rewrite (EL i j Hi Hj). unfold mm, adj, M. rewrite <- bsum_mul_r. apply bsum_ext; intros k _. rewrite sconj_mul, rc_conj, <- rc_mul. ring. }
  destruct (product_scaled n _ F rho (s * s)%R ltac:(nra) TR G) as (rho' & E' & R' & C' & Q'). exists vec, rho'. split; [|rewrite V; auto].
  unfold chol_bounds, vec. apply Forall2_app; apply Forall2_repeat_bounds.
  - rewrite map_length, seq_length. reflexivity.
  - apply Forall_map, Forall_forall. intros i Hi. apply in_seq in Hi. destruct (MB i i ltac:(lia) ltac:(lia)) as [B1 _]. assert (0 <= fst (M i i))%R by (unfold M; destruct (LD i) as [B2 B3]; destruct (L i i); cbn in *; subst; nra). lra.
  - rewrite flat_two_length. unfold entry_list. rewrite map_length, (chol_count n _ Hr), <- tril_lower. lia.
  - unfold entry_list. apply Forall_flat_map, Forall_map, Forall_forall. intros [i j] H. apply tril_In in H. destruct (MB i j ltac:(lia) ltac:(lia)) as [B1 B2]. repeat (apply Forall_cons; [cbn [fst snd]; lra|]); apply Forall_nil.
Qed.

(** ** the normal draws of CholeskyParam *)
Theorem chol_normal (normal uniform : R -> R -> nat -> list R) n r lo hi : draws normal -> 1 <= r -> r <= n -> (0 <= hi)%R ->
  let drawn := normal (hi / 2)%R (hi / 4)%R r in (exists x, In x drawn /\ x <> 0%R) ->
  exists m, (0 < m)%R /\ In m (map Rabs drawn) /\ Forall (fun x => (Rabs x <= m)%R) drawn /\
    chol_random_vectors normal uniform n r "normal"%string lo hi =
      Ok (map (fun x => Rabs x / m)%R drawn ++ normal ((hi - lo) / 2)%R ((hi - lo) / 4)%R (2 * length (strictly_lower n r))%nat).
Proof.
  intros DN H1 Hr Hh drawn NZ. unfold chol_random_vectors. destruct (Rle_dec 0 hi) as [_|Nh]; [|contradiction]. cbn [assert_ bind]. rewrite (chol_count n r Hr). cbn [String.eqb Ascii.eqb Bool.eqb].
  replace (Z.of_nat (r + 2 * length (strictly_lower n r)) - Z.of_nat r)%Z with (Z.of_nat (2 * length (strictly_lower n r))) by lia. rewrite Nat2Z.id. fold drawn.
  assert (MX : forall l x, (x <= fold_left Rmax l x)%R /\ (forall y, In y l -> (y <= fold_left Rmax l x)%R) /\ In (fold_left Rmax l x) (x :: l)).
  { clear. induction l as [|a l IH]; intros x; cbn [fold_left]; [split; [lra|split; [intros y []|left; reflexivity]]|]. destruct (IH (Rmax x a)) as (I1 & I2 & I3). pose proof (Rmax_l x a). pose proof (Rmax_r x a). split; [lra|]. split.
    - intros y [<-|Hy]; [lra|apply I2, Hy].
    - destruct I3 as [E|I3]; [|right; right; exact I3]. rewrite <- E. unfold Rmax. destruct (Rle_dec x a); [right; left|left]; reflexivity. }
  pose proof (DN (hi / 2)%R (hi / 4)%R r) as Ld. fold drawn in Ld. destruct drawn as [|x l]; [cbn in Ld; lia|]. cbn [map np_max bind].
  destruct (MX (map Rabs l) (Rabs x)) as (M1 & M2 & M3). set (m := fold_left Rmax (map Rabs l) (Rabs x)) in *.
  assert (AB : forall y, In y (x :: l) -> (Rabs y <= m)%R) by (intros y [<-|Hy]; [exact M1|apply M2, in_map, Hy]).
  assert (M0 : (0 < m)%R) by (destruct NZ as (y & Iy & Ny); pose proof (AB y Iy); pose proof (Rabs_pos_lt y Ny); lra).
  exists m. split; [exact M0|]. split; [exact M3|]. split; [apply Forall_forall, AB|].
  destruct (Z.leb_spec 0 (Z.of_nat (2 * length (strictly_lower n r)))) as [_|]; [|lia]. cbn [guard bind]. destruct (Req_EM_T m 0); [lra|]. rewrite map_map. reflexivity.
Qed.
