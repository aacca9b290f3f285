(** The entropies of flagged mixtures of channels (C122, C123). *)
From Verif Require Import Py Scalar PauliModel PauliSpec EncoderProofs EighExists Spectral SpectralProofs PowerSums KrausModel KrausSpec KrausProofs KrausProofs2 KrausProofs5 KrausProofs6 KrausProofs8 KrausProofs11 KrausProofs12
  ChoiModel ChannelModel ChannelSpec ChoiSpec ChoiProofs ChoiProofs2 ChoiProofs3 Sqrt EntropyProofs EntropySpec Subadd CohProofs CohProofs2 CohProofs3 CohProofs4 Processing ProcessingSpec Processing2 Degradable KnownSpec.
From Coq Require Import Reals Lra.
Open Scope nat_scope.
Open Scope K_scope.
Add Ring CCring58 : (s_rt CC).

Definition dsum (d : nat) (A B : array CC) : array CC :=
  fun i j => if Nat.ltb i d then (if Nat.ltb j d then A i j else 0) else if Nat.ltb j d then 0 else B (i - d)%nat (j - d)%nat.
Definition xlx (x : R) : R := (x * ln x)%R.
Lemma xlx_mul x y : (0 <= x)%R -> (0 <= y)%R -> xlx (x * y) = (y * xlx x + x * xlx y)%R.
Proof.
  intros Hx Hy. unfold xlx. destruct (Req_dec x 0) as [->|Nx]; [rewrite !Rmult_0_l; lra|]. destruct (Req_dec y 0) as [->|Ny]; [rewrite Rmult_0_r, !Rmult_0_l; lra|].
  rewrite ln_mult by lra. ring.
Qed.
Lemma binary_form p : binary_entropy p = (- (xlx p + xlx (1 - p)) / ln 2)%R. Proof. reflexivity. Qed.
Lemma von_of0 d A V e : (forall t, t < d -> (0 <= e t)%R) -> eigen_decomposition d A e V -> von_neumann d A (- rsum d (fun t => xlx (e t)) / ln 2)%R.
Proof.
  intros P E. set (l := map e (seq 0 d)). assert (L : length l = d) by (unfold l; rewrite map_length, seq_length; reflexivity).
  assert (N : forall t, t < d -> nth t l 0%R = e t) by (intros t Ht; unfold l; rewrite (nth_indep _ 0%R (e d)) by (rewrite map_length, seq_length; exact Ht); rewrite map_nth, seq_nth by exact Ht; reflexivity).
  exists l. split.
  - split; [exact L|]. exists V. destruct E as [U H]. split; [exact U|]. intros i t Hi Ht. rewrite N by exact Ht. apply H; assumption.
  - rewrite entropy0.
    + rewrite <- (rsum_list l (fun x => (x * ln x)%R)), L. f_equal. f_equal. apply rsum_ext. intros t Ht. rewrite N by exact Ht. reflexivity.
    + apply Forall_forall. intros x Hx. unfold l in Hx. apply in_map_iff in Hx. destruct Hx as (t & <- & Ht). apply in_seq in Ht. apply P. lia.
Qed.
Lemma ltb_l i d : i < d -> Nat.ltb i d = true. Proof. intros. apply Nat.ltb_lt. assumption. Qed.
Lemma ltb_r d i : Nat.ltb (d + i) d = false. Proof. apply Nat.ltb_ge. lia. Qed.
Lemma minus_r d i : (d + i - d)%nat = i. Proof. lia. Qed.
Lemma dsum_mm d e A B C D : forall i j, i < d + e -> j < d + e -> mm (d + e) (dsum d A B) (dsum d C D) i j = dsum d (mm d A C) (mm e B D) i j.
Proof.
  intros i j Hi Hj. unfold mm at 1. rewrite bsum_split. unfold dsum. destruct (Nat.ltb_spec i d), (Nat.ltb_spec j d).
  - rewrite (bsum_zero e); [|intros k Hk; rewrite ltb_r; ring]. rewrite (bsum_ext d _ (fun k => A i k * C k j)); [unfold mm; ring|]. intros k Hk. rewrite (ltb_l k d Hk). reflexivity.
  - rewrite (bsum_zero e); [|intros k Hk; rewrite ltb_r; ring]. rewrite (bsum_zero d); [ring|]. intros k Hk. rewrite (ltb_l k d Hk). ring.
  - rewrite (bsum_zero e); [|intros k Hk; rewrite ltb_r; ring]. rewrite (bsum_zero d); [ring|]. intros k Hk. rewrite (ltb_l k d Hk). ring.
  - rewrite (bsum_zero d); [|intros k Hk; rewrite (ltb_l k d Hk); ring]. rewrite (bsum_ext e _ (fun k => B (i - d)%nat k * D k (j - d)%nat)); [unfold mm; ring|]. intros k Hk. rewrite ltb_r, minus_r. reflexivity.
Qed.
Lemma dsum_adj d A B i j : adj (dsum d A B) i j = dsum d (adj A) (adj B) i j.
Proof. unfold adj, dsum. destruct (Nat.ltb i d), (Nat.ltb j d); first [reflexivity|apply sconj_0]. Qed.
Lemma dsum_eye d e i j : i < d + e -> j < d + e -> dsum d eye eye i j = eye i j.
Proof.
  intros Hi Hj. unfold dsum, eye. destruct (Nat.ltb_spec i d), (Nat.ltb_spec j d); try reflexivity.
  - destruct (Nat.eqb_spec i j); [lia|reflexivity].
  - destruct (Nat.eqb_spec i j); [lia|reflexivity].
  - destruct (Nat.eqb_spec (i - d) (j - d)), (Nat.eqb_spec i j); try lia; reflexivity.
Qed.
Lemma dsum_ext d e A B A' B' : eqm d d A A' -> eqm e e B B' -> eqm (d + e) (d + e) (dsum d A B) (dsum d A' B').
Proof. intros HA HB i j Hi Hj. unfold dsum. destruct (Nat.ltb_spec i d), (Nat.ltb_spec j d); try reflexivity; [apply HA|apply HB]; lia. Qed.
Lemma dsum_eigen d e A B f g U V : eigen_decomposition d A f U -> eigen_decomposition e B g V ->
  eigen_decomposition (d + e) (dsum d A B) (fun t => if Nat.ltb t d then f t else g (t - d)%nat) (dsum d U V).
Proof.
  intros [[U1 U2] EU] [[V1 V2] EV]. split; [split|].
  - intros i j Hi Hj. rewrite (mm_ext _ _ (dsum d (adj U) (adj V)) _ (dsum d U V)) by (intros; first [apply dsum_adj|reflexivity]). rewrite dsum_mm by assumption.
    rewrite (dsum_ext d e _ _ eye eye U1 V1) by assumption. apply (dsum_eye d e); assumption.
  - intros i j Hi Hj. rewrite (mm_ext _ _ (dsum d U V) _ (dsum d (adj U) (adj V))) by (intros; first [apply dsum_adj|reflexivity]). rewrite dsum_mm by assumption.
    rewrite (dsum_ext d e _ _ eye eye U2 V2) by assumption. apply (dsum_eye d e); assumption.
  - intros i t Hi Ht. rewrite dsum_mm by assumption. unfold dsum. destruct (Nat.ltb_spec i d), (Nat.ltb_spec t d); try ring; [apply EU|apply EV]; lia.
Qed.
Lemma scale_eigen d A e V c : eigen_decomposition d A e V -> eigen_decomposition d (fun i j => rc c * A i j) (fun t => c * e t)%R V.
Proof.
  intros [U E]. split; [exact U|]. intros i t Hi Ht. specialize (E i t Hi Ht). unfold mm in *. rewrite (bsum_ext d _ (fun l => rc c * (A i l * V l t))) by (intros; ring). rewrite bsum_mul_l, E.
  replace (((c * e t)%R, 0%R) : CC) with (rc c * ((e t, 0%R) : CC)) by (apply CC_eq; cbn; ring). ring.
Qed.
(** one of two states with given probabilities, on orthogonal spaces *)
Theorem von_dsum d e A B s t x y : density d A -> density e B -> von_neumann d A s -> von_neumann e B t -> (0 <= x)%R -> (0 <= y)%R -> 
  von_neumann (d + e) (dsum d (fun i j => rc x * A i j) (fun i j => rc y * B i j)) (x * s + y * t - (xlx x + xlx y) / ln 2)%R.
Proof.
  intros DA DB VA VB Hx Hy. destruct (von_form d A s (proj1 (proj2 DA)) VA) as (U & f & EA & ->). destruct (von_form e B t (proj1 (proj2 DB)) VB) as (V & g & EB & ->).
  pose proof (psd_eig d A U f EA (proj1 (proj2 DA))) as NA. pose proof (psd_eig e B V g EB (proj1 (proj2 DB))) as NB.
  pose proof (eig_sum _ _ _ _ EA) as SA. pose proof (eig_sum _ _ _ _ EB) as SB. rewrite (proj2 (proj2 DA)) in SA. rewrite (proj2 (proj2 DB)) in SB. cbn in SA, SB.
  pose proof (von_of0 (d + e) _ _ _ ltac:(intros k Hk; instantiate (1 := fun t => if Nat.ltb t d then (x * f t)%R else (y * g (t - d)%nat)%R); cbv beta; destruct (Nat.ltb_spec k d); [specialize (NA k ltac:(lia))|specialize (NB (k - d)%nat ltac:(lia))]; nra)
    (dsum_eigen d e _ _ _ _ U V (scale_eigen d A f U x EA) (scale_eigen e B g V y EB))) as W. 
  replace (x * (- rsum d (fun t => f t * ln (f t)) / ln 2) + y * (- rsum e (fun t => g t * ln (g t)) / ln 2) - (xlx x + xlx y) / ln 2)%R
    with (- rsum (d + e) (fun t => xlx (if Nat.ltb t d then x * f t else y * g (t - d)%nat)) / ln 2)%R; [exact W|].
  rewrite rsum_split. rewrite (rsum_ext d _ (fun t => xlx x * f t + x * (f t * ln (f t)))%R) by (intros k Hk; rewrite (ltb_l k d Hk), xlx_mul by (try apply NA; assumption); unfold xlx; ring).
  rewrite (rsum_ext e _ (fun t => xlx y * g t + y * (g t * ln (g t)))%R) by (intros k Hk; rewrite ltb_r, minus_r, xlx_mul by (try apply NB; assumption); unfold xlx; ring).
  rewrite !rsum_add, !rsum_scale, SA, SB. pose proof ln2_pos. field. lra.
Qed.
(** ** flagged mixtures *)
Lemma rt_sq x : (0 <= x)%R -> rt x * (rt x)^* = rc x.
Proof. intros H. pose proof (sqrt_sqrt x H) as E. unfold rt. apply CC_eq; cbn; lra. Qed.
Lemma flagged_len q O1 O2 a b : length (flagged q O1 O2 a b) = (length a + length b)%nat.
Proof. unfold flagged. rewrite app_length, !map_length. reflexivity. Qed.
Lemma flagged_fits q O1 O2 D a b : fits O1 D a -> fits O2 D b -> fits (O1 + O2) D (flagged q O1 O2 a b).
Proof.
  intros FA FB. unfold fits, flagged. apply Forall_app. split; apply Forall_forall; intros X HX; apply in_map_iff in HX; destruct HX as (Y & <- & HY).
  - destruct (in_fits _ _ _ _ FA HY) as [E1 E2]. cbn. rewrite E1, E2. split; reflexivity.
  - destruct (in_fits _ _ _ _ FB HY) as [E1 E2]. cbn. rewrite E1, E2. split; reflexivity.
Qed.
Lemma upper_sand O2 x y (A B : marr CC) (rho : array CC) i j : mr A = mr B -> i < mr A + O2 -> j < mr A + O2 ->
  mm (mc B) (mm (mc A) (me (upper O2 x A)) rho) (adj (me (upper O2 y B))) i j =
  if Nat.ltb i (mr A) then if Nat.ltb j (mr A) then rt x * (rt y)^* * mm (mc B) (mm (mc A) (me A) rho) (adj (me B)) i j else 0 else 0.
Proof.
  intros E Hi Hj. unfold mm, adj, upper. cbn [me]. rewrite <- E. destruct (Nat.ltb i (mr A)).
  - destruct (Nat.ltb j (mr A)).
    + rewrite <- bsum_mul_l. apply bsum_ext. intros k Hk. rewrite sconj_mul. rewrite (bsum_ext (mc A) _ (fun l => rt x * (me A i l * rho l k))) by (intros; ring). rewrite bsum_mul_l. ring.
    + apply bsum_zero. intros. rewrite sconj_0. ring.
  - apply bsum_zero. intros k Hk. rewrite (bsum_zero (mc A)) by (intros; ring). ring.
Qed.
Lemma lower_sand O1 x y (A B : marr CC) (rho : array CC) i j : mr A = mr B ->
  mm (mc B) (mm (mc A) (me (lower O1 x A)) rho) (adj (me (lower O1 y B))) i j =
  if Nat.ltb i O1 then 0 else if Nat.ltb j O1 then 0 else rt x * (rt y)^* * mm (mc B) (mm (mc A) (me A) rho) (adj (me B)) (i - O1)%nat (j - O1)%nat.
Proof.
  intros E. unfold mm, adj, lower. cbn [me]. destruct (Nat.ltb i O1).
  - apply bsum_zero. intros k Hk. rewrite (bsum_zero (mc A)) by (intros; ring). ring.
  - destruct (Nat.ltb j O1).
    + apply bsum_zero. intros. rewrite sconj_0. ring.
    + rewrite <- bsum_mul_l. apply bsum_ext. intros k Hk. rewrite sconj_mul. rewrite (bsum_ext (mc A) _ (fun l => rt x * (me A (i - O1)%nat l * rho l k))) by (intros; ring). rewrite bsum_mul_l. ring.
Qed.
Lemma flagged_out q O1 O2 D a b rho : (0 <= q <= 1)%R -> fits O1 D a -> fits O2 D b ->
  eqm (O1 + O2) (O1 + O2) (channel_map (flagged q O1 O2 a b) rho) (dsum O1 (fun i j => rc (1 - q) * channel_map a rho i j) (fun i j => rc q * channel_map b rho i j)).
Proof.
  intros Hq FA FB i j Hi Hj. unfold channel_map, flagged. rewrite map_app, ksum_app, !map_map.
  rewrite (ksum_ext (fun A => mm (mc (upper O2 (1 - q) A)) (mm (mc (upper O2 (1 - q) A)) (me (upper O2 (1 - q) A)) rho) (adj (me (upper O2 (1 - q) A))) i j)
    (fun A => (if Nat.ltb i O1 then if Nat.ltb j O1 then rc (1 - q) else 0 else 0) * mm (mc A) (mm (mc A) (me A) rho) (adj (me A)) i j) a).
  2: { intros A HA. destruct (in_fits _ _ _ _ FA HA) as [E1 E2]. change (mc (upper O2 (1 - q) A)) with (mc A). rewrite upper_sand by (rewrite ?E1; auto). rewrite E1. destruct (Nat.ltb i O1), (Nat.ltb j O1); try ring. rewrite rt_sq by lra. ring. }
  rewrite (ksum_ext (fun A => mm (mc (lower O1 q A)) (mm (mc (lower O1 q A)) (me (lower O1 q A)) rho) (adj (me (lower O1 q A))) i j)
    (fun A => (if Nat.ltb i O1 then 0 else if Nat.ltb j O1 then 0 else rc q) * mm (mc A) (mm (mc A) (me A) rho) (adj (me A)) (i - O1)%nat (j - O1)%nat) b).
  2: { intros A HA. destruct (in_fits _ _ _ _ FB HA) as [E1 E2]. change (mc (lower O1 q A)) with (mc A). rewrite lower_sand by reflexivity. destruct (Nat.ltb i O1), (Nat.ltb j O1); try ring. rewrite rt_sq by lra. ring. }
  rewrite !ksum_mul_l. unfold dsum. destruct (Nat.ltb i O1), (Nat.ltb j O1); ring.
Qed.
Lemma flagged_nth_l q O1 O2 a b i : i < length a -> nth i (flagged q O1 O2 a b) one_by_one = upper O2 (1 - q) (nth i a one_by_one).
Proof.
  intros H. unfold flagged. rewrite app_nth1 by (rewrite map_length; exact H). rewrite (nth_indep _ one_by_one (upper O2 (1 - q) one_by_one)) by (rewrite map_length; exact H). apply map_nth.
Qed.
Lemma flagged_nth_r q O1 O2 a b i : i < length b -> nth (length a + i) (flagged q O1 O2 a b) one_by_one = lower O1 q (nth i b one_by_one).
Proof.
  intros H. unfold flagged. rewrite app_nth2 by (rewrite map_length; lia). rewrite map_length, minus_r. rewrite (nth_indep _ one_by_one (lower O1 q one_by_one)) by (rewrite map_length; exact H). apply map_nth.
Qed.
Lemma cross_zero O1 O2 x y D (A B : marr CC) (rho : array CC) i : mr A = O1 -> mc A = D -> mc B = D -> mr B = O2 ->
  mm D (mm D (me (upper O2 x A)) rho) (adj (me (lower O1 y B))) i i = 0 /\ mm D (mm D (me (lower O1 y B)) rho) (adj (me (upper O2 x A))) i i = 0.
Proof.
  intros E1 E2 E3 E4. unfold mm, adj, upper, lower. cbn [me]. rewrite E1. destruct (Nat.ltb i O1).
  - split; apply bsum_zero; intros k Hk; [rewrite sconj_0; ring|]. rewrite (bsum_zero D) by (intros; ring). ring.
  - split; apply bsum_zero; intros k Hk; [|rewrite sconj_0; ring]. rewrite (bsum_zero D) by (intros; ring). ring.
Qed.
Lemma flagged_env q O1 O2 D a b rho : (0 <= q <= 1)%R -> fits O1 D a -> fits O2 D b ->
  eqm (length a + length b) (length a + length b) (exchange_entry (flagged q O1 O2 a b) rho) (dsum (length a) (fun i j => rc (1 - q) * exchange_entry a rho i j) (fun i j => rc q * exchange_entry b rho i j)).
Proof.
  intros Hq FA FB i j Hi Hj. unfold dsum. destruct (Nat.ltb_spec i (length a)) as [Li|Li]; destruct (Nat.ltb_spec j (length a)) as [Lj|Lj].
  - unfold exchange_entry. rewrite !flagged_nth_l by assumption. destruct (nth_fits _ _ _ i FA Li) as [E1 E2]. destruct (nth_fits _ _ _ j FA Lj) as [E3 E4].
    set (A := nth i a one_by_one) in *. set (B := nth j a one_by_one) in *. change (mr (upper O2 (1 - q) A)) with (mr A + O2)%nat. change (mc (upper O2 (1 - q) A)) with (mc A).
    unfold tr. rewrite bsum_split. rewrite (bsum_zero O2).
    + rewrite <- bsum_mul_l. rewrite (bsum_ext (mr A) _ (fun k => rc (1 - q) * mm (mc A) (mm (mc A) (me A) rho) (adj (me B)) k k)); [ring|]. intros k Hk.
      replace (mc A) with (mc B) at 1 by congruence. rewrite upper_sand by (first [congruence|lia]). rewrite (ltb_l k) by exact Hk. rewrite rt_sq by lra. replace (mc B) with (mc A) by congruence. reflexivity.
    + intros k Hk. replace (mc A) with (mc B) at 1 by congruence. rewrite upper_sand by (first [congruence|lia]). rewrite ltb_r. reflexivity.
  - replace j with (length a + (j - length a))%nat by lia. unfold exchange_entry. rewrite flagged_nth_l by assumption. rewrite flagged_nth_r by lia. destruct (nth_fits _ _ _ i FA Li) as [E1 E2]. destruct (nth_fits _ _ _ (j - length a) FB ltac:(lia)) as [E3 E4].
    apply bsum_zero. intros k Hk. change (mc (upper O2 (1 - q) (nth i a one_by_one))) with (mc (nth i a one_by_one)). rewrite E2. apply (proj1 (cross_zero O1 O2 (1 - q) q D _ _ rho k E1 E2 E4 E3)).
  - replace i with (length a + (i - length a))%nat by lia. unfold exchange_entry. rewrite flagged_nth_r by lia. rewrite flagged_nth_l by assumption. destruct (nth_fits _ _ _ j FA Lj) as [E1 E2]. destruct (nth_fits _ _ _ (i - length a) FB ltac:(lia)) as [E3 E4].
    apply bsum_zero. intros k Hk. change (mc (lower O1 q (nth (i - length a) b one_by_one))) with (mc (nth (i - length a) b one_by_one)). rewrite E4. apply (proj2 (cross_zero O1 O2 (1 - q) q D _ _ rho k E1 E2 E4 E3)).
  - replace i with (length a + (i - length a))%nat at 1 by lia. replace j with (length a + (j - length a))%nat at 1 by lia. unfold exchange_entry. rewrite !flagged_nth_r by lia.
    destruct (nth_fits _ _ _ (i - length a) FB ltac:(lia)) as [E1 E2]. destruct (nth_fits _ _ _ (j - length a) FB ltac:(lia)) as [E3 E4].
    set (A := nth (i - length a) b one_by_one) in *. set (B := nth (j - length a) b one_by_one) in *. change (mr (lower O1 q A)) with (O1 + mr A)%nat. change (mc (lower O1 q A)) with (mc A).
    unfold tr. rewrite bsum_split. rewrite (bsum_zero O1).
    + rewrite <- bsum_mul_l. rewrite (bsum_ext (mr A) _ (fun k => rc q * mm (mc A) (mm (mc A) (me A) rho) (adj (me B)) k k)); [ring|]. intros k Hk.
      replace (mc A) with (mc B) at 1 by congruence. rewrite lower_sand by congruence. rewrite ltb_r, minus_r. rewrite rt_sq by lra. replace (mc B) with (mc A) by congruence. reflexivity.
    + intros k Hk. replace (mc A) with (mc B) at 1 by congruence. rewrite lower_sand by congruence. rewrite (ltb_l k) by exact Hk. reflexivity.
Qed.
Lemma gram_upper O2 x (A : marr CC) i j : (0 <= x)%R -> mm (mr (upper O2 x A)) (adj (me (upper O2 x A))) (me (upper O2 x A)) i j = rc x * mm (mr A) (adj (me A)) (me A) i j.
Proof.
  intros Hx. unfold mm, adj, upper. cbn [me mr]. rewrite bsum_split. rewrite (bsum_zero O2) by (intros k Hk; rewrite ltb_r; ring).
  rewrite <- bsum_mul_l. rewrite (bsum_ext (mr A) _ (fun l => rc x * ((me A l i)^* * me A l j))); [ring|]. intros k Hk. rewrite (ltb_l k) by exact Hk. rewrite sconj_mul, <- (rt_sq x Hx). ring.
Qed.
Lemma gram_lower O1 x (A : marr CC) i j : (0 <= x)%R -> mm (mr (lower O1 x A)) (adj (me (lower O1 x A))) (me (lower O1 x A)) i j = rc x * mm (mr A) (adj (me A)) (me A) i j.
Proof.
  intros Hx. unfold mm, adj, lower. cbn [me mr]. rewrite bsum_split. rewrite (bsum_zero O1) by (intros k Hk; rewrite (ltb_l k) by exact Hk; ring).
  rewrite <- bsum_mul_l. rewrite (bsum_ext (mr A) _ (fun l => rc x * ((me A l i)^* * me A l j))); [ring|]. intros k Hk. rewrite ltb_r, minus_r. rewrite sconj_mul, <- (rt_sq x Hx). ring.
Qed.
Lemma flagged_tp q O1 O2 D a b : (0 <= q <= 1)%R -> trace_preserving D a -> trace_preserving D b -> trace_preserving D (flagged q O1 O2 a b).
Proof.
  intros Hq TA TB i j Hi Hj. unfold flagged. rewrite map_app, ksum_app, !map_map. specialize (TA i j Hi Hj). specialize (TB i j Hi Hj).
  rewrite (ksum_ext (fun A => mm (mr (upper O2 (1 - q) A)) (adj (me (upper O2 (1 - q) A))) (me (upper O2 (1 - q) A)) i j) (fun A => rc (1 - q) * mm (mr A) (adj (me A)) (me A) i j) a) by (intros; apply gram_upper; lra).
  rewrite (ksum_ext (fun A => mm (mr (lower O1 q A)) (adj (me (lower O1 q A))) (me (lower O1 q A)) i j) (fun A => rc q * mm (mr A) (adj (me A)) (me A) i j) b) by (intros; apply gram_lower; lra).
  rewrite !ksum_mul_l. cbv beta in TA, TB. rewrite TA, TB. transitivity ((rc (1 - q) + rc q) * eye i j); [ring|]. replace (rc (1 - q) + rc q) with (1 : CC) by (apply CC_eq; cbn; lra). ring.
Qed.
(** the entropies of the mixture *)
Theorem flagged_entropies q O1 O2 D a b rho t u : (0 <= q <= 1)%R -> fits O1 D a -> fits O2 D b -> trace_preserving D a -> trace_preserving D b -> density D rho ->
  entropies O1 a rho t -> entropies O2 b rho u ->
  entropies (O1 + O2) (flagged q O1 O2 a b) rho ((1 - q) * fst t + q * fst u + binary_entropy q, (1 - q) * snd t + q * snd u + binary_entropy q)%R.
Proof.
  intros Hq FA FB TA TB DR [T1 T2] [U1 U2].
  assert (HB : forall x y, ((1 - q) * x + q * y + binary_entropy q = (1 - q) * x + q * y - (xlx (1 - q) + xlx q) / ln 2)%R) by (intros; rewrite binary_form; pose proof ln2_pos; field; lra).
  split; cbn [fst snd]; rewrite HB.
  - apply (von_ext _ _ _ _ (eqm_sym _ _ _ _ (flagged_out q O1 O2 D a b rho Hq FA FB))). apply von_dsum; try lra; try assumption; [apply (channel_density O1 D)|apply (channel_density O2 D)]; assumption.
  - rewrite flagged_len. apply (von_ext _ _ _ _ (eqm_sym _ _ _ _ (flagged_env q O1 O2 D a b rho Hq FA FB))). apply von_dsum; try lra; try assumption; [apply (exchange_density O1 D)|apply (exchange_density O2 D)]; assumption.
Qed.
(** ** the two extremes: nothing lost, everything lost *)
Lemma identity_fits D : fits D D (identity_ops D). Proof. repeat constructor. Qed.
Lemma identity_tp D : trace_preserving D (identity_ops D).
Proof. intros i j Hi Hj. cbn [identity_ops map]. rewrite ksum_cons, ksum_nil. cbn [mr me]. rewrite mm_eye_r by exact Hj. rewrite adj_eye. ring. Qed.
Lemma lost_fits D : fits 1 D (lost D). Proof. apply Forall_forall. intros A HA. apply in_map_iff in HA. destruct HA as (k & <- & _). split; reflexivity. Qed.
Lemma lost_len D : length (lost D) = D. Proof. unfold lost. rewrite map_length. apply seq_length. Qed.
Lemma lost_nth D k : k < D -> nth k (lost D) one_by_one = MA 1 D (fun _ j => if Nat.eqb j k then 1 else 0).
Proof. intros H. unfold lost. rewrite (nth_indep _ one_by_one (MA 1 D (fun _ j => if Nat.eqb j O then 1 else 0))) by (rewrite map_length, seq_length; exact H). rewrite (map_nth (fun k => MA 1 D (fun _ j => if Nat.eqb j k then 1 else 0))). rewrite seq_nth by exact H. reflexivity. Qed.
Lemma lost_tp D : trace_preserving D (lost D).
Proof.
  intros i j Hi Hj. unfold lost. rewrite map_map. cbn [mr me]. rewrite (ksum_ext _ (fun k => (if Nat.eqb i k then 1 else 0) * (if Nat.eqb j k then 1 else 0))).
  2: { intros k _. unfold mm, adj. cbn [bsum]. destruct (Nat.eqb i k); rewrite ?sconj_1, ?sconj_0; ring. }
  rewrite (ksum_seq D). rewrite (bsum_ext D _ (fun k => if Nat.eqb k j then (if Nat.eqb i k then 1 else 0) else 0)).
  - rewrite bsum_delta by exact Hj. reflexivity.
  - intros k Hk. rewrite (Nat.eqb_sym j k). destruct (Nat.eqb k j); ring.
Qed.
Lemma identity_map D rho : eqm D D (channel_map (identity_ops D) rho) rho.
Proof.
  intros i j Hi Hj. unfold channel_map, identity_ops. cbn [map mr mc me]. rewrite ksum_cons, ksum_nil. rewrite (mm_ext _ _ rho _ eye) by (intros; first [apply mm_eye_l; assumption|apply adj_eye]). rewrite mm_eye_r by exact Hj. ring.
Qed.
Lemma identity_entropies D rho s : density D rho -> von_neumann D rho s -> entropies D (identity_ops D) rho (s, 0%R).
Proof.
  intros DR V. split; cbn [fst snd].
  - apply (von_ext _ rho); [apply eqm_sym, identity_map|exact V].
  - apply von_one. pose proof (exchange_density D D (identity_ops D) rho (identity_fits D) (identity_tp D) DR) as (_ & _ & T). unfold tr in T. cbn [identity_ops length bsum] in T. rewrite <- T. ring.
Qed.
Lemma lost_exchange D rho : eqm D D (exchange_entry (lost D) rho) rho.
Proof.
  intros i j Hi Hj. unfold exchange_entry. rewrite !lost_nth by assumption. unfold tr, mm, adj. cbn [mr mc me bsum].
  rewrite (bsum_ext D _ (fun l => if Nat.eqb l j then bsum D (fun k => (if Nat.eqb k i then 1 else 0) * rho k l) else 0)) by (intros l Hl; destruct (Nat.eqb l j); rewrite ?sconj_1, ?sconj_0; ring).
  rewrite bsum_delta by exact Hj. rewrite (bsum_ext D _ (fun k => if Nat.eqb k i then rho k j else 0)) by (intros l Hl; destruct (Nat.eqb l i); ring). rewrite bsum_delta by exact Hi. ring.
Qed.
Lemma lost_entropies D rho s : density D rho -> von_neumann D rho s -> entropies 1 (lost D) rho (0%R, s).
Proof.
  intros DR V. split; cbn [fst snd].
  - apply von_one. pose proof (channel_density 1 D (lost D) rho (lost_fits D) (lost_tp D) DR) as (_ & _ & T). unfold tr in T. cbn [bsum] in T. rewrite <- T. ring.
  - rewrite lost_len. apply (von_ext _ rho); [apply eqm_sym, lost_exchange|exact V].
Qed.
Lemma erasure_fits q D : fits (D + 1) D (erasure q D). Proof. apply flagged_fits; [apply identity_fits|apply lost_fits]. Qed.
Lemma erasure_len q D : length (erasure q D) = (1 + D)%nat. Proof. unfold erasure. rewrite flagged_len, lost_len. reflexivity. Qed.
Lemma erasure_tp q D : (0 <= q <= 1)%R -> trace_preserving D (erasure q D). Proof. intros H. apply flagged_tp; [exact H|apply identity_tp|apply lost_tp]. Qed.
Theorem erasure_entropies q D rho s : (0 <= q <= 1)%R -> density D rho -> von_neumann D rho s -> entropies (D + 1) (erasure q D) rho ((1 - q) * s + binary_entropy q, q * s + binary_entropy q)%R.
Proof.
  intros Hq DR V. pose proof (flagged_entropies q D 1 D _ _ rho _ _ Hq (identity_fits D) (lost_fits D) (identity_tp D) (lost_tp D) DR (identity_entropies D rho s DR V) (lost_entropies D rho s DR V)) as E.
  cbn [fst snd] in E. rewrite !Rmult_0_r, Rplus_0_r, Rplus_0_l in E. exact E.
Qed.
(** ** which of output and environment knows more *)
Definition pick (N1 N2 : nat) (w : CC) (g : nat -> bool) (f : nat -> nat) : marr CC := MA N1 N2 (fun i l => if g i then (if Nat.eqb l (f i) then w else 0) else 0).
Lemma pick_map N1 N2 w g f (X : array CC) i j : (g i = true -> f i < N2) -> (g j = true -> f j < N2) ->
  mm N2 (mm N2 (me (pick N1 N2 w g f)) X) (adj (me (pick N1 N2 w g f))) i j = if g i then if g j then w * w^* * X (f i) (f j) else 0 else 0.
Proof.
  intros Hi Hj. unfold mm, adj, pick. cbn [me]. destruct (g i).
  - destruct (g j).
    + rewrite (bsum_ext N2 _ (fun l => if Nat.eqb l (f j) then bsum N2 (fun k => (if Nat.eqb k (f i) then w else 0) * X k l) * w^* else 0)) by (intros l Hl; destruct (Nat.eqb l (f j)); rewrite ?sconj_0; ring).
      rewrite bsum_delta by auto. rewrite (bsum_ext N2 _ (fun k => if Nat.eqb k (f i) then w * X k (f j) else 0)) by (intros l Hl; destruct (Nat.eqb l (f i)); ring). rewrite bsum_delta by auto. ring.
    + apply bsum_zero. intros. rewrite sconj_0. ring.
  - apply bsum_zero. intros. rewrite (bsum_zero N2) by (intros; ring). ring.
Qed.
Lemma pick_gram N1 N2 w g f i j : mm (mr (pick N1 N2 w g f)) (adj (me (pick N1 N2 w g f))) (me (pick N1 N2 w g f)) i j = w * w^* * bsum N1 (fun l => if g l then if Nat.eqb i (f l) then if Nat.eqb j (f l) then 1 else 0 else 0 else 0).
Proof.
  unfold mm, adj, pick. cbn [mr me]. rewrite <- bsum_mul_l. apply bsum_ext. intros l Hl. destruct (g l), (Nat.eqb i (f l)), (Nat.eqb j (f l)); rewrite ?sconj_0; ring.
Qed.
(** the D entries from number s on are moved to number s' on, and lost with probability 1-x;
    if lost, or if entry number z was found, entry number c is returned *)
Definition sift (D : nat) (x : R) (s s' z c : nat) : list (marr CC) :=
  pick (D + 1) (D + 1) (rt x) (fun i => (Nat.leb s' i && Nat.ltb i (s' + D))%bool) (fun i => i - s' + s)%nat ::
  pick (D + 1) (D + 1) 1 (fun i => Nat.eqb i c) (fun _ => z) :: map (fun k => pick (D + 1) (D + 1) (rt (1 - x)) (fun i => Nat.eqb i c) (fun _ => s + k)%nat) (seq 0 D).
Definition ends (D s z : nat) : Prop := (s = 0 /\ z = D \/ s = 1 /\ z = 0)%nat.
Lemma sift_fits D x s s' z c : fits (D + 1) (D + 1) (sift D x s s' z c).
Proof. constructor; [split; reflexivity|]. constructor; [split; reflexivity|]. apply Forall_forall. intros A HA. apply in_map_iff in HA. destruct HA as (k & <- & _). split; reflexivity. Qed.
Lemma sift_map D x s s' z c X i j : (0 <= x <= 1)%R -> ends D s z -> ends D s' c -> i < D + 1 -> j < D + 1 ->
  channel_map (sift D x s s' z c) X i j = (if (Nat.eqb i c || Nat.eqb j c)%bool then 0 else rc x * X (i - s' + s)%nat (j - s' + s)%nat) +
    (if (Nat.eqb i c && Nat.eqb j c)%bool then X z z + rc (1 - x) * bsum D (fun k => X (s + k)%nat (s + k)%nat) else 0).
Proof.
  intros Hx Hs Hs' Hi Hj. unfold channel_map, sift. cbn [map]. rewrite !ksum_cons, map_map. cbn [mc pick].
  assert (G : forall k, k < D + 1 -> (Nat.leb s' k && Nat.ltb k (s' + D))%bool = negb (Nat.eqb k c)).
  { intros k Hk. unfold ends in Hs'. destruct (Nat.leb_spec s' k), (Nat.ltb_spec k (s' + D)), (Nat.eqb_spec k c); cbn; try reflexivity; lia. }
  fold (pick (D + 1) (D + 1) (rt x) (fun i => (Nat.leb s' i && Nat.ltb i (s' + D))%bool) (fun i => i - s' + s)%nat). fold (pick (D + 1) (D + 1) 1 (fun i => Nat.eqb i c) (fun _ => z)).
  rewrite !pick_map. 2,3: unfold ends in *; intros; lia. 2,3: rewrite G by assumption; unfold ends in *; destruct (Nat.eqb_spec i c), (Nat.eqb_spec j c); cbn; intros; try discriminate; lia.
  rewrite (ksum_ext _ (fun k => (if (Nat.eqb i c && Nat.eqb j c)%bool then rc (1 - x) else 0) * X (s + k)%nat (s + k)%nat)).
  2: { intros k Hk. apply in_seq in Hk. fold (pick (D + 1) (D + 1) (rt (1 - x)) (fun i => Nat.eqb i c) (fun _ => s + k)%nat). rewrite pick_map by (unfold ends in *; intros; lia). rewrite rt_sq by lra. destruct (Nat.eqb i c), (Nat.eqb j c); cbn [andb]; ring. }
  rewrite ksum_seq, bsum_mul_l. rewrite !G by assumption. rewrite rt_sq by lra. destruct (Nat.eqb i c), (Nat.eqb j c); cbn [negb andb orb]; rewrite ?sconj_1; ring.
Qed.
Lemma count D s z i j : ends D s z -> i < D + 1 -> j < D + 1 -> bsum D (fun k => if Nat.eqb i (s + k)%nat then if Nat.eqb j (s + k)%nat then 1 else 0 else 0) = if Nat.eqb i z then 0 else if Nat.eqb i j then 1 : CC else 0.
Proof.
  intros E Hi Hj. unfold ends in E. destruct (Nat.eqb_spec i z).
  - apply bsum_zero. intros k Hk. destruct (Nat.eqb_spec i (s + k)); [lia|reflexivity].
  - rewrite (bsum_one D (i - s)%nat); [|lia|intros k Hk Ne; destruct (Nat.eqb_spec i (s + k)); [lia|reflexivity]]. replace (s + (i - s))%nat with i by lia. rewrite Nat.eqb_refl, (Nat.eqb_sym j i). reflexivity.
Qed.
Lemma sift_tp D x s s' z c : (0 <= x <= 1)%R -> ends D s z -> ends D s' c -> trace_preserving (D + 1) (sift D x s s' z c).
Proof.
  intros Hx Hs Hs' i j Hi Hj. unfold sift. cbn [map]. rewrite !ksum_cons, map_map, !pick_gram.
  assert (C : c < D + 1) by (unfold ends in Hs'; lia).
  assert (B1 : forall f v, bsum (D + 1) (fun l => if Nat.eqb l c then if Nat.eqb i (f l) then if Nat.eqb j (f l) then v else 0 else 0 else 0) = if Nat.eqb i (f c) then if Nat.eqb j (f c) then v : CC else 0 else 0).
  { intros f v. rewrite (bsum_delta (D + 1) c (fun l => if Nat.eqb i (f l) then if Nat.eqb j (f l) then v else 0 else 0)) by exact C. reflexivity. }
  rewrite (ksum_ext _ (fun k => rc (1 - x) * (if Nat.eqb i (s + k)%nat then if Nat.eqb j (s + k)%nat then 1 else 0 else 0))).
  2: { intros k _. rewrite pick_gram, rt_sq by lra. rewrite (B1 (fun _ => s + k)%nat 1). reflexivity. }
  rewrite ksum_seq, bsum_mul_l, (count D s z) by assumption. rewrite (B1 (fun _ => z) 1). rewrite rt_sq by lra.
  assert (B2 : bsum (D + 1) (fun l => if (Nat.leb s' l && Nat.ltb l (s' + D))%bool then if Nat.eqb i (l - s' + s) then if Nat.eqb j (l - s' + s) then 1 else 0 else 0 else 0) = if Nat.eqb i z then 0 else if Nat.eqb i j then 1 : CC else 0).
  { unfold ends in *. destruct (Nat.eqb_spec i z).
    - apply bsum_zero. intros k Hk. destruct (Nat.leb_spec s' k), (Nat.ltb_spec k (s' + D)); cbn [andb]; try reflexivity. destruct (Nat.eqb_spec i (k - s' + s)); [lia|reflexivity].
    - rewrite (bsum_one (D + 1) (i - s + s')%nat); [|lia|].
      + rewrite (proj2 (Nat.leb_le _ _)) by lia. rewrite (proj2 (Nat.ltb_lt _ _)) by lia. cbn [andb]. replace (i - s + s' - s' + s)%nat with i by lia. rewrite Nat.eqb_refl, (Nat.eqb_sym j i). reflexivity.
      + intros k Hk Ne. destruct (Nat.leb_spec s' k), (Nat.ltb_spec k (s' + D)); cbn [andb]; try reflexivity. destruct (Nat.eqb_spec i (k - s' + s)); [lia|reflexivity]. }
  rewrite B2. unfold eye. rewrite sconj_1. destruct (Nat.eqb_spec i z) as [->|Ni].
  - rewrite (Nat.eqb_sym z j). destruct (Nat.eqb j z); ring.
  - destruct (Nat.eqb i j); [|ring]. transitivity (rc x + rc (1 - x)); [ring|]. apply CC_eq; cbn; lra.
Qed.
Lemma lost_map D rho : channel_map (lost D) rho 0%nat 0%nat = bsum D (fun k => rho k k).
Proof.
  unfold channel_map, lost. rewrite map_map. rewrite ksum_seq. apply bsum_ext. intros k Hk. unfold mm, adj. cbn [mr mc me].
  rewrite (bsum_ext D _ (fun l => if Nat.eqb l k then bsum D (fun u => (if Nat.eqb u k then 1 else 0) * rho u l) else 0)) by (intros l Hl; destruct (Nat.eqb l k); rewrite ?sconj_1, ?sconj_0; ring).
  rewrite bsum_delta by exact Hk. rewrite (bsum_ext D _ (fun u => if Nat.eqb u k then rho u k else 0)) by (intros l Hl; destruct (Nat.eqb l k); ring). rewrite (bsum_delta D k (fun u => rho u k) Hk). reflexivity.
Qed.
Lemma erasure_out q D rho : (0 <= q <= 1)%R -> eqm (D + 1) (D + 1) (channel_map (erasure q D) rho) (dsum D (fun i j => rc (1 - q) * rho i j) (fun _ _ => rc q * bsum D (fun k => rho k k))).
Proof.
  intros Hq i j Hi Hj. unfold erasure. rewrite (flagged_out q D 1 D) by (auto using identity_fits, lost_fits). apply (dsum_ext D 1); try assumption.
  - intros x y Hx Hy. rewrite identity_map by assumption. reflexivity.
  - intros x y Hx Hy. replace x with O by lia. replace y with O by lia. rewrite lost_map. reflexivity.
Qed.
Lemma erasure_env q D rho : (0 <= q <= 1)%R -> eqm (1 + D) (1 + D) (exchange_entry (erasure q D) rho) (dsum 1 (fun _ _ => rc (1 - q) * bsum D (fun k => rho k k)) (fun i j => rc q * rho i j)).
Proof.
  intros Hq i j Hi Hj. unfold erasure. pose proof (flagged_env q D 1 D (identity_ops D) (lost D) rho Hq (identity_fits D) (lost_fits D)) as E. rewrite lost_len in E. rewrite E by assumption. apply (dsum_ext 1 D); try assumption.
  - intros x y Hx Hy. cbn in Hx, Hy. replace x with O by lia. replace y with O by lia. f_equal. unfold exchange_entry, identity_ops. cbn [nth mr mc me]. unfold tr. apply bsum_ext. intros k Hk.
    rewrite (mm_ext _ _ rho _ eye) by (intros; first [apply mm_eye_l; assumption|apply adj_eye]). apply mm_eye_r, Hk.
  - intros x y Hx Hy. rewrite lost_exchange by assumption. reflexivity.
Qed.
Theorem erasure_output_imitates q D : (0 <= q <= 1 / 2)%R -> output_imitates (D + 1) (erasure q D).
Proof.
  intros Hq. set (x := (q / (1 - q))%R). assert (X : (0 <= x <= 1)%R). { unfold x. split; [apply Rmult_le_pos; [lra|left; apply Rinv_0_lt_compat; lra]|]. apply (Rmult_le_reg_r (1 - q)); [lra|]. unfold Rdiv. rewrite Rmult_assoc, Rinv_l; lra. }
  assert (XQ : (x * (1 - q) = q)%R) by (unfold x; field; lra).
  assert (E0 : ends D 0 D) by (left; lia). assert (E1 : ends D 1 0) by (right; lia).
  exists (sift D x 0 1 D 0). rewrite erasure_len, (Nat.add_comm 1 D). split; [apply sift_fits|]. split; [apply sift_tp; assumption|].
  intros rho i j Hi Hj. rewrite erasure_env by (first [lra|lia]). rewrite (channel_map_same (D + 1) (D + 1) _ _ _ _ (sift_fits D x 0 1 D 0) (same_ops_refl _) (erasure_out q D rho ltac:(lra)) i j Hi Hj).
  rewrite sift_map by assumption. unfold dsum. destruct (Nat.eqb_spec i 0) as [->|Ni]; destruct (Nat.eqb_spec j 0) as [->|Nj]; cbn [orb andb].
  - change (0 <? 1) with true. cbn iota. rewrite (proj2 (Nat.ltb_ge D D)) by lia. set (T := bsum D (fun k => rho k k)). rewrite (bsum_ext D _ (fun k => rc (1 - q) * rho k k)) by (intros k Hk; rewrite !Nat.add_0_l; rewrite (ltb_l k D Hk); reflexivity). rewrite bsum_mul_l. fold T. transitivity ((rc q + rc (1 - x) * rc (1 - q)) * T); [|ring]. f_equal. apply CC_eq; cbn; lra.
  - change (0 <? 1) with true. rewrite (proj2 (Nat.ltb_ge j 1)) by lia. ring.
  - change (0 <? 1) with true. rewrite (proj2 (Nat.ltb_ge i 1)) by lia. ring.
  - rewrite (proj2 (Nat.ltb_ge i 1)), (proj2 (Nat.ltb_ge j 1)) by lia. rewrite !Nat.add_0_r. rewrite !(ltb_l _ D) by lia. transitivity ((rc x * rc (1 - q)) * rho (i - 1)%nat (j - 1)%nat); [|ring]. f_equal. apply CC_eq; cbn; lra.
Qed.
Theorem erasure_environment_imitates q D : (1 / 2 <= q <= 1)%R -> environment_imitates (D + 1) (erasure q D).
Proof.
  intros Hq. set (x := ((1 - q) / q)%R). assert (X : (0 <= x <= 1)%R). { unfold x. split; [apply Rmult_le_pos; [lra|left; apply Rinv_0_lt_compat; lra]|]. apply (Rmult_le_reg_r q); [lra|]. unfold Rdiv. rewrite Rmult_assoc, Rinv_l; lra. }
  assert (XQ : (x * q = 1 - q)%R) by (unfold x; field; lra).
  assert (E0 : ends D 0 D) by (left; lia). assert (E1 : ends D 1 0) by (right; lia).
  exists (sift D x 1 0 0 D). rewrite erasure_len, (Nat.add_comm 1 D). split; [apply sift_fits|]. split; [apply sift_tp; assumption|].
  intros rho i j Hi Hj. rewrite erasure_out by (first [lra|lia]). pose proof (erasure_env q D rho ltac:(lra)) as EE. rewrite (Nat.add_comm 1 D) in EE. rewrite (channel_map_same (D + 1) (D + 1) _ _ _ _ (sift_fits D x 1 0 0 D) (same_ops_refl _) EE i j Hi Hj).
  rewrite sift_map by assumption. unfold dsum. destruct (Nat.eqb_spec i D) as [->|Ni]; destruct (Nat.eqb_spec j D) as [->|Nj]; cbn [orb andb].
  - rewrite !(proj2 (Nat.ltb_ge D D)) by lia. change (0 <? 1) with true. cbn iota. set (T := bsum D (fun k => rho k k)). rewrite (bsum_ext D _ (fun k => rc q * rho k k)) by (intros k Hk; rewrite (proj2 (Nat.ltb_ge (1 + k) 1)) by lia; replace (1 + k - 1)%nat with k by lia; reflexivity). rewrite bsum_mul_l. fold T. transitivity ((rc (1 - q) + rc (1 - x) * rc q) * T); [|ring]. f_equal. apply CC_eq; cbn; lra.
  - rewrite (proj2 (Nat.ltb_ge D D)) by lia. rewrite (ltb_l j D) by lia. ring.
  - rewrite (proj2 (Nat.ltb_ge D D)) by lia. rewrite (ltb_l i D) by lia. ring.
  - rewrite (ltb_l i D), (ltb_l j D) by lia. rewrite (proj2 (Nat.ltb_ge (i - 0 + 1) 1)), (proj2 (Nat.ltb_ge (j - 0 + 1) 1)) by lia. replace (i - 0 + 1 - 1)%nat with i by lia. replace (j - 0 + 1 - 1)%nat with j by lia.
    transitivity ((rc x * rc q) * rho i j); [|ring]. f_equal. apply CC_eq; cbn; lra.
Qed.
