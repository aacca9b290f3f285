(** Consequences of an eigendecomposition: traces of powers, positivity, square roots,
    and equality of the non-zero spectra of M M^dagger and M^dagger M. *)
From Verif Require Import Py Scalar PauliModel PauliSpec EncoderProofs EighExists Spectral PowerSums KrausSpec KrausProofs KrausProofs2 ChoiSpec.
From Coq Require Import Reals Lra.
Open Scope nat_scope.
Open Scope K_scope.
Add Ring CCring6 : (s_rt CC).

Section Decomp.
Variable d : nat.
Variables (A V : array CC) (e : nat -> R).
Hypothesis ED : eigen_decomposition d A e V.

Lemma power_eig p i t : i < d -> t < d -> mm d (mpow d A p) V i t = V i t * rc (e t ^ p).
Proof.
  destruct ED as [U H]. revert i t. induction p as [|p IH]; intros i t Hi Ht; cbn [mpow].
  - rewrite mm_eye_l by exact Hi. replace (rc (e t ^ 0)) with (1 : CC) by reflexivity. ring.
  - rewrite mm_assoc. rewrite (mm_congr_r d A _ (fun l t => V l t * rc (e t ^ p))) by (intros; apply IH; assumption).
    transitivity (mm d A V i t * rc (e t ^ p)). { unfold mm. rewrite <- bsum_mul_r. apply bsum_ext; intros; ring. }
    rewrite H by assumption. fold (rc (e t)). replace (e t ^ S p)%R with (e t * e t ^ p)%R by reflexivity. rewrite <- rc_mul. ring.
Qed.
Lemma power_form p i j : i < d -> j < d -> mpow d A p i j = bsum d (fun t => V i t * rc (e t ^ p) * (V j t)^*).
Proof.
  intros Hi Hj. destruct ED as [[_ U] _].
  transitivity (mm d (mpow d A p) eye i j); [symmetry; apply mm_eye_r, Hj|].
  rewrite (mm_congr_r d _ eye (mm d V (adj V))) by (intros l Hl; symmetry; apply U; assumption).
  rewrite <- mm_assoc. unfold mm at 1. apply bsum_ext; intros t Ht. rewrite power_eig by assumption. reflexivity.
Qed.
Lemma entry_form i j : i < d -> j < d -> A i j = bsum d (fun t => V i t * rc (e t) * (V j t)^*).
Proof.
  intros Hi Hj. rewrite <- (mm_eye_r d A i j Hj). change (mm d A eye) with (mpow d A 1). rewrite power_form by assumption.
  apply bsum_ext; intros t Ht. rewrite pow_1. reflexivity.
Qed.
Lemma trace_power p : tr d (mpow d A p) = rc (fold_right Rplus 0%R (map (fun t => (e t ^ p)%R) (seq 0 d))).
Proof.
  destruct ED as [[U _] _]. unfold tr. rewrite (bsum_ext d _ (fun i => bsum d (fun t => V i t * rc (e t ^ p) * (V i t)^*))) by (intros; apply power_form; assumption).
  rewrite bsum_swap. rewrite (bsum_ext d _ (fun t => rc (e t ^ p))).
  - clear. rewrite <- (ksum_seq d). unfold ksum.
    replace (map (fun i => rc (e i ^ p)) (seq 0 d)) with (map rc (map (fun t => (e t ^ p)%R) (seq 0 d))) by (rewrite map_map; reflexivity).
    generalize (map (fun t => (e t ^ p)%R) (seq 0 d)). induction l as [|x l IH]; [reflexivity|]. cbn [map fold_right]. rewrite IH. apply CC_eq; cbn; lra.
  - intros t Ht. transitivity (mm d (adj V) V t t * rc (e t ^ p)).
    + unfold mm. rewrite <- bsum_mul_r. apply bsum_ext; intros i Hi. unfold adj. ring.
    + rewrite U by assumption. unfold eye. rewrite Nat.eqb_refl. ring.
Qed.
End Decomp.

(** ** positive semidefinite matrices *)
Definition two (i j : nat) (a b : CC) : nat -> CC := fun k => if Nat.eqb k i then a else if Nat.eqb k j then b else 0.
Lemma bsum_pair d i j (f : nat -> CC) : i < d -> j < d -> i <> j -> (forall k, k < d -> k <> i -> k <> j -> f k = 0) -> bsum d f = f i + f j.
Proof.
  intros Hi Hj N Z. rewrite (bsum_ext d f (fun k => (if Nat.eqb k i then f k else 0) + (if Nat.eqb k j then f k else 0))).
  - rewrite bsum_add, !bsum_delta by assumption. reflexivity.
  - intros k Hk. destruct (Nat.eqb_spec k i) as [Ei|Ni]; destruct (Nat.eqb_spec k j) as [Ej|Nj]; [congruence|ring|ring|]. rewrite Z by assumption. ring.
Qed.
Lemma quad_two d A i j a b : i < d -> j < d -> i <> j ->
  quad d A (two i j a b) = a^* * A i i * a + a^* * A i j * b + (b^* * A j i * a + b^* * A j j * b).
Proof.
  intros Hi Hj N. unfold quad. assert (Ti : two i j a b i = a) by (unfold two; rewrite Nat.eqb_refl; reflexivity).
  assert (Tj : two i j a b j = b) by (unfold two; rewrite Nat.eqb_refl; destruct (Nat.eqb_spec j i); [congruence|reflexivity]).
  assert (T0 : forall k, k <> i -> k <> j -> two i j a b k = 0) by (intros k K1 K2; unfold two; destruct (Nat.eqb_spec k i); [contradiction|]; destruct (Nat.eqb_spec k j); [contradiction|reflexivity]).
  rewrite (bsum_pair d i j) by (try assumption; intros k Hk K1 K2; apply bsum_zero; intros; rewrite (T0 k K1 K2), sconj_0; ring).
  rewrite !(bsum_pair d i j) by (try assumption; intros k Hk K1 K2; rewrite (T0 k K1 K2); ring). rewrite Ti, Tj. reflexivity.
Qed.
Lemma quad_one d A i a : i < d -> quad d A (two i i a a) = a^* * A i i * a.
Proof.
  intros Hi. unfold quad. assert (T0 : forall k, k <> i -> two i i a a k = 0) by (intros k K; unfold two; destruct (Nat.eqb_spec k i); [contradiction|reflexivity]).
  assert (Ti : two i i a a i = a) by (unfold two; rewrite Nat.eqb_refl; reflexivity).
  rewrite (bsum_one d i) by (try assumption; intros k Hk K; apply bsum_zero; intros; rewrite (T0 k K), sconj_0; ring).
  rewrite (bsum_one d i) by (try assumption; intros k Hk K; rewrite (T0 k K); ring). rewrite Ti. reflexivity.
Qed.
Lemma psd_diag_real d A i : psd d A -> i < d -> snd (A i i) = 0%R /\ (0 <= fst (A i i))%R.
Proof.
  intros P Hi. rewrite psd_quad in P. destruct (P (two i i 1 1)) as (x & Hx & E). rewrite quad_one in E by exact Hi.
  set (z := A i i) in *. clearbody z. destruct z as [u v]. apply (f_equal fst) in E as E1. apply (f_equal snd) in E. cbn in *. split; lra.
Qed.
Lemma psd_hermitian d A : psd d A -> hermitian d A.
Proof.
  intros P i j Hi Hj. unfold adj. destruct (psd_diag_real d A i P Hi) as [Zi _]. destruct (psd_diag_real d A j P Hj) as [Zj _].
  destruct (Nat.eq_dec i j) as [->|N]. { apply CC_eq; cbn; lra. }
  rewrite psd_quad in P. destruct (P (two i j 1 1)) as (x & _ & E). destruct (P (two i j 1 ((0, 1)%R : CC))) as (y & _ & F).
  rewrite quad_two in E, F by assumption. apply (f_equal snd) in E. apply (f_equal snd) in F.
  set (p := A i j) in *. set (q := A j i) in *. set (r := A i i) in *. set (s := A j j) in *. clearbody p q r s. destruct p, q, r, s. apply CC_eq; cbn in *; lra.
Qed.
Lemma psd_minor d A i j : psd d A -> i < d -> j < d -> (fst (A i j) ^ 2 + snd (A i j) ^ 2 <= fst (A i i) * fst (A j j))%R.
Proof.
  intros P Hi Hj. pose proof (psd_hermitian d A P j i Hj Hi) as H. unfold adj in H. destruct (psd_diag_real d A i P Hi) as [Zi Pi]. destruct (psd_diag_real d A j P Hj) as [Zj Pj].
  destruct (Nat.eq_dec i j) as [->|N]. { rewrite Zj. nra. }
  assert (K : forall t : R, (0 <= t * t * (fst (A i j) ^ 2 + snd (A i j) ^ 2) * fst (A i i) + 2 * t * (fst (A i j) ^ 2 + snd (A i j) ^ 2) + fst (A j j))%R).
  { intros t. rewrite psd_quad in P. destruct (P (two i j (A i j * rc t) 1)) as (x & Hx & E). rewrite quad_two in E by assumption. rewrite <- H in E. apply (f_equal fst) in E.
    set (p := A i j) in *. set (r := A i i) in *. set (s := A j j) in *. clearbody p r s. destruct p, r, s. cbn in *. nra. }
  set (q := (fst (A i j) ^ 2 + snd (A i j) ^ 2)%R) in *. set (r := fst (A i i)) in *. set (s := fst (A j j)) in *. clearbody q r s.
  assert (Q : (0 <= q)%R \/ (q < 0)%R) by lra. destruct (Rle_lt_dec q 0) as [L|L]; [nra|].
  destruct (Req_dec r 0) as [->|Nr].
  - exfalso. specialize (K (- (s + 1) / q)%R). replace (2 * (- (s + 1) / q) * q)%R with (- 2 * (s + 1))%R in K by (field; lra). nra.
  - specialize (K (- / r)%R). replace (- / r * - / r * q * r)%R with (q / r)%R in K by (field; exact Nr). replace (2 * - / r * q)%R with (- 2 * (q / r))%R in K by (field; exact Nr).
    assert (q / r <= s)%R by lra. apply Rmult_le_compat_r with (r := r) in H0; [|lra]. replace (q / r * r)%R with q in H0 by (field; exact Nr). lra.
Qed.

Section Psd.
Variable d : nat.
Variables (A V : array CC) (e : nat -> R).
Hypothesis ED : eigen_decomposition d A e V.
Lemma eig_quad t : t < d -> quad d A (fun i => V i t) = rc (e t).
Proof.
  intros Ht. destruct ED as [[U _] H]. unfold quad.
  transitivity (bsum d (fun i => (V i t)^* * mm d A V i t)).
  - apply bsum_ext; intros i Hi. unfold mm. rewrite <- bsum_mul_l. apply bsum_ext; intros; ring.
  - rewrite (bsum_ext d _ (fun i => adj V t i * V i t * rc (e t))) by (intros; rewrite H by assumption; unfold adj, rc; ring).
    rewrite bsum_mul_r. fold (mm d (adj V) V t t). rewrite U by assumption. unfold eye. rewrite Nat.eqb_refl. ring.
Qed.
Lemma psd_eig : psd d A -> forall t, t < d -> (0 <= e t)%R.
Proof. intros P t Ht. rewrite psd_quad in P. destruct (P (fun i => V i t)) as (x & Hx & E). rewrite eig_quad in E by exact Ht. apply rc_inj in E. lra. Qed.
Lemma eig_hermitian : hermitian d A.
Proof.
  intros i j Hi Hj. unfold adj. rewrite (entry_form d A V e ED j i), (entry_form d A V e ED i j) by assumption. rewrite bsum_conj. apply bsum_ext; intros t Ht.
  rewrite !sconj_mul, sconj_conj, rc_conj. ring.
Qed.
End Psd.
(** a matrix given by a unitary and real numbers *)
Definition diagonalised (d : nat) (V : array CC) (e : nat -> R) : array CC := fun i j => bsum d (fun t => V i t * rc (e t) * (V j t)^*).
Lemma diagonalised_ok d V e : unitary d V -> eigen_decomposition d (diagonalised d V e) e V.
Proof.
  intros [U1 U2]. split; [split; assumption|]. intros i t Hi Ht. unfold mm, diagonalised.
  transitivity (bsum d (fun s => V i s * rc (e s) * mm d (adj V) V s t)).
  - rewrite (bsum_ext d _ (fun l => bsum d (fun s => V i s * rc (e s) * (V l s)^* * V l t))) by (intros; rewrite <- bsum_mul_r; reflexivity).
    rewrite bsum_swap. apply bsum_ext; intros s Hs. unfold mm. rewrite <- bsum_mul_l. apply bsum_ext; intros. unfold adj. ring.
  - rewrite (bsum_one d t); [rewrite U1 by assumption; unfold eye; rewrite Nat.eqb_refl; unfold rc; ring|exact Ht|]. intros s Hs N. rewrite U1 by assumption.
    unfold eye. destruct (Nat.eqb_spec s t); [contradiction|ring].
Qed.
Lemma diagonalised_psd d V e : (forall t, t < d -> (0 <= e t)%R) -> psd d (diagonalised d V e).
Proof.
  intros H. rewrite psd_quad. intros v. unfold quad, diagonalised.
  replace (bsum d _) with (bsum d (fun t => rc (e t) * dot d v (fun i => V i t) * (dot d v (fun i => V i t))^*)).
  - apply nonneg_bsum. intros t Ht. specialize (H t Ht). set (z := dot d v _). destruct z as [x y]. exists (e t * (x * x + y * y))%R. split; [apply Rmult_le_pos; [exact H|nra]|]. apply CC_eq; cbn; ring.
  - symmetry. transitivity (bsum d (fun i => bsum d (fun j => bsum d (fun t => (v i)^* * V i t * rc (e t) * ((V j t)^* * v j))))).
    + apply bsum_ext; intros i Hi. apply bsum_ext; intros j Hj. rewrite <- bsum_mul_l, <- bsum_mul_r. apply bsum_ext; intros; ring.
    + transitivity (bsum d (fun i => bsum d (fun t => bsum d (fun j => (v i)^* * V i t * rc (e t) * ((V j t)^* * v j))))); [apply bsum_ext; intros; apply bsum_swap|].
      rewrite bsum_swap. apply bsum_ext; intros t Ht. rewrite dot_conj. unfold dot.
      transitivity (bsum d (fun i => (v i)^* * V i t * (rc (e t) * bsum d (fun i0 => (V i0 t)^* * v i0)))).
      * apply bsum_ext; intros i Hi. rewrite <- !bsum_mul_l. apply bsum_ext; intros; ring.
      * rewrite bsum_mul_r. ring.
Qed.
Theorem square_root_exists d A : psd d A -> exists S, square_root d A S.
Proof.
  intros P. pose proof (psd_hermitian d A P) as H. destruct (spectral d A H) as (V & e & ED). pose proof (psd_eig d A V e ED P) as Pe. destruct (ED) as [U _].
  set (S := diagonalised d V (fun t => sqrt (e t))). assert (DS : eigen_decomposition d S (fun t => sqrt (e t)) V) by (apply diagonalised_ok, U).
  exists S. split; [apply (eig_hermitian d S V _ DS)|]. split; [apply diagonalised_psd; intros; apply sqrt_pos|].
  intros i j Hi Hj. rewrite (entry_form d A V e ED) by assumption.
  transitivity (mpow d S 2 i j). { cbn [mpow]. apply mm_congr_r. intros l Hl. symmetry. apply mm_eye_r, Hj. }
  rewrite (power_form d S V _ DS) by assumption. apply bsum_ext; intros t Ht. f_equal. f_equal. f_equal. cbn. rewrite Rmult_1_r. apply sqrt_sqrt, Pe, Ht.
Qed.
