(** Proofs about the programme that optimises decoders. *)
From Verif Require Import Py Scalar PauliModel PauliSpec EncoderProofs KrausModel KrausSpec KrausProofs KrausProofs2 ChoiModel ChoiSpec ChoiProofs ChoiProofs2 ChannelModel AvgFidModel AvgFidSpec.
From Coq Require Import Reals Lra.
From Coq Require String.
Import String.StringSyntax.
Delimit Scope string_scope with string.
Open Scope nat_scope.
Open Scope K_scope.
Add Ring CCring24 : (s_rt CC).

Lemma fold_ksum (l : list (marr CC)) (i j : nat) : fold_right (fun A s => me A i j + s) 0 l = ksum (map (fun A => me A i j) l).
Proof. induction l as [|A l IH]; [reflexivity|]. cbn [map fold_right]. rewrite ksum_cons, IH. reflexivity. Qed.

(** the matrix of the objective *)
Lemma objective_entries (kraus : list (marr CC)) N D d : fits N D kraus -> kraus <> [] ->
  exists C, objective_matrix kraus d = Ok C /\ is_square (N * D)%nat C /\
    forall i a j b, (i < N)%nat -> (a < D)%nat -> (j < N)%nat -> (b < D)%nat ->
      me C (i * D + a)%nat (j * D + b)%nat = ksum (map (fun A => (me A i a)^* * (me A j b)^*) kraus) * ((/ INR (d ^ 2))%R, 0%R).
Proof.
  intros F NE. destruct kraus as [|A0 r]; [contradiction|]. unfold objective_matrix, np_sum. cbn [map]. pose proof F as F'. inversion F' as [|? ? [A1 A2] Fr]; subst.
  assert (FB : forallb (fun b : marr CC => Nat.eqb (mr b) (mr A0 * mc A0) && Nat.eqb (mc b) (mr A0 * mc A0))%bool
     (map (fun k : marr CC => outer (mr k * mc k) (mr k * mc k) (ravel_F (np_dagger k)) (ravel_F (np_dagger k))) r) = true).
  { apply forallb_forall. intros x Hx. apply in_map_iff in Hx. destruct Hx as (y & <- & Hy). destruct (proj1 (Forall_forall _ _) Fr y Hy) as [Y1 Y2]. cbn [mr mc outer]. rewrite Y1, Y2, !Nat.eqb_refl. reflexivity. }
  cbn [mr mc outer] in *. rewrite FB. cbn [bind]. eexists. split; [reflexivity|]. split; [split; reflexivity|].
  intros i a j b Hi Ha Hj Hb. cbn [me mr mc]. f_equal.
  rewrite fold_ksum. cbn [map]. rewrite map_map, !ksum_cons.
  assert (EN : forall A, In A (A0 :: r) -> me (outer (mr A * mc A) (mr A * mc A) (ravel_F (np_dagger A)) (ravel_F (np_dagger A))) (i * mc A0 + a)%nat (j * mc A0 + b)%nat = (me A i a)^* * (me A j b)^* ).
  { intros A HA. destruct (proj1 (Forall_forall _ _) F A HA) as [_ Y2].
    cbn [outer me]. unfold ravel_F, np_dagger. cbn [mr mc me]. rewrite Y2. destruct (divmod_l (mc A0) i a Ha) as [-> ->]. destruct (divmod_l (mc A0) j b Hb) as [-> ->]. reflexivity. }
  f_equal; [apply EN; left; reflexivity|]. f_equal. apply map_ext_in. intros A HA. apply EN. right; exact HA.
Qed.

Lemma inner_blocks N D (X C : array CC) : inner (N * D) X C =
  bsum N (fun i => bsum D (fun a => bsum N (fun j => bsum D (fun b => X (i * D + a)%nat (j * D + b)%nat * (C (i * D + a)%nat (j * D + b)%nat)^* )))).
Proof.
  unfold inner. rewrite bsum_blocks. apply bsum_ext; intros i _. apply bsum_ext; intros a _. rewrite bsum_blocks. reflexivity.
Qed.
Lemma ksum_prod2 {S T} (l : list S) (m : list T) (f : S -> CC) (g : T -> CC) : ksum (map f l) * ksum (map g m) = ksum (map (fun x => ksum (map (fun y => f x * g y) m)) l).
Proof. rewrite ksum_mul_r. f_equal. apply map_ext. intros x. symmetry. apply ksum_mul_l. Qed.
Lemma conj_rc x : ((x, 0%R) : CC)^* = (x, 0%R).
Proof. apply CC_eq; cbn; ring. Qed.
Lemma ksum_conj {T} (l : list T) (f : T -> CC) : (ksum (map f l))^* = ksum (map (fun x => (f x)^* ) l).
Proof. induction l as [|x l IH]; cbn [map]; [rewrite !ksum_nil; apply sconj_0|]. rewrite !ksum_cons, sconj_add, IH. reflexivity. Qed.

Lemma bsum_ksum2 {S T} (l : list S) (m : list T) n (f : S -> T -> nat -> CC) :
  bsum n (fun i => ksum (map (fun x => ksum (map (fun y => f x y i) m)) l)) = ksum (map (fun x => ksum (map (fun y => bsum n (f x y)) m)) l).
Proof. rewrite (bsum_ksum_map l n (fun x i => ksum (map (fun y => f x y i) m))). f_equal. apply map_ext. intros x. apply (bsum_ksum_map m n (f x)). Qed.

(** the objective at the Choi matrix of a decoder *)
Theorem objective_value (kraus Rs : list (marr CC)) N D d C : fits N D kraus -> fits D N Rs ->
  (forall i a j b, (i < N)%nat -> (a < D)%nat -> (j < N)%nat -> (b < D)%nat ->
      me C (i * D + a)%nat (j * D + b)%nat = ksum (map (fun A => (me A i a)^* * (me A j b)^*) kraus) * ((/ INR (d ^ 2))%R, 0%R)) ->
  inner (N * D) (choi_matrix Rs D) (me C) =
  ksum (map (fun R0 => ksum (map (fun A => tr D (mm N (me R0) (me A)) * (tr D (mm N (me R0) (entrywise_conj (me A))))^* ) kraus)) Rs) * ((/ INR (d ^ 2))%R, 0%R).
Proof.
  intros F FR HC. set (q := ((/ INR (d ^ 2))%R, 0%R) : CC). rewrite inner_blocks.
  transitivity (bsum N (fun i => bsum D (fun a => bsum N (fun j => bsum D (fun b => ksum (map (fun R0 => ksum (map (fun A => (me R0 a i * me A i a) * ((me R0 b j)^* * me A j b)) kraus)) Rs) * q))))).
  { apply bsum_ext; intros i Hi. apply bsum_ext; intros a Ha. apply bsum_ext; intros j Hj. apply bsum_ext; intros b Hb.
    rewrite HC by assumption. rewrite (choi_entry Rs D N) by assumption. rewrite sconj_mul. fold q. unfold q at 1. rewrite conj_rc. fold q. rewrite ksum_conj.
    transitivity (ksum (map (fun A => me A a i * (me A b j)^* ) Rs) * ksum (map (fun x => ((me x i a)^* * (me x j b)^* )^* ) kraus) * q); [ring|]. f_equal.
    rewrite ksum_prod2. f_equal. apply map_ext. intros R0. f_equal. apply map_ext. intros A. rewrite sconj_mul, !sconj_conj. ring. }
  transitivity (bsum N (fun i => bsum D (fun a => ksum (map (fun R0 => ksum (map (fun A => (me R0 a i * me A i a) * bsum N (fun j => bsum D (fun b => (me R0 b j)^* * me A j b))) kraus)) Rs)) * q)).
  { apply bsum_ext; intros i _. rewrite <- bsum_mul_r. apply bsum_ext; intros a _. 
    transitivity (bsum N (fun j => ksum (map (fun R0 => ksum (map (fun A => (me R0 a i * me A i a) * bsum D (fun b => (me R0 b j)^* * me A j b)) kraus)) Rs) * q)).
    - apply bsum_ext; intros j _. rewrite bsum_mul_r. f_equal. rewrite (bsum_ksum2 Rs kraus D (fun R0 A b => (me R0 a i * me A i a) * ((me R0 b j)^* * me A j b))).
      f_equal. apply map_ext; intros R0. f_equal. apply map_ext; intros A. apply bsum_mul_l.
    - rewrite bsum_mul_r. f_equal. rewrite (bsum_ksum2 Rs kraus N (fun R0 A j => (me R0 a i * me A i a) * bsum D (fun b => (me R0 b j)^* * me A j b))).
      f_equal. apply map_ext; intros R0. f_equal. apply map_ext; intros A. apply bsum_mul_l. }
  rewrite bsum_mul_r. f_equal.
  transitivity (bsum N (fun i => ksum (map (fun R0 => ksum (map (fun A => bsum D (fun a => me R0 a i * me A i a) * bsum N (fun j => bsum D (fun b => (me R0 b j)^* * me A j b))) kraus)) Rs))).
  { apply bsum_ext; intros i _. rewrite (bsum_ksum2 Rs kraus D (fun R0 A a => (me R0 a i * me A i a) * bsum N (fun j => bsum D (fun b => (me R0 b j)^* * me A j b)))).
    f_equal. apply map_ext; intros R0. f_equal. apply map_ext; intros A. apply bsum_mul_r. }
  rewrite (bsum_ksum2 Rs kraus N (fun R0 A i => bsum D (fun a => me R0 a i * me A i a) * bsum N (fun j => bsum D (fun b => (me R0 b j)^* * me A j b)))).
  f_equal. apply map_ext; intros R0. f_equal. apply map_ext; intros A. rewrite bsum_mul_r. f_equal.
  - rewrite bsum_swap. reflexivity.
  - unfold tr, mm, entrywise_conj. rewrite bsum_conj. rewrite bsum_swap. apply bsum_ext; intros a _. rewrite bsum_conj. apply bsum_ext; intros i _. rewrite sconj_mul, sconj_conj. reflexivity.
Qed.

Lemma real_conj (z : CC) : snd z = 0%R -> z^* = z.
Proof. intros H. apply CC_eq; cbn; rewrite ?H; ring. Qed.
Lemma Cmod_sq_rc (z : CC) : z * z^* = ((Cmod z ^ 2)%R, 0%R).
Proof. rewrite Cmod_sq. apply CC_eq; cbn; ring. Qed.

Lemma sum_reals {T} (l : list T) (f : T -> R) : ksum (map (fun x => ((f x, 0%R) : CC)) l) = (reals_sum (map f l), 0%R).
Proof. induction l as [|x l IH]; [reflexivity|]. cbn [map]. rewrite ksum_cons, IH. apply CC_eq; unfold reals_sum; cbn; ring. Qed.
Lemma reals_mul {T} (l : list T) (f : T -> R) (a : R) : (reals_sum (map f l) * a = reals_sum (map (fun x => f x * a) l))%R.
Proof. induction l as [|x l IH]; cbn; [ring|]. unfold reals_sum in *. rewrite <- IH. ring. Qed.
Lemma reals_app l m : reals_sum (l ++ m) = (reals_sum l + reals_sum m)%R.
Proof. unfold reals_sum. induction l as [|x l IH]; cbn; [ring|]. rewrite IH. ring. Qed.
Lemma reals_flat {S T} (l : list S) (f : S -> list T) (g : T -> R) : reals_sum (map g (flat_map f l)) = reals_sum (map (fun x => reals_sum (map g (f x))) l).
Proof. induction l as [|x l IH]; [reflexivity|]. cbn [flat_map map]. rewrite map_app, reals_app, IH. reflexivity. Qed.

Lemma tr_mixed D (A : array CC) : tr D (mm D A (me (mixed D))) = (((/ INR D)%R, 0%R) : CC) * tr D A.
Proof.
  unfold tr. rewrite <- bsum_mul_l. apply bsum_ext; intros i Hi. unfold mm. rewrite (bsum_one D i); [|exact Hi|].
  - cbn [mixed me]. rewrite Nat.eqb_refl. ring.
  - intros l _ Nl. cbn [mixed me]. destruct (Nat.eqb_spec l i); [contradiction|]. apply CC_eq; cbn; ring.
Qed.
Lemma Cmod_scale_sq a (z : CC) : (Cmod (((a, 0%R) : CC) * z) ^ 2 = Cmod z ^ 2 * a ^ 2)%R.
Proof. rewrite !Cmod_sq. cbn. ring. Qed.

Theorem real_objective (kraus Rs : list (marr CC)) N D d C : fits N D kraus -> fits D N Rs -> real_matrices kraus -> (0 < D)%nat -> (0 < d)%nat ->
  (forall i a j b, (i < N)%nat -> (a < D)%nat -> (j < N)%nat -> (b < D)%nat ->
      me C (i * D + a)%nat (j * D + b)%nat = ksum (map (fun A => (me A i a)^* * (me A j b)^*) kraus) * ((/ INR (d ^ 2))%R, 0%R)) ->
  inner (N * D) (choi_matrix Rs D) (me C) = ((entanglement_fidelity (prod_ops Rs kraus) (mixed D) * (INR D / INR d) ^ 2)%R, 0%R).
Proof.
  intros F FR HR HD Hd HC. rewrite (objective_value kraus Rs N D d C F FR HC).
  assert (I1 : (INR D <> 0)%R) by (apply not_0_INR; lia). assert (I2 : (INR d <> 0)%R) by (apply not_0_INR; lia).
  transitivity (((reals_sum (map (fun R0 => reals_sum (map (fun A => (Cmod (tr D (mm N (me R0) (me A))) ^ 2)%R) kraus)) Rs), 0%R) : CC) * ((/ INR (d ^ 2))%R, 0%R)).
  { f_equal. rewrite <- sum_reals. f_equal. apply map_ext. intros R0. rewrite <- sum_reals. f_equal. apply map_ext_in. intros A HA.
    rewrite <- Cmod_sq_rc. f_equal. f_equal. unfold tr, mm. apply bsum_ext; intros a Ha. apply bsum_ext; intros i Hi. f_equal. unfold entrywise_conj. apply real_conj.
    destruct (proj1 (Forall_forall _ _) F A HA) as [A1 A2]. apply (proj1 (Forall_forall _ _) HR A HA); lia. }
  apply CC_eq; [|cbn; ring]. cbn [fst smul CC CC_mul snd]. unfold entanglement_fidelity, prod_ops. rewrite reals_flat.
  transitivity (reals_sum (map (fun R0 => reals_sum (map (fun A => (Cmod (tr D (mm N (me R0) (me A))) ^ 2)%R) kraus)) Rs) * / INR (d ^ 2))%R; [ring|].
  rewrite !reals_mul. f_equal. apply map_ext_in. intros R0 HR0. rewrite map_map, !reals_mul. f_equal. apply map_ext_in. intros A HA.
  destruct (proj1 (Forall_forall _ _) F A HA) as [A1 A2]. destruct (proj1 (Forall_forall _ _) FR R0 HR0) as [B1 B2]. cbn [mr mc me]. rewrite A2, B1, B2.
  rewrite tr_mixed, Cmod_scale_sq. rewrite pow_INR. field. split; assumption.
Qed.
