(** The expected fidelity of one trial (C144). *)
From Verif Require Import Py Scalar PauliModel PauliSpec EncoderProofs CircuitModel CircuitSpec CircuitProofs CircuitProofs2 OptimModel ChoiProofs2 DeviceModel DeviceSpec DeviceProofs DeviceProofs2 DeviceProofs3 DeviceProofs4 DeviceProofs6 NoCorrectProofs AvgFidProofs TwirlSpec TwirlProofs TwirlProofs2 TwirlProofs3.
From Coq Require Import Reals Lra Permutation.
Open Scope nat_scope.
Open Scope K_scope.
Add Ring CCring79 : (s_rt CC).

Lemma hadamard_entry n z y : hadamard_state n z y = hm n y z.
Proof. unfold hadamard_state, hm, hsign, prodl. change ((/ sqrt (2 ^ n))%R, 0%R) with (rc (/ sqrt (2 ^ n))). f_equal. induction (seq 0 n) as [|p l IH]; [reflexivity|]. cbn [map fold_right]. rewrite IH. reflexivity. Qed.
Lemma isum_nsum n : forall f : list bool -> R, isum n (fun x => rc (f x)) = rc (nsum n f).
Proof. induction n as [|n IH]; intros f; cbn [isum nsum]; [reflexivity|]. rewrite !IH. apply CC_eq; cbn; ring. Qed.
Lemma fold_map_app {A} (f : A -> R) l m : fold_right Rplus 0%R (map f (l ++ m)) = (fold_right Rplus 0 (map f l) + fold_right Rplus 0 (map f m))%R.
Proof. induction l as [|x l IH]; cbn [List.app map fold_right]; [ring|]. rewrite IH. ring. Qed.
Lemma nsum_list n : forall f, fold_right Rplus 0%R (map f (bit_lists n)) = nsum n f.
Proof. induction n as [|n IH]; intros f; cbn [bit_lists nsum]; [cbn; ring|]. rewrite fold_map_app, !map_map, !IH. reflexivity. Qed.
Lemma nsum_const n : forall a, nsum n (fun _ => a) = (2 ^ n * a)%R.
Proof. induction n as [|n IH]; intros a; cbn [nsum pow]; [ring|]. rewrite !IH. ring. Qed.
Lemma Cmod_ge0 (z : CC) : (0 <= Cmod z)%R. Proof. apply sqrt_pos. Qed.
Lemma modsq (z : CC) : z * z^* = rc (Cmod z ^ 2).
Proof. apply Cmod_sq_rc. Qed.

Section Twirl.
Variables (register ids : list nat) (n : nat).
Hypothesis L : length register = n.
Hypothesis PE : Permutation register ids.
Hypothesis ND : NoDup register.
Variable A : list bool -> list bool -> CC.
Variable V : @state CC -> @state CC.
Hypothesis VA : is_matrix n V A.
Hypothesis VN : forall psi, inner n (V psi) (V psi) = inner n psi psi.
Let after := after register ids n.
Let moment := moment register ids n.

Lemma column_state x : length x = n -> eqs n (V (ket x)) (fun y => A y x).
Proof. intros Lx. eapply eqs_trans; [apply VA|]. intros y _. cbn beta. rewrite (isum_ext n _ (fun x' => ket x x' * A y x')) by (intros; ring). apply isum_ket, Lx. Qed.
Lemma column x : length x = n -> isum n (fun y => A y x * (A y x)^*) = 1.
Proof.
  intros Lx. pose proof (VN (ket x)) as H. rewrite (inner_ext n _ _ _ _ (column_state x Lx) (column_state x Lx)), inner_ket in H by exact Lx. unfold inner in H.
  rewrite (isum_ext n _ (fun y => (A y x)^* * A y x)) by (intros; ring). rewrite H. unfold ket. destruct (list_eq_dec bool_dec x x); [reflexivity|contradiction].
Qed.
Lemma nsum_term f x : length x = n -> (forall y, 0 <= f y)%R -> (f x <= nsum n f)%R.
Proof.
  intros Lx F. pose (g := fun y => if list_eq_dec bool_dec y x then f y else 0%R). assert (G : nsum n g = f x).
  { rewrite (nsum_one n x g Lx); [unfold g; destruct (list_eq_dec bool_dec x x); [reflexivity|contradiction]|]. intros y _ N. unfold g. destruct (list_eq_dec bool_dec y x); [contradiction|reflexivity]. }
  rewrite <- G. apply nsum_le. intros y _. unfold g. destruct (list_eq_dec bool_dec y x); [lra|apply F].
Qed.
Lemma diagonal x : length x = n -> (Cmod (A x x) <= 1)%R.
Proof.
  intros Lx. assert (E : nsum n (fun y => Cmod (A y x) ^ 2)%R = 1%R).
  { pose proof (column x Lx) as H. rewrite (isum_ext n _ (fun y => rc (Cmod (A y x) ^ 2))) in H by (intros; apply modsq). rewrite isum_nsum in H. injection H as H. exact H. }
  pose proof (nsum_term (fun y => Cmod (A y x) ^ 2)%R x Lx ltac:(intros; apply pow2_ge_0)) as T. cbn beta in T. rewrite E in T. pose proof (Cmod_ge0 (A x x)) as P. nra.
Qed.
Lemma Cmod_isum (f : list bool -> CC) m : (forall x, length x = m -> Cmod (f x) <= 1)%R -> (Cmod (isum m f) <= 2 ^ m)%R.
Proof.
  revert f. induction m as [|m IH]; intros f H; cbn [isum pow]; [apply H; reflexivity|]. eapply Rle_trans; [apply Cmod_add|].
  pose proof (IH (fun y => f (false :: y)) ltac:(intros; apply H; cbn; lia)). pose proof (IH (fun y => f (true :: y)) ltac:(intros; apply H; cbn; lia)). lra.
Qed.
Lemma average_bounds : (0 <= average_fidelity n A <= 1)%R.
Proof.
  unfold average_fidelity. pose proof (pow_lt 2 n ltac:(lra)) as D0. set (d := (2 ^ n)%R) in *. pose proof (Cmod_isum (fun x => A x x) n ltac:(intros; apply diagonal; assumption)) as T. fold d in T. pose proof (Cmod_ge0 (isum n (fun x => A x x))) as P. set (t := Cmod _) in *.
  assert (DD : (0 < d * (d + 1))%R) by nra. split; [apply Rmult_le_pos; [nra|apply Rlt_le, Rinv_0_lt_compat, DD]|]. apply (Rmult_le_reg_r (d * (d + 1))); [exact DD|]. unfold Rdiv. rewrite Rmult_assoc, Rinv_l by lra. nra.
Qed.
Let HW psi := HW register ids psi.
Lemma hadamard_HW z : length z = n -> eqs n (hadamard_state n z) (HW (ket z)).
Proof. intros Lz y Ly. rewrite hadamard_entry. unfold HW. rewrite (HW_ket register ids n L PE ND) by assumption. reflexivity. Qed.
Lemma hadamard_overlap z : length z = n -> overlap n A (hadamard_state n z) = HW (V (hadamard_state n z)) z.
Proof.
  intros Lz. unfold overlap. rewrite <- (inner_ext n (hadamard_state n z) _ _ _ (eqs_refl _ _) (VA (hadamard_state n z))). unfold HW. rewrite (HW_form register ids n L PE ND) by exact Lz. unfold inner. apply isum_ext. intros y Ly. rewrite hadamard_entry, hm_conj, hm_sym. reflexivity.
Qed.
Lemma hadamard_one z : length z = n -> (Cmod (overlap n A (hadamard_state n z)) ^ 2 <= 1)%R.
Proof.
  intros Lz. rewrite hadamard_overlap by exact Lz. set (phi := V _). assert (N : norm2 n (HW phi) = 1%R).
  { unfold norm2, HW. rewrite (HW_inner register ids n L PE). unfold phi. rewrite VN, (inner_ext n _ _ _ _ (hadamard_HW z Lz) (hadamard_HW z Lz)). unfold HW. rewrite (HW_inner register ids n L PE), inner_ket by exact Lz. unfold ket. destruct (list_eq_dec bool_dec z z); [reflexivity|contradiction]. }
  rewrite norm2_sum in N. pose proof (nsum_term (fun y => Cmod (HW phi y) ^ 2)%R z Lz ltac:(intros; apply pow2_ge_0)) as T. cbn beta in T. lra.
Qed.
Lemma hadamard_bounds : (0 <= hadamard_fidelity n A <= 1)%R.
Proof.
  unfold hadamard_fidelity. rewrite nsum_list. pose proof (pow_lt 2 n ltac:(lra)) as D0.
  assert (0 <= nsum n (fun z => Cmod (overlap n A (hadamard_state n z)) ^ 2))%R by (rewrite <- (nsum_0 n); apply nsum_le; intros; apply pow2_ge_0).
  assert (nsum n (fun z => Cmod (overlap n A (hadamard_state n z)) ^ 2) <= 2 ^ n * 1)%R by (rewrite <- nsum_const; apply nsum_le; intros; apply hadamard_one; assumption).
  split; [apply Rmult_le_pos; [assumption|apply Rlt_le, Rinv_0_lt_compat, D0]|]. apply (Rmult_le_reg_r (2 ^ n)); [exact D0|]. unfold Rdiv. rewrite Rmult_assoc, Rinv_l by lra. lra.
Qed.
(** the mean of |<u|A u>|^2 when the last moments have this form *)
Lemma overlap_sq u : overlap n A u * (overlap n A u)^* = isum n (fun b => isum n (fun x => isum n (fun y => isum n (fun e => (A b x * (A y e)^*) * (u x * u y * (u b)^* * (u e)^*))))).
Proof.
  unfold overlap, inner. rewrite isum_conj.
  rewrite (isum_ext n (fun y => _ * isum n _) (fun y => isum n (fun x => (u y)^* * (A y x * u x)))) by (intros; rewrite isum_mul; reflexivity).
  rewrite (isum_ext n (fun x => _ ^*) (fun y => isum n (fun e => u y * ((A y e)^* * (u e)^*)))).
  2:{ intros y _. rewrite sconj_mul, sconj_conj, isum_conj, <- isum_mul. apply isum_ext. intros e _. rewrite sconj_mul. reflexivity. }
  rewrite isum_prod. apply isum_ext. intros b _. rewrite (isum_ext n _ (fun y => isum n (fun x => isum n (fun e => (u b)^* * (A b x * u x) * (u y * ((A y e)^* * (u e)^*)))))) by (intros; apply isum_prod).
  rewrite isum_swap. apply isum_ext. intros x _. apply isum_ext. intros y _. apply isum_ext. intros e _. ring.
Qed.
Lemma overlap_mean p q t psi : (forall x y b e, length x = n -> length y = n -> length b = n -> length e = n -> moment t psi x y b e = rc p * (ket x b * ket y e + ket x e * ket y b) + rc q * isum n (fun z => hm n x z * hm n y z * hm n b z * hm n e z)) ->
  cmean (design_ranges n t) (fun d => rc (Cmod (overlap n A (after t d psi)) ^ 2)) = rc (p * (Cmod (isum n (fun x => A x x)) ^ 2 + 2 ^ n) + q * (2 ^ n * hadamard_fidelity n A)).
Proof.
  intros H. rewrite (cmean_ext _ _ (fun d => isum n (fun b => isum n (fun x => isum n (fun y => isum n (fun e => (A b x * (A y e)^*) * (after t d psi x * after t d psi y * (after t d psi b)^* * (after t d psi e)^*))))))) by (intros; rewrite <- modsq; apply overlap_sq).
  rewrite cmean_isum. rewrite (isum_ext n _ (fun b => isum n (fun x => isum n (fun y => isum n (fun e => (A b x * (A y e)^*) * (rc p * (ket x b * ket y e + ket x e * ket y b) + rc q * isum n (fun z => hm n x z * hm n y z * hm n b z * hm n e z))))))).
  2:{ intros b Lb. rewrite cmean_isum. apply isum_ext; intros x Lx. rewrite cmean_isum. apply isum_ext; intros y Ly. rewrite cmean_isum. apply isum_ext; intros e Le. rewrite cmean_mul. f_equal. apply H; assumption. }
  assert (T1 : isum n (fun b => isum n (fun x => isum n (fun y => isum n (fun e => (A b x * (A y e)^*) * (ket x b * ket y e))))) = rc (Cmod (isum n (fun x => A x x)) ^ 2)).
  { rewrite <- modsq, isum_conj, isum_prod. apply isum_ext; intros b Lb. rewrite (isum_ext n _ (fun x => ket x b * isum n (fun y => A b x * (A y y)^*))); [apply isum_ket2, Lb|]. intros x Lx. rewrite <- isum_mul. apply isum_ext; intros y Ly.
    rewrite (isum_ext n _ (fun e => ket y e * (ket x b * (A b x * (A y e)^*)))) by (intros; ring). rewrite isum_ket by exact Ly. reflexivity. }
  assert (T2 : isum n (fun b => isum n (fun x => isum n (fun y => isum n (fun e => (A b x * (A y e)^*) * (ket x e * ket y b))))) = rc (2 ^ n)).
  { transitivity (isum n (fun b => isum n (fun x => A b x * (A b x)^*))).
    - apply isum_ext; intros b Lb. apply isum_ext; intros x Lx. rewrite (isum_ext n _ (fun y => ket y b * (A b x * (A y x)^*))); [apply (isum_ket2 n b (fun y => A b x * (A y x)^*)), Lb|]. intros y Ly. rewrite (isum_ext n _ (fun e => ket x e * (ket y b * (A b x * (A y e)^*)))) by (intros; ring). rewrite isum_ket by exact Lx. reflexivity.
    - rewrite isum_swap. rewrite (isum_ext n _ (fun _ => 1)) by (intros; apply column; assumption). rewrite isum_const. ring. }
  assert (T3 : isum n (fun b => isum n (fun x => isum n (fun y => isum n (fun e => (A b x * (A y e)^*) * isum n (fun z => hm n x z * hm n y z * hm n b z * hm n e z))))) = rc (2 ^ n * hadamard_fidelity n A)).
  { unfold hadamard_fidelity. rewrite nsum_list. replace (2 ^ n * (nsum n (fun z => Cmod (overlap n A (hadamard_state n z)) ^ 2) / 2 ^ n))%R with (nsum n (fun z => Cmod (overlap n A (hadamard_state n z)) ^ 2))%R by (field; apply pow_nonzero; lra).
    rewrite <- isum_nsum. symmetry. rewrite (isum_ext n _ (fun z => isum n (fun b => isum n (fun x => isum n (fun y => isum n (fun e => (A b x * (A y e)^*) * (hm n x z * hm n y z * hm n b z * hm n e z))))))).
    - rewrite isum_swap. apply isum_ext; intros b _. rewrite isum_swap. apply isum_ext; intros x _. rewrite isum_swap. apply isum_ext; intros y _. rewrite isum_swap. apply isum_ext; intros e _. rewrite isum_mul. reflexivity.
    - intros z _. rewrite <- modsq, overlap_sq. apply isum_ext; intros b _. apply isum_ext; intros x _. apply isum_ext; intros y _. apply isum_ext; intros e _. rewrite !hadamard_entry, !hm_conj. reflexivity. }
  rewrite (isum_ext n _ (fun b => isum n (fun x => isum n (fun y => isum n (fun e => rc p * ((A b x * (A y e)^*) * (ket x b * ket y e)) + rc p * ((A b x * (A y e)^*) * (ket x e * ket y b)) + rc q * ((A b x * (A y e)^*) * isum n (fun z => hm n x z * hm n y z * hm n b z * hm n e z))))))).
  2:{ intros b _. apply isum_ext; intros x _. apply isum_ext; intros y _. apply isum_ext; intros e _. ring. }
  assert (S4 : forall f g : list bool -> list bool -> list bool -> list bool -> CC, isum n (fun b => isum n (fun x => isum n (fun y => isum n (fun e => f b x y e + g b x y e)))) = isum n (fun b => isum n (fun x => isum n (fun y => isum n (fun e => f b x y e)))) + isum n (fun b => isum n (fun x => isum n (fun y => isum n (fun e => g b x y e))))).
  { intros f g. rewrite <- isum_add. apply isum_ext; intros b _. rewrite <- isum_add. apply isum_ext; intros x _. rewrite <- isum_add. apply isum_ext; intros y _. rewrite <- isum_add. reflexivity. }
  assert (M4 : forall (a : CC) (f : list bool -> list bool -> list bool -> list bool -> CC), isum n (fun b => isum n (fun x => isum n (fun y => isum n (fun e => a * f b x y e)))) = a * isum n (fun b => isum n (fun x => isum n (fun y => isum n (fun e => f b x y e))))).
  { intros a f. rewrite <- isum_mul. apply isum_ext; intros b _. rewrite <- isum_mul. apply isum_ext; intros x _. rewrite <- isum_mul. apply isum_ext; intros y _. rewrite <- isum_mul. reflexivity. }
  etransitivity; [apply (S4 (fun b x y e => rc p * ((A b x * (A y e)^*) * (ket x b * ket y e)) + rc p * ((A b x * (A y e)^*) * (ket x e * ket y b))) (fun b x y e => rc q * ((A b x * (A y e)^*) * isum n (fun z => hm n x z * hm n y z * hm n b z * hm n e z))))|].
  rewrite (S4 (fun b x y e => rc p * ((A b x * (A y e)^*) * (ket x b * ket y e))) (fun b x y e => rc p * ((A b x * (A y e)^*) * (ket x e * ket y b)))).
  rewrite (M4 (rc p) (fun b x y e => (A b x * (A y e)^*) * (ket x b * ket y e))), (M4 (rc p) (fun b x y e => (A b x * (A y e)^*) * (ket x e * ket y b))), (M4 (rc q) (fun b x y e => (A b x * (A y e)^*) * isum n (fun z => hm n x z * hm n y z * hm n b z * hm n e z))).
  rewrite T1, T2, T3, !rc_mul, !rc_add. f_equal. ring.
Qed.
Lemma pq_closed t : (fst (pq n t) * (2 ^ n * (2 ^ n + 1)) = 1 - (- / 2 ^ n) ^ S t /\ snd (pq n t) * (2 ^ n * (2 ^ n + 1)) = 1 - (- / 2 ^ n) ^ t)%R.
Proof.
  pose proof (pow_lt 2 n ltac:(lra)) as D0. set (d := (2 ^ n)%R) in *. induction t as [|t [I1 I2]]; cbn [pq fst snd]; fold d.
  - cbn [pow]. split; field; lra.
  - split; [|exact I1]. set (p := fst (pq n t)) in *. set (q := snd (pq n t)) in *. replace ((p + (q - p) / d) * (d * (d + 1)))%R with (p * (d * (d + 1)) + (q * (d * (d + 1)) - p * (d * (d + 1))) / d)%R by (field; lra). rewrite I1, I2. cbn [pow]. set (s := ((- / d) ^ t)%R). field. lra.
Qed.
Theorem design_mean (z : CC) psi l : z * z^* = 1 -> eqs n psi (sscale z (zero_ket n)) -> (1 <= l)%nat ->
  expected (design_ranges n (2 * l + 1)) (fun d => Cmod (overlap n A (after (2 * l + 1) d psi)) ^ 2)%R = (average_fidelity n A + (/ 2 ^ n) ^ (2 * l) * (hadamard_fidelity n A - average_fidelity n A))%R.
Proof.
  intros Z E L1. pose proof (pow_lt 2 n ltac:(lra)) as D0. assert (EX : exists t, (2 * l + 1 = S (S t) /\ 2 * l = S t)%nat) by (exists (2 * l - 1)%nat; lia). destruct EX as (t & -> & E2). rewrite E2.
  pose proof (overlap_mean (fst (pq n t)) (snd (pq n t) - fst (pq n t))%R (S (S t)) psi) as H.
  assert (M : cmean (design_ranges n (S (S t))) (fun d => rc (Cmod (overlap n A (after (S (S t)) d psi)) ^ 2)) = rc (fst (pq n t) * (Cmod (isum n (fun x => A x x)) ^ 2 + 2 ^ n) + (snd (pq n t) - fst (pq n t)) * (2 ^ n * hadamard_fidelity n A))).
  { apply H. intros x y b e Lx Ly Lb Le. apply (moment_form register ids n L PE ND); try assumption. intros; apply (probabilities register ids n L PE ND z psi Z E); assumption. }
  rewrite cmean_expected in M. assert (rc_inj : forall u v, rc u = rc v -> u = v) by (intros u v [=]; assumption). apply rc_inj in M. rewrite M. clear M H. destruct (pq_closed t) as [P Q].
  assert (SG : ((- / 2 ^ n) ^ S t = (/ 2 ^ n) ^ S t)%R). { rewrite <- E2, !pow_mult. f_equal. cbn [pow]. ring. }
  unfold average_fidelity. set (T := (Cmod _ ^ 2)%R). set (F := hadamard_fidelity n A). set (d := (2 ^ n)%R) in *. set (p := fst (pq n t)) in *. set (q := snd (pq n t)) in *.
  assert (DD : (d * (d + 1) <> 0)%R) by nra. assert (P1 : p = ((1 - (- / d) ^ S t) / (d * (d + 1)))%R) by (apply (Rmult_eq_reg_r (d * (d + 1))); [rewrite P; field; lra|exact DD]). assert (Q1 : q = ((1 - (- / d) ^ t) / (d * (d + 1)))%R) by (apply (Rmult_eq_reg_r (d * (d + 1))); [rewrite Q; field; lra|exact DD]).
  assert (S1 : ((- / d) ^ t = - d * (/ d) ^ S t)%R) by (rewrite <- SG; cbn [pow]; field; lra). rewrite P1, Q1, S1, SG. set (s := ((/ d) ^ S t)%R). field. lra.
Qed.
Theorem design_close (z : CC) psi l : z * z^* = 1 -> eqs n psi (sscale z (zero_ket n)) -> (1 <= l)%nat ->
  (Rabs (expected (design_ranges n (2 * l + 1)) (fun d => Cmod (overlap n A (after (2 * l + 1) d psi)) ^ 2) - average_fidelity n A) <= (/ 2 ^ n) ^ (2 * l))%R.
Proof.
  intros Z E L1. rewrite (design_mean z psi l Z E L1). pose proof average_bounds as B1. pose proof hadamard_bounds as B2. set (F := average_fidelity n A) in *. set (G := hadamard_fidelity n A) in *.
  assert (0 <= (/ 2 ^ n) ^ (2 * l))%R by (apply pow_le, Rlt_le, Rinv_0_lt_compat, pow_lt; lra). set (s := ((/ 2 ^ n) ^ (2 * l))%R) in *. replace (F + s * (G - F) - F)%R with (s * (G - F))%R by ring. rewrite Rabs_mult, (Rabs_pos_eq s) by assumption. assert (Rabs (G - F) <= 1)%R by (apply Rabs_le; lra). nra.
Qed.
End Twirl.
