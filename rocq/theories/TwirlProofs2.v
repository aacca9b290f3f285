(** The second moments of the design (C144). *)
From Verif Require Import Py Scalar PauliModel PauliSpec EncoderProofs CircuitModel CircuitSpec CircuitProofs CircuitProofs2 OptimModel ChoiProofs2 DeviceModel DeviceSpec DeviceProofs DeviceProofs2 DeviceProofs3 DeviceProofs6 TwirlSpec TwirlProofs.
From Coq Require Import Reals Lra Permutation.
Open Scope nat_scope.
Open Scope K_scope.
Add Ring CCring77 : (s_rt CC).

Lemma isum_prod n (f g : list bool -> CC) : isum n f * isum n g = isum n (fun x => isum n (fun y => f x * g y)).
Proof.
  rewrite (isum_ext n (fun x => isum n (fun y => f x * g y)) (fun x => isum n g * f x)) by (intros x _; rewrite isum_mul; ring). rewrite isum_mul. ring.
Qed.
Lemma isum_conj n (f : list bool -> CC) : (isum n f)^* = isum n (fun x => (f x)^*).
Proof. revert f. induction n as [|n IH]; intros f; cbn [isum]; [reflexivity|]. rewrite sconj_add, !IH. reflexivity. Qed.
Lemma isum_opp n (f : list bool -> CC) : isum n (fun x => - f x) = - isum n f.
Proof. rewrite (isum_ext n _ (fun x => - (1) * f x)) by (intros; ring). rewrite isum_mul. ring. Qed.
Lemma isum_swap n m (f : list bool -> list bool -> CC) : isum n (fun x => isum m (f x)) = isum m (fun y => isum n (fun x => f x y)).
Proof. revert f. induction n as [|n IH]; intros f; cbn [isum]; [reflexivity|]. rewrite !IH, isum_add. reflexivity. Qed.
Lemma isum_ket2 n x (f : list bool -> CC) : length x = n -> isum n (fun y => ket y x * f y) = f x.
Proof. intros Lx. rewrite <- (isum_ket n x f Lx). apply isum_ext. intros y _. f_equal. unfold ket. destruct (list_eq_dec bool_dec x y), (list_eq_dec bool_dec y x); congruence || reflexivity. Qed.
Lemma ket_sym x y : ket (K := CC) x y = ket y x.
Proof. unfold ket. destruct (list_eq_dec bool_dec y x), (list_eq_dec bool_dec x y); congruence || reflexivity. Qed.
Lemma isum_const n (a : CC) : isum n (fun _ => a) = rc (2 ^ n) * a.
Proof. induction n as [|n IH]; cbn [isum]; [cbn [pow]; rewrite rc_1; ring|]. rewrite IH. cbn [pow]. replace (2 * 2 ^ n)%R with (2 ^ n + 2 ^ n)%R by ring. rewrite <- rc_add. ring. Qed.

Lemma isum4 n (f1 f2 f3 f4 : list bool -> CC) : isum n f1 * isum n f2 * isum n f3 * isum n f4 = isum n (fun x => isum n (fun x' => isum n (fun y => isum n (fun y' => f1 x * f2 x' * f3 y * f4 y')))).
Proof.
  rewrite (isum_ext n (fun x => isum n (fun x' => isum n (fun y => isum n (fun y' => f1 x * f2 x' * f3 y * f4 y')))) (fun x => (isum n f2 * isum n f3 * isum n f4) * f1 x)); [rewrite isum_mul; ring|]. intros x _.
  rewrite (isum_ext n _ (fun x' => (f1 x * isum n f3 * isum n f4) * f2 x')); [rewrite isum_mul; ring|]. intros x' _.
  rewrite (isum_ext n _ (fun y => (f1 x * f2 x' * isum n f4) * f3 y)); [rewrite isum_mul; ring|]. intros y _. rewrite isum_mul. ring.
Qed.
Section Twirl.
Variables (register ids : list nat) (n : nat).
Hypothesis L : length register = n.
Hypothesis PE : Permutation register ids.
Hypothesis ND : NoDup register.
Definition rmean (f : list nat -> list nat -> CC) : CC := cmean (repeat 3 n) (fun d1 => cmean (repeat 2 (length (pairs n))) (f d1)).
Lemma rmean_ext f g : (forall d1 d2, f d1 d2 = g d1 d2) -> rmean f = rmean g.
Proof. intros H. apply cmean_ext. intros d1 _. apply cmean_ext. intros d2 _. apply H. Qed.
Lemma rmean_mul a f : rmean (fun d1 d2 => a * f d1 d2) = a * rmean f.
Proof. unfold rmean. rewrite <- cmean_mul. apply cmean_ext. intros d1 _. apply cmean_mul. Qed.
Lemma rmean_isum f : rmean (fun d1 d2 => isum n (f d1 d2)) = isum n (fun x => rmean (fun d1 d2 => f d1 d2 x)).
Proof. unfold rmean. rewrite <- cmean_isum. apply cmean_ext. intros d1 _. apply cmean_isum. Qed.
Let h := hm n.
Let u d1 d2 psi := rnd register ids n d1 d2 psi.
Let ph d1 d2 x := phi3 register ids n d1 x * phi2 register ids n d2 x.
Theorem fourth_moment psi a b c e : length a = n -> length b = n -> length c = n -> length e = n ->
  rmean (fun d1 d2 => u d1 d2 psi a * u d1 d2 psi b * (u d1 d2 psi c)^* * (u d1 d2 psi e)^*) =
  isum n (fun x => isum n (fun x' => (psi x * (psi x)^* * (psi x' * (psi x')^*)) * (h a x * h c x * (h b x' * h e x') + h a x * h e x * (h b x' * h c x')))) +
  - isum n (fun x => (psi x * (psi x)^* * (psi x * (psi x)^*)) * (h a x * h b x * h c x * h e x)).
Proof.
  intros La Lb Lc Le.
  set (G := fun x x' y y' => (h a x * psi x) * (h b x' * psi x') * (h c y * (psi y)^*) * (h e y' * (psi y')^*)).
  transitivity (isum n (fun x => isum n (fun x' => isum n (fun y => isum n (fun y' => G x x' y y' * (ket x y * ket x' y' + ket x y' * ket x' y + - (ket x y * ket x' y' * ket x x'))))))).
  - rewrite (rmean_ext _ (fun d1 d2 => isum n (fun x => isum n (fun x' => isum n (fun y => isum n (fun y' => G x x' y y' * (ph d1 d2 x * ph d1 d2 x' * (ph d1 d2 y)^* * (ph d1 d2 y')^*))))))).
    + rewrite rmean_isum. apply isum_ext; intros x Lx. rewrite rmean_isum. apply isum_ext; intros x' Lx'. rewrite rmean_isum. apply isum_ext; intros y Ly. rewrite rmean_isum. apply isum_ext; intros y' Ly'. rewrite rmean_mul. f_equal. apply (phases_mean register ids n L PE ND); assumption.
    + intros d1 d2. unfold u. rewrite !(rnd_form register ids n L PE ND) by assumption. rewrite !isum_conj, isum4.
      apply isum_ext; intros x _. apply isum_ext; intros x' _. apply isum_ext; intros y _. apply isum_ext; intros y' _. unfold G, ph, h. rewrite !sconj_mul, !hm_conj. ring.
  - transitivity (isum n (fun x => isum n (fun x' => (G x x' x x' + G x x' x' x) + - (ket x x' * G x x' x x')))).
    + apply isum_ext; intros x Lx. apply isum_ext; intros x' Lx'.
      rewrite (isum_ext n _ (fun y => ket x y * (G x x' y x' + - (ket x x' * G x x' y x')) + ket x' y * G x x' y x)).
      * rewrite isum_add, !isum_ket by assumption. ring.
      * intros y Ly. rewrite (isum_ext n _ (fun y' => ket x' y' * ((ket x y + - (ket x y * ket x x')) * G x x' y y') + ket x y' * (ket x' y * G x x' y y'))) by (intros y' _; ring). rewrite isum_add, !isum_ket by assumption. ring.
    + rewrite <- isum_opp. rewrite <- isum_add. apply isum_ext; intros x Lx. rewrite isum_add, isum_opp, isum_ket by assumption. f_equal; [|unfold G; ring]. apply isum_ext; intros x' _. unfold G. ring.
Qed.
End Twirl.
