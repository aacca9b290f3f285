(** The expected value of the overlap (C144). *)
From Verif Require Import Py Scalar PauliModel PauliSpec EncoderProofs CircuitModel CircuitSpec CircuitProofs CircuitProofs2 OptimModel ChoiProofs2 DeviceModel DeviceSpec DeviceProofs DeviceProofs2 DeviceProofs3 DeviceProofs6 TwirlSpec TwirlProofs TwirlProofs2.
From Coq Require Import Reals Lra Permutation.
Open Scope nat_scope.
Open Scope K_scope.
Add Ring CCring78 : (s_rt CC).

Section Twirl.
Variables (register ids : list nat) (n : nat).
Hypothesis L : length register = n.
Hypothesis PE : Permutation register ids.
Hypothesis ND : NoDup register.
(** the state after t rounds *)
Fixpoint after (t : nat) (d : list nat) (psi : @state CC) : @state CC :=
  match t with
  | O => psi
  | S t => let '(ps, qs, d') := round_phases n d in after t d' (gacts ids (forward register n ps qs) psi)
  end.
Lemma after_run t : forall w w' used, w_qubits w = ids -> design_rounds register n t w = Ok (w', used) -> w_wave w' = after t (w_draws w) (w_wave w).
Proof.
  induction t as [|t IH]; intros w w' used Q H; [injection H as <- <-; reflexivity|]. cbn [design_rounds after] in *.
  destruct (design_round_run register n L (w_draws w)) as (ps & qs & d1 & E & ER & _). rewrite E in H. rewrite ER. cbn [bind] in H.
  rewrite execute_all_ok in H by (cbn [w_qubits set_draws]; rewrite Q; apply (forward_on register n L ids (reg_incl register ids PE))). cbn [bind] in H.
  apply bind_ok in H. destruct H as ([w2 rest] & H2 & [= <- <-]). rewrite (IH (set_wave (set_draws w d1) (gacts (w_qubits (set_draws w d1)) (forward register n ps qs) (w_wave (set_draws w d1)))) w2 rest Q H2). cbn [w_draws w_wave set_wave set_draws w_qubits]. rewrite Q. reflexivity.
Qed.
Let P := length (pairs n).
Lemma after_last t : forall d d1 d2 psi, length d = (t * (n + P))%nat -> length d1 = n -> length d2 = P -> after (S t) (d ++ d1 ++ d2) psi = rnd register ids n d1 d2 (after t d psi).
Proof.
  induction t as [|t IH]; intros d d1 d2 psi Ld L1 L2.
  - destruct d; [|discriminate]. cbn [app after]. rewrite <- (app_nil_r d2) at 1. rewrite round_draws by assumption. reflexivity.
  - assert (E : exists e1 e2 rest, d = e1 ++ e2 ++ rest /\ length e1 = n /\ length e2 = P /\ length rest = (t * (n + P))%nat).
    { exists (firstn n d), (firstn P (skipn n d)), (skipn P (skipn n d)). rewrite !firstn_skipn. cbn [Nat.mul] in Ld. rewrite !firstn_length, !skipn_length. repeat split; lia. }
    destruct E as (e1 & e2 & rest & -> & LE1 & LE2 & LR).
    change (after (S (S t)) ((e1 ++ e2 ++ rest) ++ d1 ++ d2) psi) with (let '(ps, qs, d') := round_phases n ((e1 ++ e2 ++ rest) ++ d1 ++ d2) in after (S t) d' (gacts ids (forward register n ps qs) psi)).
    rewrite <- !app_assoc. rewrite round_draws by assumption. rewrite IH by assumption. change (after (S t) (e1 ++ e2 ++ rest) psi) with (let '(ps, qs, d') := round_phases n (e1 ++ e2 ++ rest) in after t d' (gacts ids (forward register n ps qs) psi)). rewrite round_draws by assumption. reflexivity.
Qed.
Lemma ranges_length t : length (design_ranges n t) = (t * (n + P))%nat.
Proof. unfold design_ranges, P. rewrite pairs_length. induction t as [|t IH]; [reflexivity|]. cbn [repeat concat]. rewrite app_length, IH. unfold round_ranges. rewrite app_length, !repeat_length. lia. Qed.
Lemma mean_last t f : cmean (design_ranges n (S t)) f = cmean (design_ranges n t) (fun d => rmean n (fun d1 d2 => f (d ++ d1 ++ d2))).
Proof.
  unfold design_ranges. cbn [repeat]. rewrite repeat_cons, concat_app. cbn [concat]. rewrite app_nil_r, cmean_app. apply cmean_ext. intros d _. unfold round_ranges. rewrite cmean_app. unfold rmean. rewrite pairs_length. reflexivity.
Qed.
Let h := hm n.
Let B a b c e := isum n (fun x => h a x * h b x * h c x * h e x).
Definition moment (t : nat) (psi : @state CC) a b c e : CC :=
  cmean (design_ranges n t) (fun d => after t d psi a * after t d psi b * (after t d psi c)^* * (after t d psi e)^*).
Lemma moment_step t psi a b c e : length a = n -> length b = n -> length c = n -> length e = n ->
  moment (S t) psi a b c e = isum n (fun x => isum n (fun x' => moment t psi x x' x x' * (h a x * h c x * (h b x' * h e x') + h a x * h e x * (h b x' * h c x')))) + - isum n (fun x => moment t psi x x x x * (h a x * h b x * h c x * h e x)).
Proof.
  intros La Lb Lc Le. unfold moment at 1. rewrite mean_last.
  rewrite (cmean_ext _ _ (fun d => isum n (fun x => isum n (fun x' => (h a x * h c x * (h b x' * h e x') + h a x * h e x * (h b x' * h c x')) * (after t d psi x * after t d psi x' * (after t d psi x)^* * (after t d psi x')^*))) +
     - (1) * isum n (fun x => (h a x * h b x * h c x * h e x) * (after t d psi x * after t d psi x * (after t d psi x)^* * (after t d psi x)^*)))).
  - rewrite cmean_add, cmean_mul, !cmean_isum.
    rewrite (isum_ext n (fun x => cmean _ _) (fun x => isum n (fun x' => moment t psi x x' x x' * (h a x * h c x * (h b x' * h e x') + h a x * h e x * (h b x' * h c x'))))).
    + rewrite (isum_ext n (fun x => cmean _ _) (fun x => moment t psi x x x x * (h a x * h b x * h c x * h e x))); [ring|]. intros x _. rewrite cmean_mul. unfold moment. ring.
    + intros x _. rewrite cmean_isum. apply isum_ext; intros x' _. rewrite cmean_mul. unfold moment. ring.
  - intros d Ld. rewrite ranges_length in Ld.
    transitivity (rmean n (fun d1 d2 => rnd register ids n d1 d2 (after t d psi) a * rnd register ids n d1 d2 (after t d psi) b * (rnd register ids n d1 d2 (after t d psi) c)^* * (rnd register ids n d1 d2 (after t d psi) e)^*)).
    + unfold rmean. apply cmean_ext. intros d1 L1. apply cmean_ext. intros d2 L2. rewrite repeat_length in L1, L2. rewrite after_last by assumption. reflexivity.
    + rewrite (fourth_moment register ids n L PE ND) by assumption. unfold h. rewrite <- isum_opp.
      rewrite (isum_ext n (fun x => - _) (fun x => - (1) * ((hm n a x * hm n b x * hm n c x * hm n e x) * (after t d psi x * after t d psi x * (after t d psi x)^* * (after t d psi x)^*)))) by (intros; ring). rewrite isum_mul. f_equal.
      apply isum_ext; intros x _. apply isum_ext; intros x' _. ring.
Qed.
(** if the second moments of the probabilities are p + q [x = x'] *)
Lemma moment_form t psi p q a b c e : (forall x x', length x = n -> length x' = n -> moment t psi x x' x x' = rc p + rc q * ket x x') -> length a = n -> length b = n -> length c = n -> length e = n ->
  moment (S t) psi a b c e = rc p * (ket a c * ket b e + ket a e * ket b c) + rc (q - p) * B a b c e.
Proof.
  intros H La Lb Lc Le. rewrite moment_step by assumption.
  rewrite (isum_ext n (fun x => moment t psi x x x x * _) (fun x => rc (p + q) * (h a x * h b x * h c x * h e x))).
  2:{ intros x Lx. rewrite H by assumption. rewrite <- rc_add. unfold ket. destruct (list_eq_dec bool_dec x x); [ring|contradiction]. }
  rewrite (isum_ext n (fun x => isum n _) (fun x => rc p * ((h a x * h c x) * isum n (fun x' => h b x' * h e x') + (h a x * h e x) * isum n (fun x' => h b x' * h c x')) + rc (q + q) * (h a x * h b x * h c x * h e x))).
  - rewrite isum_add, !isum_mul. fold (B a b c e). unfold h in *.
    rewrite (isum_ext n _ (fun x => ket e b * (hm n a x * hm n c x) + ket c b * (hm n a x * hm n e x))) by (intros; rewrite !(hm_orth register ids n L PE ND) by assumption; ring).
    rewrite isum_add, !isum_mul, !(hm_orth register ids n L PE ND) by assumption. rewrite (ket_sym c a), (ket_sym e a), (ket_sym e b), (ket_sym c b). replace (q - p)%R with ((q + q) + - (p + q))%R by ring. rewrite <- (rc_add (q + q)). replace (rc (- (p + q))) with (- rc (p + q)) by (apply CC_eq; cbn; ring). ring.
  - intros x Lx. rewrite (isum_ext n _ (fun x' => rc p * (h a x * h c x) * (h b x' * h e x') + rc p * (h a x * h e x) * (h b x' * h c x') + ket x x' * (rc q * (h a x * h c x * (h b x' * h e x') + h a x * h e x * (h b x' * h c x'))))).
    + rewrite !isum_add, !isum_mul, isum_ket by assumption. rewrite <- rc_add. ring.
    + intros x' Lx'. rewrite H by assumption. ring.
Qed.
Fixpoint pq (t : nat) : R * R := match t with O => (/ (2 ^ n * 2 ^ n), 0)%R | S t => ((fst (pq t) + (snd (pq t) - fst (pq t)) / 2 ^ n), fst (pq t))%R end.
Lemma probabilities (z : CC) psi : z * z^* = 1 -> eqs n psi (sscale z (zero_ket n)) -> forall t x x', length x = n -> length x' = n -> moment (S t) psi x x' x x' = rc (fst (pq t)) + rc (snd (pq t)) * ket x x'.
Proof.
  intros Z E. pose proof (pow_lt 2 n ltac:(lra)) as D0. assert (HH : forall a x b y, h a x * h b y * h a x * h b y = rc (/ (2 ^ n * 2 ^ n))).
  { intros a x b y. transitivity ((h a x * h a x) * (h b y * h b y)); [ring|]. unfold h. rewrite !hm_sq, rc_mul. f_equal. rewrite Rinv_mult. reflexivity. }
  induction t as [|t IH]; intros a b La Lb.
  - rewrite moment_step by assumption.
    assert (M : forall x x', length x = n -> length x' = n -> moment 0 psi x x' x x' = ket (zeros n) x * ket (zeros n) x').
    { intros x x' Lx Lx'. unfold moment. cbn [design_ranges repeat concat cmean after]. rewrite !E by assumption. unfold sscale. change (zero_ket (K := CC) n) with (ket (K := CC) (zeros n)).
      transitivity ((z * z^*) * (z * z^*) * ((ket (zeros n) x * (ket (zeros n) x)^*) * (ket (zeros n) x' * (ket (zeros n) x')^*))); [rewrite !sconj_mul; ring|]. rewrite Z. unfold ket. destruct (list_eq_dec bool_dec x (zeros n)), (list_eq_dec bool_dec x' (zeros n)); rewrite ?sconj_1, ?sconj_0; ring. }
    assert (L0 : length (zeros n) = n) by apply repeat_length.
    rewrite (isum_ext n (fun x => moment 0 psi x x x x * _) (fun x => ket (zeros n) x * (ket (zeros n) x * (h a x * h b x * h a x * h b x)))) by (intros x Lx; rewrite M by assumption; ring). rewrite isum_ket by exact L0.
    rewrite (isum_ext n (fun x => isum n _) (fun x => ket (zeros n) x * (h a x * h a x * (h b (zeros n) * h b (zeros n)) + h a x * h b x * (h b (zeros n) * h a (zeros n))))).
    + rewrite isum_ket by exact L0. set (o := zeros n). transitivity (h a o * h b o * h a o * h b o + (1 + - ket o o) * (h a o * h b o * h a o * h b o)); [ring|]. unfold ket. destruct (list_eq_dec bool_dec o o); [|contradiction]. rewrite HH. cbn [pq fst snd]. rewrite rc_0. ring.
    + intros x Lx. rewrite (isum_ext n _ (fun x' => ket (zeros n) x' * (ket (zeros n) x * (h a x * h a x * (h b x' * h b x') + h a x * h b x * (h b x' * h a x'))))) by (intros x' Lx'; rewrite M by assumption; ring). rewrite isum_ket by exact L0. ring.
  - rewrite (moment_form (S t) psi (fst (pq t)) (snd (pq t)) a b a b IH) by assumption. unfold B. rewrite (isum_ext n _ (fun x => rc (/ (2 ^ n * 2 ^ n)))) by (intros; apply HH). rewrite isum_const, !rc_mul. cbn [pq fst snd].
    assert (KA : forall o : list bool, ket (K := CC) o o = 1) by (intros o; unfold ket; destruct (list_eq_dec bool_dec o o); [reflexivity|contradiction]). rewrite !KA, (ket_sym b a). rewrite <- rc_add.
    replace ((snd (pq t) - fst (pq t)) / 2 ^ n)%R with ((snd (pq t) - fst (pq t)) * (2 ^ n * / (2 ^ n * 2 ^ n)))%R by (field; lra).
    assert (KK : ket (K := CC) a b * ket a b = ket a b) by (unfold ket; destruct (list_eq_dec bool_dec b a); ring). transitivity (rc (fst (pq t)) * (1 + ket a b * ket a b) + rc ((snd (pq t) - fst (pq t)) * (2 ^ n * / (2 ^ n * 2 ^ n)))); [ring|]. rewrite KK. ring.
Qed.
End Twirl.
