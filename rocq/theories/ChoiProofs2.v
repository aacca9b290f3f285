(** Choi matrices over the complex numbers: fidelity and extraction of Kraus operators. *)
From Verif Require Import Py Scalar PauliModel PauliSpec EncoderProofs EighExists Spectral SpectralProofs KrausModel KrausSpec KrausProofs KrausProofs2 KrausProofs6 KrausProofs8
  ChoiModel ChannelModel ChannelSpec ChoiSpec ChoiProofs.
From Coq Require Import Reals Lra.
Open Scope nat_scope.
Open Scope K_scope.
Add Ring CCring7 : (s_rt CC).

Lemma Cmod_sq (z : CC) : (Cmod z ^ 2 = fst z * fst z + snd z * snd z)%R.
Proof. unfold Cmod. cbn. rewrite Rmult_1_r. apply sqrt_sqrt. nra. Qed.
Lemma mul_conj_self (z : CC) : z * z^* = rc (Cmod z ^ 2).
Proof. rewrite Cmod_sq. apply CC_eq; cbn; ring. Qed.
Lemma rc_add x y : rc x + rc y = rc (x + y). Proof. apply CC_eq; cbn; ring. Qed.
Lemma ksum_rc {T} (f : T -> R) l : ksum (map (fun x => rc (f x)) l) = rc (reals_sum (map f l)).
Proof. unfold reals_sum. induction l as [|x l IH]; [reflexivity|]. cbn [map fold_right]. rewrite ksum_cons, IH. apply rc_add. Qed.

Section Fid.
Variables (c : choi CC) (D : nat) (ops : list (marr CC)).
Hypothesis SM : is_square (D * D) (ch_mat c).
Hypothesis F : fits D D ops.
Hypothesis E : eqm (D * D) (D * D) (me (ch_mat c)) (choi_matrix ops D).
Lemma overlap_value rho : is_square D rho -> hermitian D (me rho) -> choi_overlap c rho = Ok (rc (entanglement_fidelity ops rho)).
Proof.
  intros S H. rewrite (vec_overlap c D rho ops S SM F H E). f_equal. unfold entanglement_fidelity. rewrite <- ksum_rc. f_equal. apply map_ext_in. intros A HA.
  destruct (in_fits _ _ _ _ F HA) as [-> ->]. apply mul_conj_self.
Qed.
Theorem choi_fidelity_value probs states : ch_input_dim c = ch_output_dim c -> length probs <= length states -> Forall (fun rho => is_square D rho /\ hermitian D (me rho)) states ->
  choi_fidelity c (map (fun p => ((p, 0%R) : CC)) probs) states = Ok (rc (ensemble (entanglement_fidelity ops) probs states)).
Proof.
  intros EQ L FS. unfold choi_fidelity. rewrite EQ, Nat.eqb_refl. cbn [guard bind]. revert states L FS. unfold ensemble, reals_sum.
  induction probs as [|p ps IH]; intros [|s ss] L FS; cbn in L; try lia; try reflexivity.
  cbn [map choi_fidelity_loop combine fold_right fst snd]. apply Forall_cons_iff in FS. destruct FS as [[S1 S2] FS]. rewrite overlap_value by assumption. cbn [bind].
  rewrite IH by (try assumption; lia). cbn [bind]. f_equal. fold (rc p). rewrite rc_mul, rc_add. reflexivity.
Qed.
End Fid.

(** ** the entanglement fidelity of a trace-preserving list is at most 1 *)
Lemma reals_sum_le {T} (f g : T -> R) l : (forall x, In x l -> (f x <= g x)%R) -> (reals_sum (map f l) <= reals_sum (map g l))%R.
Proof. unfold reals_sum. induction l as [|x l IH]; intros H; cbn; [lra|]. pose proof (H x (or_introl eq_refl)). specialize (IH (fun y Hy => H y (or_intror Hy))). lra. Qed.
Lemma overlap_le D (A rho : marr CC) : mr A = D -> mc A = D -> density D (me rho) ->
  (Cmod (tr D (mm D (me A) (me rho))) ^ 2 <= fst (tr D (mm D (mm D (me A) (me rho)) (adj (me A)))))%R.
Proof.
  intros A1 A2 (HE & P & T). set (l := [A; MA D D eye]). assert (Fl : fits D D l) by (repeat constructor; assumption).
  pose proof (psd_minor _ _ 0 1 (exchange_psd D D l (me rho) Fl P) ltac:(cbn; lia) ltac:(cbn; lia)) as M. unfold exchange_entry in M. cbn [l nth] in M. rewrite A1, A2 in M. cbn [mr mc me] in M.
  assert (E1 : tr D (mm D (mm D (me A) (me rho)) (adj eye)) = tr D (mm D (me A) (me rho))).
  { apply tr_eqm. intros i j Hi Hj. rewrite (mm_congr_r D _ (adj eye) eye) by (intros; apply adj_eye). apply mm_eye_r, Hj. }
  assert (E2 : tr D (mm D (mm D eye (me rho)) (adj eye)) = 1).
  { rewrite <- T. apply tr_eqm. intros i j Hi Hj. rewrite (mm_congr_r D _ (adj eye) eye) by (intros; apply adj_eye). rewrite mm_eye_r by exact Hj. apply mm_eye_l, Hi. }
  rewrite E1, E2 in M. rewrite Cmod_sq. cbn [fst s1 CC] in M. cbn in M |- *. nra.
Qed.
Theorem fidelity_le_one D ops rho : fits D D ops -> trace_preserving D ops -> density D (me rho) -> (0 <= entanglement_fidelity ops rho <= 1)%R.
Proof.
  intros F TP DE. split.
  - unfold entanglement_fidelity, reals_sum. clear. induction ops as [|A l IH]; cbn [map fold_right]; [lra|]. pose proof (pow2_ge_0 (Cmod (tr (mr A) (mm (mc A) (me A) (me rho))))). lra.
  - assert (C : tr D (channel_map ops (me rho)) = 1). { rewrite (channel_trace D D) by assumption. apply DE. }
    unfold channel_map in C. rewrite tr_ksum in C. apply (f_equal fst) in C. change (fst (1 : CC)) with 1%R in C. rewrite <- C.
    apply Rle_trans with (reals_sum (map (fun A => fst (tr D (mm D (mm D (me A) (me rho)) (adj (me A))))) ops)).
    + apply reals_sum_le. intros A HA. destruct (in_fits _ _ _ _ F HA) as [E1 E2]. rewrite E1, E2. apply overlap_le; assumption.
    + clear C TP. unfold reals_sum. induction ops as [|A l IH]; cbn [map fold_right]; [rewrite ksum_nil; cbn; lra|]. rewrite ksum_cons.
      apply Forall_cons_iff in F. destruct F as [[E1 E2] F]. specialize (IH F). rewrite E2.
      set (u := tr D _) in *. set (v := ksum _) in *. clearbody u v. destruct u, v. cbn in *. lra.
Qed.
Theorem fidelity_identity D rho : is_square D rho -> density D (me rho) -> entanglement_fidelity [MA D D eye] rho = 1%R.
Proof.
  intros _ (_ & _ & T). unfold entanglement_fidelity, reals_sum. cbn [map fold_right mr mc me]. rewrite (tr_eqm D _ (me rho)) by (intros i j Hi Hj; apply mm_eye_l, Hi).
  rewrite T, Cmod_sq. cbn. lra.
Qed.

(** ** kraus_operators *)
Section Extract.
Variable eigh : marr CC -> (nat -> R) * marr CC.
Hypothesis OK : eigh_all_ok eigh.
Variable c : choi CC.
Let O := ch_output_dim c.
Let D := ch_input_dim c.
Hypothesis SM : is_square (D * O)%nat (ch_mat c).
Hypothesis P : psd (D * O)%nat (me (ch_mat c)).
Let e := fst (eigh (ch_mat c)).
Let V := me (snd (eigh (ch_mat c))).

Lemma extract_shapes : fits O D (choi_kraus_operators eigh c).
Proof.
  unfold choi_kraus_operators. destruct (eigh (ch_mat c)) as [e' v']. apply Forall_flat_map, Forall_forall. intros i _.
  destruct (below cutoff8 (e' i)); repeat constructor.
Qed.
Definition kept (t : nat) : R := if below cutoff8 (e t) then e t else 0%R.
Lemma extract_choi x y : x < D * O -> y < D * O -> choi_matrix (choi_kraus_operators eigh c) O x y = diagonalised (D * O)%nat V kept x y.
Proof.
  intros Hx Hy. assert (O0 : O <> 0%nat) by (intros Z; rewrite Z in Hx; lia).
  rewrite (Nat.div_mod x O), (Nat.div_mod y O) by exact O0. rewrite !(Nat.mul_comm O).
  assert (x / O < D /\ y / O < D) as [X1 Y1] by (split; apply Nat.div_lt_upper_bound; lia).
  assert (x mod O < O /\ y mod O < O) as [X2 Y2] by (split; apply Nat.mod_upper_bound; exact O0).
  set (i := x / O) in *. set (a := x mod O) in *. set (j := y / O) in *. set (b := y mod O) in *. clearbody i a j b.
  rewrite (choi_entry _ O D) by (try assumption; apply extract_shapes).
  destruct (OK (D * O)%nat (ch_mat c) SM (psd_hermitian _ _ P)) as [[S1 S2] ED].
  unfold choi_kraus_operators, diagonalised, kept. unfold e, V in *. destruct (eigh (ch_mat c)) as [e' v']. cbn [fst snd] in *. rewrite ksum_flat, S1, ksum_seq.
  apply bsum_ext; intros t Ht. destruct (below cutoff8 (e' t)) eqn:B; cbn [map].
  - rewrite ksum_cons, ksum_nil. cbn [me]. fold O. fold (rc (sqrt (e' t))). rewrite sconj_mul, rc_conj.
    replace (a + i * O)%nat with (i * O + a)%nat by lia. replace (b + j * O)%nat with (j * O + b)%nat by lia.
    transitivity (me v' (i * O + a)%nat t * (rc (sqrt (e' t)) * rc (sqrt (e' t))) * (me v' (j * O + b)%nat t)^*); [ring|]. rewrite rc_mul, sqrt_sqrt; [reflexivity|].
    apply below_true in B. unfold cutoff8 in B. lra.
  - rewrite ksum_nil. replace (rc 0) with (0 : CC) by reflexivity. ring.
Qed.
Lemma kept_nonneg t : (0 <= kept t)%R.
Proof. unfold kept. destruct (below cutoff8 (e t)) eqn:B; [|lra]. apply below_true in B. unfold cutoff8 in B. lra. Qed.
Theorem extract_exact : (forall t, t < D * O -> (e t <= 0)%R \/ (cutoff8 < e t)%R) -> eqm (D * O)%nat (D * O)%nat (choi_matrix (choi_kraus_operators eigh c) O) (me (ch_mat c)).
Proof.
  intros H x y Hx Hy. rewrite extract_choi by assumption. destruct (OK (D * O)%nat (ch_mat c) SM (psd_hermitian _ _ P)) as [_ ED]. fold e V in ED.
  rewrite (entry_form _ _ _ _ ED) by assumption. unfold diagonalised. apply bsum_ext; intros t Ht. f_equal. f_equal. f_equal. unfold kept.
  pose proof (psd_eig _ _ _ _ ED P t Ht) as Pe. destruct (below cutoff8 (e t)) eqn:B; [reflexivity|]. destruct (H t Ht) as [L|L]; [lra|]. apply below_true in L. congruence.
Qed.
(** in any case every entry is reproduced up to the cutoff *)
Theorem extract_close x y : x < D * O -> y < D * O ->
  (Cmod (me (ch_mat c) x y - choi_matrix (choi_kraus_operators eigh c) O x y) <= cutoff8)%R.
Proof.
  intros Hx Hy. rewrite extract_choi by assumption. destruct (OK (D * O)%nat (ch_mat c) SM (psd_hermitian _ _ P)) as [_ ED]. fold e V in ED. destruct (ED) as [[U1 U2] _].
  set (n := (D * O)%nat) in *. set (lost := fun t => (e t - kept t)%R).
  assert (L : forall t, t < n -> (0 <= lost t <= cutoff8)%R).
  { intros t Ht. unfold lost, kept. pose proof (psd_eig _ _ _ _ ED P t Ht) as Pe. destruct (below cutoff8 (e t)) eqn:B; [unfold cutoff8; lra|].
    split; [lra|]. apply Rnot_lt_le. intros Q. rewrite Rminus_0_r in Q. apply below_true in Q. congruence. }
  assert (ER : forall x y, x < n -> y < n -> me (ch_mat c) x y - diagonalised n V kept x y = diagonalised n V lost x y).
  { intros i j Hi Hj. rewrite (entry_form _ _ _ _ ED) by assumption. unfold diagonalised. rewrite <- bsum_sub. apply bsum_ext; intros t Ht.
    replace (rc (lost t)) with (rc (e t) - rc (kept t)) by (apply CC_eq; cbn; unfold lost; ring). ring. }
  rewrite ER by assumption. set (R := diagonalised n V lost) in *.
  assert (PR : psd n R) by (apply diagonalised_psd; intros; apply L; assumption).
  assert (DG : forall z, z < n -> (0 <= fst (R z z) <= cutoff8)%R).
  { intros z Hz. split; [apply (psd_diag_real n R z PR Hz)|].
    assert (PC : psd n (diagonalised n V (fun t => (cutoff8 - lost t)%R))) by (apply diagonalised_psd; intros t Ht; specialize (L t Ht); lra).
    destruct (psd_diag_real n _ z PC Hz) as [_ Q].
    assert (EQ : diagonalised n V (fun t => (cutoff8 - lost t)%R) z z = rc cutoff8 - R z z).
    { transitivity (rc cutoff8 * mm n V (adj V) z z - R z z).
      - unfold R, diagonalised, mm. rewrite <- bsum_mul_l, <- bsum_sub. apply bsum_ext; intros t Ht. unfold adj. replace (rc (cutoff8 - lost t)) with (rc cutoff8 - rc (lost t)) by (apply CC_eq; cbn; ring). ring.
      - rewrite U2 by assumption. unfold eye. rewrite Nat.eqb_refl. ring. }
    rewrite EQ in Q. set (w := R z z) in *. clearbody w. destruct w. cbn in Q |- *. lra. }
  pose proof (psd_minor n R x y PR Hx Hy) as M. pose proof (DG x Hx) as DX. pose proof (DG y Hy) as DY.
  assert (C0 : (0 <= cutoff8)%R) by (unfold cutoff8; lra).
  apply Rsqr_incr_0_var; [|exact C0]. unfold Rsqr. rewrite <- (Rmult_1_r (Cmod (R x y))) at 2. change (Cmod (R x y) * (Cmod (R x y) * 1))%R with (Cmod (R x y) ^ 2)%R. rewrite Cmod_sq.
  assert (B : (fst (R x x) * fst (R y y) <= cutoff8 * cutoff8)%R) by (apply Rmult_le_compat; lra). cbn in M |- *. nra.
Qed.
End Extract.
