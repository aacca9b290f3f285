(** What is encoded by codes whose generators are dependent (C92) or have an odd number
    of Ys (C93).  Specification: RankSpec.v, CodesSpec.v, PauliSpec.v, DependSpec.v.
    Model: CodesModel.v, PauliModel.v. *)
From Verif Require Import Py ZMat CodesModel RankSpec CodesSpec BoolLin Rank CodesProofs CodesProofs2 PropsCodes Scalar PauliModel PauliSpec DependSpec
  PauliProofs PauliProofs2 EncoderProofs EighExists PropsPauli DependProofs OddYProofs.
From Coq Require Import Reals Lra Permutation Classical.
Open Scope nat_scope.
Add Ring CCring42 : (s_rt CC).
Open Scope K_scope.

(** ** C92 *)
Definition minus_identity (n : nat) (Ss : list (marr CC)) : Prop :=
  exists l, incl l Ss /\ eqm (2 ^ n) (2 ^ n) (matrix_product (2 ^ n) (map me l)) (fun i j => - eye i j).

(** whether the generators are dependent plays no part in what is accepted *)
Theorem C92_accepted_partial rows n k : (0 < length rows)%nat -> length rows = (n - k)%nat -> Forall (fun r => length r = (2 * n)%nat) rows -> Forall binary rows -> all_commute n rows ->
  (exists r, is_rank 0 n (x_parts n rows) r /\ is_rank 2 n (x_parts n rows) r /\ exists c, init (Rows rows) n k None = Ok c) \/
  (exists r r', is_rank 0 n (x_parts n rows) r /\ is_rank 2 n (x_parts n rows) r' /\ (r' < r)%nat /\ init (Rows rows) n k None = Err AssertionError).
Proof. exact (accepts_commuting rows n k). Qed.
Print Assumptions C92_accepted_partial.

Theorem C92_dimension_partial eigh g n k ops c s : eigh_ok eigh -> init g n k ops = Ok c -> (1 <= n)%nat -> Forall binary (zd (stab c)) ->
  Forall (fun r => Nat.even (y_count n r) = true) (zd (stab c)) -> is_rank 2 (2 * n) (zd (stab c)) s ->
  exists (Ss : list (marr CC)) m E, binary_rep_to_pauli_mat (stab c) = Ok Ss /\ encode_krauss_operators eigh c = Ok (MA (2 ^ n) m E) /\
    (minus_identity n Ss -> m = O) /\ (~ minus_identity n Ss -> (2 ^ s * m = 2 ^ n)%nat).
Proof. exact (encoder_dimension eigh g n k ops c s). Qed.
Print Assumptions C92_dimension_partial.

Theorem C92_iff_independent_partial eigh g n k ops c m E : eigh_ok eigh -> init g n k ops = Ok c -> (1 <= n)%nat -> (k <= n)%nat -> length (zd (stab c)) = (n - k)%nat -> Forall binary (zd (stab c)) ->
  Forall (fun r => Nat.even (y_count n r) = true) (zd (stab c)) -> encode_krauss_operators eigh c = Ok (MA (2 ^ n) m E) ->
  (m = (2 ^ k)%nat <-> indep 2 (2 * n) (zd (stab c))).
Proof.
  intros EO I Hn Hk LN B Y EN. split.
  - intros Em. destruct (init_inv _ _ _ _ _ I) as (M & W & _ & ZC & ES & _). rewrite ES in *.
    pose proof (gf2_rank_spec M W) as RK. rewrite ZC in RK.
    destruct (C92_dimension_partial eigh g n k ops c (gf2_rank M) EO I Hn) as (Ss & m' & E' & _ & EN' & H1 & H2); try (rewrite ES; assumption).
    rewrite EN in EN'. injection EN' as <- _.
    pose proof (pow2_pos k) as Pk. assert (NM : ~ minus_identity n Ss) by (intros X; apply H1 in X; lia). apply H2 in NM. subst m.
    assert (S : gf2_rank M = (n - k)%nat). { apply (Nat.pow_inj_r 2); [lia|]. apply (Nat.mul_cancel_r _ _ (2 ^ k)%nat); [lia|]. rewrite NM, <- Nat.pow_add_r. f_equal. lia. }
    destruct RK as [(sub & rest & PM & Ls & D) _]. assert (rest = []). { apply Permutation_length in PM. rewrite app_length in PM. apply length_zero_iff_nil. lia. }
    subst rest. rewrite app_nil_r in PM. apply (indep_perm 2 (2 * n) sub); [symmetry; exact PM|exact D].
  - intros D. destruct (C13_encoder_isometry eigh g n k ops c EO I Hn B Y) as (Ss & m' & E' & _ & EN' & _ & _ & _ & H). rewrite EN in EN'. injection EN' as <- _. apply H; assumption.
Qed.
Print Assumptions C92_iff_independent_partial.

(** the repeated generator ZZI: four columns for k = 1; the generators XZII, ZXII, YYII,
    the product of which is minus the identity: no column at all *)
Definition twice : list pystr := [str "ZZI"; str "ZZI"].
Definition clash : list pystr := [str "XZII"; str "ZXII"; str "YYII"].

Lemma mats_of n l c Ss : (1 <= n)%nat -> init (Strings l) n 1 None = Ok c -> Forall binary (zd (stab c)) -> binary_rep_to_pauli_mat (stab c) = Ok Ss ->
  Forall2 (fun r S => mr S = (2 ^ n)%nat /\ mc S = (2 ^ n)%nat /\ eqm (2 ^ n) (2 ^ n) (me S) (P n r)) (zd (stab c)) Ss.
Proof.
  intros Hn I B EB. destruct (init_inv _ _ _ _ _ I) as (M & W & _ & ZC & ES & _). rewrite ES in *.
  assert (L : Forall (fun r => length r = (2 * n)%nat) (zd M)) by (destruct W as [_ W]; rewrite ZC in W; exact W).
  destruct (rowmats (K := CC) n (zd M) Hn L B) as (Ss' & EM & F).
  assert (Ss' = Ss) by (unfold binary_rep_to_pauli_mat in EB; rewrite ZC, CodesProofs.div2_double, EM in EB; congruence). subst Ss'. exact F.
Qed.

Lemma twice_code : exists c, init (Strings twice) 3 1 None = Ok c /\ zd (stab c) = rows_of twice /\ rows_of twice = [[0; 0; 0; 1; 1; 0]; [0; 0; 0; 1; 1; 0]]%Z /\ gf2_rank (stab c) = 1%nat /\ wf (stab c) /\ zc (stab c) = 6%nat.
Proof. eexists. split; [run|]. repeat split; try run. repeat constructor. Qed.
Lemma clash_code : exists c, init (Strings clash) 4 1 None = Ok c /\ zd (stab c) = rows_of clash /\ rows_of clash = [[1; 0; 0; 0; 0; 1; 0; 0]; [0; 1; 0; 0; 1; 0; 0; 0]; [1; 1; 0; 0; 1; 1; 0; 0]]%Z /\ gf2_rank (stab c) = 2%nat /\ wf (stab c) /\ zc (stab c) = 8%nat.
Proof. eexists. split; [run|]. repeat split; try run. repeat constructor. Qed.

Lemma even_rows_of n l : forallb (fun r => Nat.even (y_count n r)) l = true -> Forall (fun r => Nat.even (y_count n r) = true) l.
Proof. intros H. apply Forall_forall. intros r Hr. rewrite forallb_forall in H. apply H, Hr. Qed.
Lemma binary_rows l : forallb (forallb (fun x => Z.eqb x 0 || Z.eqb x 1)%bool) l = true -> Forall binary l.
Proof. intros H. apply Forall_forall. intros r Hr. rewrite forallb_forall in H. apply decide_binary, H, Hr. Qed.

Lemma twice_zero i : (i < 8)%nat -> P 3 [0; 0; 0; 1; 1; 0]%Z i O = (eye i O : CC).
Proof. intros Hi. unfold P. cbn [pm]. do 8 (destruct i as [|i]; [apply CC_eq; cbn; lra|]). lia. Qed.

Lemma clash_product : eqm 16 16 (mm 16 (P 4 [1; 0; 0; 0; 0; 1; 0; 0]%Z) (mm 16 (P 4 [0; 1; 0; 0; 1; 0; 0; 0]%Z) (P 4 [1; 1; 0; 0; 1; 1; 0; 0]%Z))) (fun i j => - eye i j : CC).
Proof.
  intros i j Hi Hj. change 16%nat with (2 ^ 4)%nat in *.
  rewrite (mm_congr_r (2 ^ 4) _ _ (fun a b => sgn (xsum 4 (fun l => zp 4 [0; 1; 0; 0; 1; 0; 0; 0]%Z l && xp [1; 1; 0; 0; 1; 1; 0; 0]%Z l)) * pm 4 (fun l => xorb (xp [0; 1; 0; 0; 1; 0; 0; 0]%Z l) (xp [1; 1; 0; 0; 1; 1; 0; 0]%Z l)) (fun l => xorb (zp 4 [0; 1; 0; 0; 1; 0; 0; 0]%Z l) (zp 4 [1; 1; 0; 0; 1; 1; 0; 0]%Z l)) a b)) by (intros t Ht; apply pm_mul; assumption).
  rewrite mm_scale_r. unfold P. rewrite pm_mul by assumption.
  rewrite (pm_ext 4 _ _ (fun _ => false) (fun _ => false)) by (intros l Hl; do 4 (destruct l as [|l]; [split; reflexivity|]); lia). rewrite pm_id by assumption.
  match goal with |- sgn ?a * (sgn ?b * _) = _ => let a' := eval vm_compute in a in let b' := eval vm_compute in b in change a with a'; change b with b' end. cbn [sgn]. ring.
Qed.

Theorem C92_refuted : exists eigh, eigh_ok eigh /\
  (exists c E, init (Strings twice) 3 1 None = Ok c /\ encode_krauss_operators eigh c = Ok (MA 8 4 E)) /\
  (exists c E, init (Strings clash) 4 1 None = Ok c /\ encode_krauss_operators eigh c = Ok (MA 16 0 E)).
Proof.
  exists gs_eigh. split; [exact gs_eigh_ok|]. split.
  - destruct twice_code as (c & I & Z1 & Z2 & RK & W & ZC). pose proof (gf2_rank_spec (stab c) W) as R. rewrite ZC, RK in R.
    assert (B : Forall binary (zd (stab c))) by (rewrite Z1, Z2; apply binary_rows; reflexivity).
    destruct (C92_dimension_partial gs_eigh _ 3 1 None c 1 gs_eigh_ok I ltac:(lia) B) as (Ss & m & E & EB & EN & _ & H); [rewrite Z1, Z2; apply even_rows_of; reflexivity|exact R|].
    exists c, E. split; [exact I|]. rewrite EN. assert (X : (2 ^ 1 * m = 2 ^ 3)%nat); [|f_equal; f_equal; cbn in X; lia]. apply H. clear H.
    intros (l & Hl & NG). pose proof (mats_of 3 twice c Ss ltac:(lia) I B EB) as F. rewrite Z1, Z2 in F.
    assert (S0 : forall S, In S Ss -> forall i, (i < 8)%nat -> me S i O = (eye i O : CC)).
    { intros S HS i Hi. inversion F as [|? A ? ? F1 F2]; subst. inversion F2 as [|? A' ? ? F3 F4]; subst. inversion F4; subst.
      destruct HS as [<-|[<-|[]]]; [rewrite (proj2 (proj2 F1))|rewrite (proj2 (proj2 F3))]; first [apply twice_zero; exact Hi|exact Hi|apply Nat.lt_0_succ]. }
    assert (PE : forall i, (i < 8)%nat -> matrix_product 8 (map me l) i O = (eye i O : CC)).
    { clear -S0 Hl. induction l as [|S l IH]; intros i Hi; [reflexivity|]. cbn [map matrix_product fold_right].
      rewrite (mm_congr_r 8 (me S) _ eye) by (intros t Ht; apply IH; [intros a Ha; apply Hl; right; exact Ha|exact Ht]). rewrite mm_eye_r by lia. apply S0; [apply Hl; left; reflexivity|exact Hi]. }
    pose proof (NG O O ltac:(cbn; lia) ltac:(cbn; lia)) as X. change (2 ^ 3)%nat with 8%nat in X. rewrite PE in X by lia. apply (f_equal fst) in X. cbn in X. lra.
  - destruct clash_code as (c & I & Z1 & Z2 & RK & W & ZC). pose proof (gf2_rank_spec (stab c) W) as R. rewrite ZC, RK in R.
    assert (B : Forall binary (zd (stab c))) by (rewrite Z1, Z2; apply binary_rows; reflexivity).
    destruct (C92_dimension_partial gs_eigh _ 4 1 None c 2 gs_eigh_ok I ltac:(lia) B) as (Ss & m & E & EB & EN & H & _); [rewrite Z1, Z2; apply even_rows_of; reflexivity|exact R|].
    exists c, E. split; [exact I|]. rewrite EN. rewrite H; [reflexivity|]. clear H.
    pose proof (mats_of 4 clash c Ss ltac:(lia) I B EB) as F. rewrite Z1, Z2 in F. exists Ss. split; [apply incl_refl|].
    inversion F as [|? A ? ? F1 F2]; subst. inversion F2 as [|? A' ? ? F3 F4]; subst. inversion F4 as [|? A2 ? ? F5 F6]; subst. inversion F6; subst. cbn [map matrix_product fold_right].
    eapply eqm_trans; [|exact clash_product]. change (2 ^ 4)%nat with 16%nat in *. apply mm_eqm; [apply F1|]. apply mm_eqm; [apply F3|].
    eapply eqm_trans; [|apply F5]. intros i j Hi Hj. apply mm_eye_r, Hj.
Qed.
Print Assumptions C92_refuted.
(** the hypotheses of C92_accepted_partial and C92_dimension_partial are met by dependent generators *)
Example C92_case : exists c, init (Strings twice) 3 1 None = Ok c /\ all_commute 3 (zd (stab c)) /\ is_rank 2 6 (zd (stab c)) 1 /\ ~ indep 2 6 (zd (stab c)).
Proof.
  destruct twice_code as (c & I & Z1 & Z2 & RK & W & ZC). exists c. split; [exact I|]. split; [exact (init_commutes _ _ _ _ _ I)|].
  pose proof (gf2_rank_spec (stab c) W) as R. rewrite ZC, RK in R. split; [exact R|]. intros D. apply rank_full in D. rewrite Z1, Z2 in *. pose proof (is_rank_unique _ _ _ _ _ R D) as X. discriminate.
Qed.

(** ** C93 *)
(** any code, any number of Ys: the columns are orthonormal; a generator with an odd
    number of Ys fixes no vector but zero; if the first generator is such a one, the
    columns are fixed by the Pauli string in which its first X or Y is exchanged, and
    the generator maps each of them out of the span of all of them *)
Theorem C93_odd_partial eigh g n k ops c : eigh_lower_ok eigh -> init g n k ops = Ok c -> (1 <= n)%nat -> Forall binary (zd (stab c)) ->
  exists (Ss : list (marr CC)) m E, binary_rep_to_pauli_mat (stab c) = Ok Ss /\ encode_krauss_operators eigh c = Ok (MA (2 ^ n) m E) /\
    eqm m m (mm (2 ^ n) (adj E) E) eye /\
    (forall j (v : nat -> CC), (j < length (zd (stab c)))%nat -> Nat.even (y_count n (nth j (zd (stab c)) [])) = false ->
       (forall i, (i < 2 ^ n)%nat -> bsum (2 ^ n) (fun l => me (nth j Ss mI) i l * v l) = v i) -> forall i, (i < 2 ^ n)%nat -> v i = 0) /\
    (Nat.even (y_count n (nth 0 (zd (stab c)) [])) = false -> exists P', binary_rep_to_pauli_mat (ZM 1 (2 * n) [exchange_first n (nth 0 (zd (stab c)) [])]) = Ok [MA (2 ^ n) (2 ^ n) P'] /\
       eqm (2 ^ n) m (mm (2 ^ n) P' E) E /\ eqm m m (mm (2 ^ n) (adj E) (mm (2 ^ n) (me (nth 0 Ss mI)) E)) (fun _ _ => 0)).
Proof. exact (odd_encoder eigh g n k ops c). Qed.
Print Assumptions C93_odd_partial.

(** when every generator has an even number of Ys the result is the one of C13 *)
Theorem C93_even_partial eigh g n k ops c : eigh_lower_ok eigh -> init g n k ops = Ok c -> (1 <= n)%nat ->
  Forall binary (zd (stab c)) -> Forall (fun r => Nat.even (y_count n r) = true) (zd (stab c)) ->
  exists (Ss : list (marr CC)) m E, binary_rep_to_pauli_mat (stab c) = Ok Ss /\ encode_krauss_operators eigh c = Ok (MA (2 ^ n) m E) /\
    eqm m m (mm (2 ^ n) (adj E) E) eye /\
    (forall S, In S Ss -> eqm (2 ^ n) m (mm (2 ^ n) (me S) E) E) /\
    (forall v : nat -> CC, (forall S, In S Ss -> forall i, (i < 2 ^ n)%nat -> bsum (2 ^ n) (fun l => me S i l * v l) = v i) ->
       forall i, (i < 2 ^ n)%nat -> bsum m (fun t => E i t * bsum (2 ^ n) (fun l => (E l t)^* * v l)) = v i).
Proof.
  intros EO I Hn B Y. destruct (C13_encoder_isometry eigh g n k ops c (eigh_lower_eigh eigh EO) I Hn B Y) as (Ss & m & E & H1 & H2 & H3 & H4 & H5 & _).
  exists Ss, m, E. auto.
Qed.
Print Assumptions C93_even_partial.

(** one generator, an odd number of Ys: the encoder has as many columns as the code
    space should have, and not one of them is fixed by the generator or by any multiple
    of it (such as i or -i times it, the textbook Y up to sign) *)
Theorem C93_single_partial eigh g n k ops c r : eigh_lower_ok eigh -> init g n k ops = Ok c -> (1 <= n)%nat -> zd (stab c) = [r] -> binary r -> Nat.even (y_count n r) = false ->
  exists S m E, binary_rep_to_pauli_mat (stab c) = Ok [S] /\ encode_krauss_operators eigh c = Ok (MA (2 ^ n) m E) /\ eqm m m (mm (2 ^ n) (adj E) E) eye /\ (2 * m = 2 ^ n)%nat /\
    forall t (a : CC), (t < m)%nat -> ~ (forall i, (i < 2 ^ n)%nat -> a * mm (2 ^ n) (me S) E i t = E i t).
Proof.
  intros EO I Hn ZD Br Y. destruct (C93_odd_partial eigh g n k ops c EO I Hn) as (Ss & m & E & EB & EN & IS & _ & H); [rewrite ZD; constructor; [exact Br|constructor]|].
  destruct (odd_single eigh g n k ops c r EO I Hn ZD Br Y) as (m' & E' & EN' & D). rewrite EN in EN'. injection EN' as <- <-.
  assert (LS : length Ss = 1%nat).
  { unfold binary_rep_to_pauli_mat in EB. rewrite ZD in EB. cbn [mapM] in EB. destruct (pauli_row_mat _ r); [|discriminate]. cbn [bind] in EB. injection EB as <-. reflexivity. }
  destruct Ss as [|S [|]]; try discriminate. rewrite ZD in H. cbn [nth] in H. destruct (H Y) as (P' & _ & _ & OR).
  exists S, m, E. split; [exact EB|]. split; [exact EN|]. split; [exact IS|]. split; [exact D|].
  intros t a Ht FX. pose proof (OR t t Ht Ht) as X. cbn [nth] in X. pose proof (IS t t Ht Ht) as X1. unfold eye in X1. rewrite Nat.eqb_refl in X1.
  assert (X2 : a * mm (2 ^ n) (adj E) (mm (2 ^ n) (me S) E) t t = mm (2 ^ n) (adj E) E t t).
  { unfold mm at 1 3. rewrite <- bsum_mul_l. apply bsum_ext. intros l Hl. rewrite <- (FX l Hl) at 1. ring. }
  rewrite X, X1 in X2. apply (f_equal fst) in X2. cbn in X2. lra.
Qed.
Print Assumptions C93_single_partial.

(** YI on two qubits: two orthonormal columns fixed by XI, none of which is in a code
    space of YI, whichever phase Y is given *)
Lemma yi_code : exists c, init (Strings [str "YI"]) 2 1 None = Ok c /\ zd (stab c) = [[1; 0; 1; 0]]%Z.
Proof. eexists. split; run. Qed.
Theorem C93_refuted : exists eigh, eigh_lower_ok eigh /\ exists c S E P', init (Strings [str "YI"]) 2 1 None = Ok c /\ binary_rep_to_pauli_mat (stab c) = Ok [S] /\
  encode_krauss_operators eigh c = Ok (MA 4 2 E) /\ eqm 2 2 (mm 4 (adj E) E) eye /\
  binary_rep_to_pauli_mat (ZM 1 4 [[1; 0; 0; 0]]%Z) = Ok [MA 4 4 P'] /\ eqm 4 2 (mm 4 P' E) E /\
  forall t (a : CC), (t < 2)%nat -> ~ (forall i, (i < 4)%nat -> a * mm 4 (me S) E i t = E i t).
Proof.
  destruct eigh_lower_exists as (eigh & EO). exists eigh. split; [exact EO|]. destruct yi_code as (c & I & ZD).
  assert (Br : binary [1; 0; 1; 0]%Z) by (apply decide_binary; reflexivity).
  destruct (C93_single_partial eigh _ 2 1 None c _ EO I ltac:(lia) ZD Br eq_refl) as (S & m & E & EB & EN & IS & D & N).
  assert (m = 2%nat) by (cbn in D; lia). subst m.
  destruct (C93_odd_partial eigh _ 2 1 None c EO I ltac:(lia)) as (Ss & m & E' & EB' & EN' & _ & _ & H); [rewrite ZD; constructor; [exact Br|constructor]|].
  rewrite EN in EN'. injection EN' as <- <-. rewrite ZD in H. cbn [nth] in H. destruct (H eq_refl) as (P' & EP & FP & _).
  exists c, S, E, P'. split; [exact I|]. split; [exact EB|]. split; [exact EN|]. split; [exact IS|]. split; [exact EP|]. split; [exact FP|exact N].
Qed.
Print Assumptions C93_refuted.
Example C93_case_contract : exists eigh, eigh_lower_ok eigh.
Proof. exact eigh_lower_exists. Qed.
(** a code with an odd first generator and an even second one *)
Example C93_case : exists c, init (Strings [str "YII"; str "IZZ"]) 3 1 None = Ok c /\ Forall binary (zd (stab c)) /\ Nat.even (y_count 3 (nth 0 (zd (stab c)) [])) = false /\
  exchange_first 3 (nth 0 (zd (stab c)) []) = [1; 0; 0; 0; 0; 0]%Z.
Proof. eexists. split; [run|]. split; [apply binary_rows; run|]. split; run. Qed.
