(** Proofs about kraus_operators_correcting_errors (C14). *)
From Verif Require Import Py ZMat CodesModel RankSpec CodesSpec BoolLin Rank CodesProofs CodesProofs2 Scalar PauliModel PauliSpec PauliProofs PauliProofs2 EncoderProofs.
From Coq Require Import Reals Lra.
Open Scope nat_scope.
Open Scope K_scope.
Add Ring CCring3 : (s_rt CC).

Lemma Cmod_rc_mul s (a : CC) : Cmod (sgn s * a) = Cmod a.
Proof. unfold Cmod. destruct a as [x y]. destruct s; cbn; f_equal; ring. Qed.

Lemma Cmod_double (a : CC) : Cmod (a + a) = (2 * Cmod a)%R.
Proof.
  unfold Cmod. destruct a as [x y]. cbn.
  replace ((x + x) * (x + x) + (y + y) * (y + y))%R with ((2 * 2) * (x * x + y * y))%R by ring.
  rewrite sqrt_mult by nra. rewrite sqrt_square by lra. reflexivity.
Qed.

Lemma all_small_zero (A B : marr CC) : (forall i j, i < mr A -> j < mc A -> me A i j + me B i j = 0) -> all_sum_small A B = true.
Proof.
  intros H. unfold all_sum_small. apply forallb_forall. intros i Hi. apply forallb_forall. intros j Hj. apply in_seq in Hi, Hj.
  rewrite H by lia. unfold below, Cmod, tol5. cbn.
  replace (0 * 0 + 0 * 0)%R with 0%R by ring. rewrite sqrt_0. destruct (Rlt_dec 0 (/ 100000)); [reflexivity|]. lra.
Qed.

Lemma all_small_entry (A B : marr CC) i j : all_sum_small A B = true -> i < mr A -> j < mc A -> (Cmod (me A i j + me B i j) < tol5)%R.
Proof.
  intros H Hi Hj. unfold all_sum_small in H. rewrite forallb_forall in H. specialize (H i). rewrite in_seq in H.
  specialize (H ltac:(lia)). rewrite forallb_forall in H. specialize (H j). rewrite in_seq in H. specialize (H ltac:(lia)).
  unfold below in H. destruct (Rlt_dec _ _); [assumption|discriminate].
Qed.

Section One.
Variable n : nat.
Let N := (2 ^ n)%nat.
Variables (r b : list Z) (S E : array CC) (a : CC).
Hypothesis HS : eqm N N S (P n r).
Hypothesis HE : eqm N N E (scale a (P n b)).

Lemma mm_SE i j : i < N -> j < N -> mm N S E i j = a * mm N (P n r) (P n b) i j.
Proof. intros Hi Hj. rewrite (mm_eqm N N N _ _ _ _ HS HE i j Hi Hj). apply mm_scale_r. Qed.
Lemma mm_ES i j : i < N -> j < N -> mm N E S i j = a * mm N (P n b) (P n r) i j.
Proof. intros Hi Hj. rewrite (mm_eqm N N N _ _ _ _ HE HS i j Hi Hj). apply mm_scale_l. Qed.

Lemma small_iff : (tol5 <= Cmod a)%R ->
  all_sum_small (MA N N (mm N E S)) (MA N N (mm N S E)) = ip n (brow r) (brow b).
Proof.
  intros Ha. pose proof (commute_sign n r b (P n r) (P n b) (eqm_refl _ _ _) (eqm_refl _ _ _)) as C. unfold scale in C.
  destruct (ip n (brow r) (brow b)).
  - apply all_small_zero. cbn [mr mc me]. intros i j Hi Hj. rewrite mm_SE, mm_ES by assumption.
    rewrite C by assumption. cbn [sgn]. fold N. ring.
  - destruct (all_sum_small _ _) eqn:Es; [|reflexivity]. exfalso.
    destruct (prod_nonzero n b r (P n b) (P n r) (eqm_refl _ _ _) (eqm_refl _ _ _)) as (i & s & Hi & Ei).
    pose proof (all_small_entry _ _ i O Es Hi (pow2_pos n)) as Hs. cbn [me] in Hs.
    rewrite mm_SE, mm_ES in Hs by (exact Hi || exact (pow2_pos n)). rewrite C in Hs by (exact Hi || exact (pow2_pos n)).
    fold N in Ei, Hs. rewrite Ei in Hs. cbn [sgn] in Hs.
    replace (a * sgn s + a * (1 * sgn s)) with (sgn s * a + sgn s * a) in Hs by ring.
    rewrite Cmod_double, Cmod_rc_mul in Hs. unfold tol5 in *. assert (0 < / 100000)%R by (apply Rinv_0_lt_compat; lra). lra.
Qed.
End One.

Section Correct.
Variable n : nat.
Let N := (2 ^ n)%nat.

(** one error: the result is the error or a generator times it *)
Lemma correct_shape Ss E : Forall (fun S => mr S = N /\ mc S = N) Ss ->
  exists K, correct_error Ss (MA N N E) = Ok (MA N N K) /\ (K = E \/ exists S, In S Ss /\ K = mm N (me S) E).
Proof.
  induction 1 as [|S Ss [R1 R2] F IH]; [exists E; split; [reflexivity|left; reflexivity]|].
  cbn [correct_error]. unfold np_dot. cbn [mr mc me]. rewrite R1, R2, Nat.eqb_refl. cbn [bind mr mc]. rewrite !Nat.eqb_refl. cbn [andb].
  destruct (all_sum_small _ _).
  - eexists. split; [reflexivity|]. right. exists S. split; [left; reflexivity|reflexivity].
  - destruct IH as (K & E1 & E2). exists K. split; [exact E1|]. destruct E2 as [->|(S' & HS' & ->)]; [left; reflexivity|].
    right. exists S'. split; [right; exact HS'|reflexivity].
Qed.

Lemma correct_pauli rows Ss E a b :
  Forall2 (fun r S => mr S = N /\ mc S = N /\ eqm N N (me S) (P n r)) rows Ss ->
  eqm N N E (scale a (P n b)) -> (tol5 <= Cmod a)%R ->
  correct_error Ss (MA N N E) =
    Ok (MA N N (match find (fun rS => ip n (brow (fst rS)) (brow b)) (combine rows Ss) with
                | Some rS => mm N (me (snd rS)) E | None => E end)).
Proof.
  intros F HE Ha. induction F as [|r S rows Ss (R1 & R2 & HS) F IH]; [reflexivity|].
  cbn [correct_error combine find]. unfold np_dot. cbn [mr mc me fst snd]. rewrite R1, R2, Nat.eqb_refl. cbn [bind mr mc]. rewrite !Nat.eqb_refl. cbn [andb].
  pose proof (small_iff n r b (me S) E a HS HE Ha) as SM. fold N in SM. rewrite SM.
  destruct (ip n (brow r) (brow b)); [reflexivity|exact IH].
Qed.
End Correct.

Lemma gram_unitary d (U E : array CC) : unitary d U -> eqm d d (mm d (adj (mm d U E)) (mm d U E)) (mm d (adj E) E).
Proof.
  intros [H _] i j Hi Hj. rewrite (mm_congr_l d d (adj (mm d U E)) (mm d (adj E) (adj U))) by (auto; intros a b _ _; apply adj_mm).
  rewrite mm_assoc. apply mm_congr_r. intros l Hl. rewrite <- mm_assoc.
  rewrite (mm_congr_l d d (mm d (adj U) U) eye) by assumption. apply mm_eye_l; exact Hl.
Qed.

Theorem correcting_errors g n k ops c (errors : list (array CC)) : init g n k ops = Ok c -> 1 <= n ->
  Forall binary (zd (stab c)) ->
  exists Ss Ks, binary_rep_to_pauli_mat (stab c) = Ok Ss /\
    kraus_operators_correcting_errors c (map (MA (2 ^ n) (2 ^ n)) errors) = Ok (map (MA (2 ^ n) (2 ^ n)) Ks) /\
    length Ks = length errors /\
    eqm (2 ^ n) (2 ^ n) (gram_sum (2 ^ n) Ks) (gram_sum (2 ^ n) errors) /\
    (forall t b B a, t < length errors -> length b = (2 * n)%nat -> binary b ->
       binary_rep_to_pauli_mat (ZM 1 (2 * n) [b]) = Ok [MA (2 ^ n) (2 ^ n) B] ->
       eqm (2 ^ n) (2 ^ n) (nth t errors eye) (scale a B) -> (tol5 <= Cmod a)%R ->
       ((forall r, In r (zd (stab c)) -> inner_prod r b = 0%Z) ->
          eqm (2 ^ n) (2 ^ n) (nth t Ks eye) (nth t errors eye)) /\
       (forall j, j < length (zd (stab c)) -> inner_prod (nth j (zd (stab c)) []) b = 1%Z ->
          (forall i, i < j -> inner_prod (nth i (zd (stab c)) []) b = 0%Z) ->
          eqm (2 ^ n) (2 ^ n) (nth t Ks eye) (mm (2 ^ n) (me (nth j Ss mI)) (nth t errors eye)))).
Proof.
  intros I Hn B. destruct (init_inv _ _ _ _ _ I) as (M & W & _ & ZC & ES & Hk & Hp & _). rewrite ES in *.
  assert (L : Forall (fun r => length r = (2 * n)%nat) (zd M)) by (destruct W as [_ W]; rewrite ZC in W; exact W).
  destruct (rowmats (K := CC) n (zd M) Hn L B) as (Ss & EM & F). change (fun r => pm n (xp r) (zp n r)) with (P n) in F.
  assert (EB : binary_rep_to_pauli_mat (K := CC) M = Ok Ss) by (unfold binary_rep_to_pauli_mat; rewrite ZC, CodesProofs.div2_double; exact EM).
  assert (FS : Forall (fun S => mr S = (2 ^ n)%nat /\ mc S = (2 ^ n)%nat) Ss).
  { clear -F. induction F as [|r S rows Ss (H1 & H2 & _) F IH]; constructor; auto. }
  assert (US : forall S, In S Ss -> unitary (2 ^ n) (me S)).
  { clear -F. induction F as [|r S rows Ss (H1 & H2 & H3) F IH]; intros S' []; [subst|auto].
    eapply unitary_ext; [exact H3|apply pm_unitary]. }
  exists Ss. unfold kraus_operators_correcting_errors. rewrite ES, EB. cbn [bind].
  induction errors as [|E errs IH].
  - exists []. split; [reflexivity|]. split; [reflexivity|]. split; [reflexivity|]. split; [intros i j _ _; reflexivity|].
    intros t b Bm a Ht. simpl in Ht. lia.
  - destruct IH as (Ks & _ & E1 & E2 & E3 & E4). destruct (correct_shape n Ss E FS) as (K & EK & SK).
    exists (K :: Ks). split; [reflexivity|]. split; [cbn [map mapM]; rewrite EK, E1; reflexivity|]. split; [simpl; lia|]. split.
    + intros i j Hi Hj. cbn [gram_sum fold_right]. unfold gram_sum in E3. change (@fold_right CC (array CC)) with (@fold_right CC (array CC)).
      unfold gram_sum. cbn [fold_right]. rewrite (E3 i j Hi Hj). f_equal. destruct SK as [->|(S & HS & ->)]; [reflexivity|].
      apply gram_unitary; [apply US; exact HS|exact Hi|exact Hj].
    + intros t b Bm a Ht Lb Bb HB HE Ha. destruct t as [|t]; [|cbn [nth]; apply (E4 t b Bm a); try assumption; simpl in Ht; lia].
      cbn [nth] in *.
      assert (HBm : eqm (2 ^ n) (2 ^ n) Bm (P n b)).
      { destruct (pauli_row_mat_spec (K := CC) n b Hn Lb Bb) as (A' & EA' & HA').
        unfold binary_rep_to_pauli_mat in HB. cbn [zc zd mapM] in HB. rewrite CodesProofs.div2_double, EA' in HB. cbn in HB. injection HB as <-. exact HA'. }
      assert (HE' : eqm (2 ^ n) (2 ^ n) E (scale a (P n b))).
      { intros i j Hi Hj. rewrite HE by assumption. unfold scale. rewrite HBm by assumption. reflexivity. }
      rewrite (correct_pauli n (zd M) Ss E a b F HE' Ha) in EK. injection EK as <-.
      assert (IPE : forall r, In r (zd M) -> inner_prod r b = Z.b2z (ip n (brow r) (brow b))).
      { intros r Hr. apply inner_prod_ip; [|exact Lb]. rewrite Forall_forall in L. apply L, Hr. }
      clear -F IPE. split.
      * intros H. destruct (find _ _) as [[r S]|] eqn:Ef; [|apply eqm_refl]. exfalso. apply find_some in Ef. destruct Ef as [Hin Hip]. cbn [fst] in Hip.
        apply in_combine_l in Hin. specialize (H r Hin). rewrite IPE, Hip in H by exact Hin. discriminate.
      * revert IPE. generalize (zd M) as rows, Ss, F. clear. intros rows Ss F. induction F as [|r S rows Ss H F IH]; intros IPE j Hj H1 H2; [simpl in Hj; lia|].
        cbn [combine find fst snd]. destruct j as [|j].
        -- cbn [nth] in *. rewrite IPE in H1 by (left; reflexivity). destruct (ip n (brow r) (brow b)); [|discriminate]. apply eqm_refl.
        -- pose proof (H2 O ltac:(lia)) as H0. cbn [nth] in H0. rewrite IPE in H0 by (left; reflexivity).
           destruct (ip n (brow r) (brow b)); [discriminate|]. cbn [nth] in *. apply IH.
           ++ intros r' Hr'. apply IPE. right; exact Hr'.
           ++ simpl in Hj. lia.
           ++ exact H1.
           ++ intros i Hi. apply (H2 (Datatypes.S i)). lia.
Qed.
