(** The repetition code, continued: the operators, a decoder, the optimum. *)
From Verif Require Import Py ZMat CodesModel RankSpec CodesSpec CodesProofs PropsCodes Scalar PauliModel PauliSpec EncoderProofs EighExists KrausModel KrausSpec KrausProofs KrausProofs2 KrausProofs8 KrausProofs10 KrausExamples
  Spectral SpectralProofs SpectralExists ChoiModel ChoiSpec ChoiProofs ChoiProofs2 ChannelModel FindModel FindSpec FindProofs PropsPauli AvgFidModel AvgFidSpec AvgFidProofs AvgFidProofs2 AvgFidProofs3 AvgFidExample.
From Coq Require Import Reals Lra ClassicalChoice.
Open Scope nat_scope.
Open Scope K_scope.
Add Ring CCring29 : (s_rt CC).


(** ** the operators error . encoder *)
Theorem rep3_operators eigh c : keeps_diagonal eigh -> init (Strings rep3) 3 1 None = Ok c ->
  exists kraus, encoded_operators eigh (Strings rep3) 3 1 flips = Ok kraus /\ same_ops kraus flipped.
Proof.
  intros HK I. destruct (rep3_encoder eigh c HK I) as (E & EE & HE). destruct (error_channel_ok flips 3 ltac:(discriminate) flips_fits flips_tp ltac:(lia)) as (o & EO & SO).
  pose proof (fits_power 2 2 _ 3 flips_fits) as FP. pose proof (fits_same _ _ _ _ FP SO) as FO.
  unfold encoded_operators. rewrite I. cbn [bind]. rewrite EO. cbn [bind]. rewrite EE. cbn [bind]. rewrite (dots _ (MA 8 2 E) 8 FO eq_refl). eexists. split; [reflexivity|].
  eapply same_ops_trans; [|exact flipped_ok]. revert SO FO. generalize (slices (nth_ops o)) as l. generalize (power_ops (arg_matrices flips) 3) as m. clear -HE.
  intros m l SO. induction SO as [|A B l m (E1 & E2 & E3) SO IH]; intros FO; [constructor|]. inversion FO as [|? ? [F1 F2] F3]; subst. cbn [map]. constructor; [|apply IH; exact F3].
  split; [exact F1|]. split; [reflexivity|]. unfold product. cbn [mr mc me]. rewrite F1, F2. intros i t Hi Ht. unfold mm.
  assert (H7 : (7 * t < 8)%nat) by lia. rewrite (bsum_one 8 (7 * t)%nat); [|exact H7|].
  - rewrite (HE _ t H7 Ht). rewrite (E3 i (7 * t)%nat); [|cbn in *; lia|cbn in *; lia]. unfold eye. rewrite Nat.eqb_refl. ring.
  - intros l' Hl N. rewrite (HE l' t Hl Ht). unfold eye. destruct (Nat.eqb_spec l' (7 * t)); [contradiction|]. ring.
Qed.

(** ** entries in range decide everything *)
Lemma same_dot N D (A A' B B' : marr CC) : mr A = N -> mc A = D -> mr B = N -> mc B = D -> same_mat A A' -> same_mat B B' ->
  tr D (mm N (adj (me A)) (me B)) = tr D (mm N (adj (me A')) (me B')).
Proof.
  intros A1 A2 B1 B2 (_ & _ & EA) (_ & _ & EB). unfold tr, mm, adj. apply bsum_ext; intros t Ht. apply bsum_ext; intros i Hi. rewrite EA, EB by congruence. reflexivity.
Qed.
Lemma same_real l m : same_ops l m -> real_matrices m -> real_matrices l.
Proof.
  intros H. induction H as [|A B l m (E1 & E2 & E3) H IH]; intros HR; [constructor|]. inversion HR as [|? ? R1 R2]; subst. constructor; [|apply IH; exact R2].
  intros i j Hi Hj. rewrite E3 by assumption. apply R1; congruence.
Qed.
Lemma same_orth N D l m : fits N D l -> same_ops l m -> ForallOrdPairs (fun A B : marr CC => tr D (mm N (adj (me A)) (me B)) = 0) m ->
  ForallOrdPairs (fun A B : marr CC => tr D (mm N (adj (me A)) (me B)) = 0) l.
Proof.
  intros F H. revert F. induction H as [|A B l m EA H IH]; intros F HO; [constructor|]. inversion HO as [|? ? O1 O2]; subst. inversion F as [|? ? [F1 F2] F3]; subst. constructor; [|apply IH; assumption].
  clear -EA H O1 F3. revert O1 F3. induction H as [|A' B' l m EA' H IH]; intros O1 F3; [constructor|]. inversion O1; inversion F3 as [|? ? [G1 G2] G3]; subst. constructor; [|apply IH; assumption].
  rewrite (same_dot (mr A) (mc A) A B A' B'); auto.
Qed.
Lemma same_norm N D q l m : fits N D l -> same_ops l m -> Forall (fun A : marr CC => (fst (tr D (mm N (adj (me A)) (me A))) <= q)%R) m ->
  Forall (fun A : marr CC => (fst (tr D (mm N (adj (me A)) (me A))) <= q)%R) l.
Proof.
  intros F H. revert F. induction H as [|A B l m EA H IH]; intros F HO; [constructor|]. inversion HO as [|? ? O1 O2]; subst. inversion F as [|? ? [F1 F2] F3]; subst. constructor; [|apply IH; assumption].
  rewrite (same_dot (mr A) (mc A) A B A B); auto.
Qed.

(** ** the decoder that takes the majority *)
Definition majority : list (marr CC) := map (fun s => MA 2 8 (adj (me (one_flip s 1)))) [0; 1; 2; 4]%nat.
Lemma majority_fits : fits 2 8 majority. Proof. repeat constructor. Qed.
Lemma majority_term s i j a : adj (adj (me (one_flip s 1))) i a * adj (me (one_flip s 1)) a j =
  if (Nat.eqb i (Nat.lxor s (7 * a)) && Nat.eqb j (Nat.lxor s (7 * a)))%bool then 1 else 0.
Proof. unfold adj, one_flip. cbn [me]. destruct (Nat.eqb i (Nat.lxor s (7 * a))), (Nat.eqb j (Nat.lxor s (7 * a))); apply CC_eq; cbn; ring. Qed.
Lemma majority_tp : trace_preserving 8 majority.
Proof.
  intros i j Hi Hj. unfold majority. cbn [map]. rewrite !ksum_cons, ksum_nil. cbn [mr me]. unfold mm. cbn [bsum]. rewrite !majority_term. unfold eye.
  do 8 (destruct i as [|i]; [do 8 (destruct j as [|j]; [cbn [Nat.lxor Nat.max Nat.mul Nat.add Nat.eqb andb Nat.bitwise Nat.odd Nat.even negb xorb Nat.div2]; ring|]); lia|]). lia.
Qed.
Lemma flip_norm2 b w w' : (b < 8)%nat -> tr 2 (mm 8 (adj (me (one_flip b w))) (me (one_flip b w'))) = rc (2 * (w * w'))%R.
Proof.
  intros Hb. unfold tr. rewrite (bsum_ext 2 _ (fun _ => rc (w * w')%R)).
  - cbn [bsum]. apply CC_eq; cbn; ring.
  - intros t Ht. unfold mm. rewrite (bsum_one 8 (Nat.lxor b (7 * t))).
    + rewrite flip_term, Nat.eqb_refl. reflexivity.
    + destruct t as [|[|t]]; [| |lia]; do 8 (destruct b as [|b]; [cbn; lia|]); lia.
    + intros i _ N. rewrite flip_term. destruct (Nat.eqb_spec i (Nat.lxor b (7 * t))); [contradiction|reflexivity].
Qed.
Lemma flip_dot b w b' w' : (b < 8)%nat -> tr 2 (mm 8 (adj (me (one_flip b w))) (me (one_flip b' w'))) = if Nat.eqb b b' then rc (2 * (w * w'))%R else 0.
Proof. intros Hb. destruct (Nat.eqb_spec b b') as [<-|N]; [apply flip_norm2, Hb|apply flip_orth, N]. Qed.
Lemma fidelity_mixed (kraus Rs : list (marr CC)) N D : fits N D kraus -> fits D N Rs ->
  entanglement_fidelity (prod_ops Rs kraus) (mixed D) =
  reals_sum (map (fun R0 => reals_sum (map (fun A => (Cmod (tr D (mm N (me R0) (me A))) ^ 2 * (/ INR D) ^ 2)%R) kraus)) Rs).
Proof.
  intros F FR. unfold entanglement_fidelity, prod_ops. rewrite reals_flat. f_equal. apply map_ext_in. intros R0 HR0. rewrite map_map. f_equal. apply map_ext_in. intros A HA.
  destruct (proj1 (Forall_forall _ _) F A HA) as [A1 A2]. destruct (proj1 (Forall_forall _ _) FR R0 HR0) as [B1 B2]. cbn [mr mc me]. rewrite A2, B1, B2. apply eq_trans with (2 := Cmod_scale_sq _ _). rewrite tr_mixed. reflexivity.
Qed.
Lemma same_terms N D (R0 : marr CC) l m : fits N D l -> mr R0 = D -> mc R0 = N -> same_ops l m ->
  map (fun A => (Cmod (tr D (mm N (me R0) (me A))) ^ 2 * (/ INR D) ^ 2)%R) l = map (fun A => (Cmod (tr D (mm N (me R0) (me A))) ^ 2 * (/ INR D) ^ 2)%R) m.
Proof.
  intros F R1 R2 H. revert F. induction H as [|A B l m (E1 & E2 & E3) H IH]; intros F; [reflexivity|]. inversion F as [|? ? [F1 F2] F3]; subst. cbn [map]. f_equal; [|apply IH; assumption].
  f_equal. f_equal. f_equal. unfold tr, mm. apply bsum_ext; intros t Ht. apply bsum_ext; intros i Hi. rewrite E3 by congruence. reflexivity.
Qed.
Lemma Cmod_rc2 x : (Cmod (rc x) ^ 2 = x * x)%R.
Proof. rewrite Cmod_sq. cbn. ring. Qed.
Lemma Cmod_02 : (Cmod 0 ^ 2 = 0)%R.
Proof. rewrite Cmod_sq. cbn. ring. Qed.
Theorem majority_fidelity kraus : same_ops kraus flipped -> entanglement_fidelity (prod_ops majority kraus) (mixed 2) = (likeliest + 3 * ((16 / 25) ^ 2 * (9 / 25)))%R.
Proof.
  intros H. pose proof (fits_same _ _ _ _ flipped_fits H) as F. rewrite (fidelity_mixed kraus majority 8 2 F majority_fits). unfold majority. cbn [map]. 
  rewrite !(same_terms 8 2 _ kraus flipped F) by (reflexivity || assumption). unfold flipped. cbn [map me].
  rewrite !flip_dot by lia. cbn [Nat.eqb]. rewrite !Cmod_rc2, !Cmod_02. unfold reals_sum, likeliest. cbn [fold_right INR]. field.
Qed.
