(** Proofs about what the corrected errors do to encoded states (C115, C116). *)
From Verif Require Import Py ZMat CodesModel RankSpec CodesSpec BoolLin Rank CodesProofs CodesProofs2 Scalar PauliModel PauliSpec PauliProofs PauliProofs2 EncoderProofs CorrectProofs KrausModel KrausSpec KrausProofs KrausProofs2 KrausProofs8 KrausProofs10
  ChoiModel ChoiSpec ChoiProofs3 ChannelModel ChannelSpec EntropySpec EntropyProofs CohProofs CohProofs2 CohProofs3 DeviceProofs4 FindModel FindSpec FindProofs NoCorrectSpec.
From Coq Require Import Reals Lra.
Open Scope nat_scope.
Open Scope K_scope.
Add Ring CCring55 : (s_rt CC).

(** ** Pauli multiples *)
Definition pmult (n : nat) (A : marr CC) : Prop := mr A = (2 ^ n)%nat /\ mc A = (2 ^ n)%nat /\ exists a x z, eqm (2 ^ n) (2 ^ n) (me A) (scale a (pm n x z)).
Lemma multiple_form n a b A : 1 <= n -> pauli_multiple_of n a b A -> eqm (2 ^ n) (2 ^ n) (me A) (scale a (P n b)).
Proof.
  intros Hn (_ & _ & L & Bi & B & EB & H). destruct (pauli_row_mat_spec (K := CC) n b Hn L Bi) as (C & EC & HC).
  unfold binary_rep_to_pauli_mat in EB. cbn [zc zd mapM] in EB. rewrite CodesProofs.div2_double, EC in EB. cbn in EB. injection EB as <-.
  intros i j Hi Hj. rewrite H by assumption. unfold scale. rewrite HC by assumption. reflexivity.
Qed.
Lemma multiple_pmult n A : 1 <= n -> pauli_multiple n A -> pmult n A.
Proof. intros Hn (a & b & H). pose proof (multiple_form n a b A Hn H) as E. destruct H as (H1 & H2 & _). split; [exact H1|]. split; [exact H2|]. exists a, (xp b), (zp n b). exact E. Qed.

(** the new qubit of a Kronecker product is the first one *)
Lemma mod_split i d : d <> 0%nat -> ((i / 2) mod d = (i mod (2 * d)) / 2 /\ i mod 2 = (i mod (2 * d)) mod 2 /\ i / 2 / d = i / (2 * d))%nat.
Proof.
  intros Hd. rewrite Nat.mod_mul_r by lia. rewrite (Nat.mul_comm 2 ((i / 2) mod d)).
  rewrite Nat.div_add, Nat.mod_add by lia. rewrite Nat.div_div by lia. pose proof (Nat.mod_upper_bound i 2 ltac:(lia)).
  rewrite (Nat.div_small (i mod 2)) by lia. rewrite (Nat.mod_small (i mod 2)) by lia. auto.
Qed.
Lemma pm_head n x z : forall i j, i < 2 ^ S n -> j < 2 ^ S n -> pm (K := CC) (S n) x z i j =
  q (x O) (z O) (i / 2 ^ n)%nat (j / 2 ^ n)%nat * pm n (fun l => x (S l)) (fun l => z (S l)) (i mod 2 ^ n)%nat (j mod 2 ^ n)%nat.
Proof.
  induction n as [|n IH]; intros i j Hi Hj.
  - cbn [pm Nat.pow] in *. rewrite !Nat.div_1_r, !Nat.mod_small by lia. ring.
  - pose proof (pow2_pos n) as P0. change (pm (K := CC) (S (S n)) x z i j) with ((pm (K := CC) (S n) x z (i / 2)%nat (j / 2)%nat * q (K := CC) (x (S n)) (z (S n)) (i mod 2)%nat (j mod 2)%nat) : CC).
    rewrite IH by (apply div2_lt; assumption).
    destruct (mod_split i (2 ^ n)) as (A1 & A2 & A3); [lia|]. destruct (mod_split j (2 ^ n)) as (B1 & B2 & B3); [lia|].
    rewrite A1, A2, A3, B1, B2, B3. cbn [pm]. rewrite (Nat.pow_succ_r' 2 n). ring.
Qed.
Lemma tens_pmult n A B : pmult 1 A -> pmult n B -> pmult (S n) (tens A B).
Proof.
  intros (A1 & A2 & a & x & z & HA) (B1 & B2 & b & y & w & HB). unfold tens. rewrite A1, A2, B1, B2. cbn [Nat.pow] in *.
  split; [cbn [mr]; rewrite Nat.pow_succ_r'; lia|]. split; [cbn [mc]; rewrite Nat.pow_succ_r'; lia|].
  exists (a * b), (fun l => match l with O => x O | S l => y l end), (fun l => match l with O => z O | S l => w l end).
  intros i j Hi Hj. unfold scale. rewrite (pm_head n) by assumption. cbn [me].
  pose proof (pow2_pos n) as P0. rewrite HB by (apply Nat.mod_upper_bound; lia).
  assert (i / 2 ^ n < 2 /\ j / 2 ^ n < 2) as [Hi' Hj'] by (split; apply Nat.div_lt_upper_bound; cbn [Nat.pow] in *; lia).
  rewrite HA by (cbn; lia). unfold scale. cbn [pm]. rewrite !(Nat.mod_small (_ / _)) by assumption.
  change (fun l => y l) with y. change (fun l => w l) with w. ring.
Qed.
Lemma power_pmult l n : Forall (pmult 1) l -> Forall (pmult n) (power_ops l n).
Proof.
  intros F. induction n as [|n IH].
  - cbn. constructor; [|constructor]. split; [reflexivity|]. split; [reflexivity|]. exists 1, (fun _ => false), (fun _ => false). intros i j _ _. unfold scale. cbn. apply CC_eq; cbn; ring.
  - cbn [power_ops]. unfold tens_ops. rewrite Forall_forall in *. intros A HA. apply in_flat_map in HA. destruct HA as (B & HB & HA). apply in_map_iff in HA. destruct HA as (C & <- & HC).
    apply tens_pmult; auto.
Qed.

(** ** signs *)
Lemma pm_commute n x z y w : exists s : bool, forall i j, i < 2 ^ n -> j < 2 ^ n ->
  mm (2 ^ n) (pm n x z) (pm n y w) i j = sgn (K := CC) s * mm (2 ^ n) (pm n y w) (pm n x z) i j.
Proof.
  exists (xorb (xsum n (fun l => z l && y l)) (xsum n (fun l => w l && x l))). intros i' j' Hi Hj. rewrite !pm_mul by assumption.
  rewrite (pm_ext n (fun l => xorb (y l) (x l)) (fun l => xorb (w l) (z l)) (fun l => xorb (x l) (y l)) (fun l => xorb (z l) (w l))) by (intros; split; apply xorb_comm).
  rewrite sgn_xorb. set (p := pm _ _ _ _ _). set (s := sgn (K := CC) (xsum n (fun l => z l && y l))). set (t := sgn (K := CC) (xsum n (fun l => w l && x l))).
  transitivity (s * (t * t) * p); [unfold t at 1 2; rewrite sgn_sq; ring|ring].
Qed.
Section Sign.
Variables (n m : nat) (E : array CC).
Let N := (2 ^ n)%nat.
(** U fixes E and commutes with W up to a sign *)
Lemma sign_move (s : bool) (U W : array CC) : eqm N m (mm N U E) E -> eqm N N (mm N U W) (scale (sgn s) (mm N W U)) -> eqm N m (mm N (mm N U W) E) (scale (sgn s) (mm N W E)).
Proof.
  intros HU HW i j Hi Hj. rewrite (mm_congr_l N N _ _ _ i j HW Hi). unfold scale. rewrite mm_scale_l, mm_assoc. f_equal. apply mm_congr_r. intros l Hl. apply HU; assumption.
Qed.
End Sign.
Lemma sgn_cases (s : bool) r c (A : array CC) B : eqm r c A (scale (sgn s) B) -> eqm r c A B \/ eqm r c A (scale (- (1)) B).
Proof.
  intros H. destruct s; [right; exact H|left]. intros i j Hi Hj. rewrite H by assumption. unfold scale. cbn [sgn]. ring.
Qed.
Lemma fits_sign O D l m : fits O D m -> Forall2 up_to_sign l m -> fits O D l.
Proof. intros F H. induction H as [|A B l m (E1 & E2 & _) H IH]; [constructor|]. inversion F as [|? ? [F1 F2] F3]; subst. constructor; [auto|apply IH; exact F3]. Qed.
Lemma cross_sign O D l m : fits O D m -> Forall2 up_to_sign l m -> same_cross O D l m.
Proof.
  intros F H x i y j Hx Hi Hy Hj. unfold cross. induction H as [|A B l m (E1 & E2 & HS) H IH]; [reflexivity|].
  inversion F as [|? ? [F1 F2] F3]; subst. cbn [map]. rewrite !ksum_cons, IH by exact F3. f_equal. rewrite E1, E2 in HS.
  destruct HS as [HS|HS]; rewrite !HS by assumption; [reflexivity|]. unfold scale. rewrite sconj_mul, sconj_opp, sconj_1. ring.
Qed.
Lemma channel_sign O D l m : fits O D m -> Forall2 up_to_sign l m -> same_channel O l m.
Proof. intros F H rho. apply (same_maps O D l m rho (fits_sign _ _ _ _ F H) F (cross_sign _ _ _ _ F H)). Qed.

(** ** encoded states *)
Lemma code_setup eigh g n k ops c : eigh_ok eigh -> init g n k ops = Ok c -> 1 <= n ->
  Forall binary (zd (stab c)) -> Forall (fun r => Nat.even (y_count n r) = true) (zd (stab c)) ->
  exists Ss m E, binary_rep_to_pauli_mat (stab c) = Ok Ss /\ encode_krauss_operators eigh c = Ok (MA (2 ^ n) m E) /\
    eqm m m (mm (2 ^ n) (adj E) E) eye /\ (forall S, In S Ss -> eqm (2 ^ n) m (mm (2 ^ n) (me S) E) E) /\
    Forall2 (fun r S => mr S = (2 ^ n)%nat /\ mc S = (2 ^ n)%nat /\ eqm (2 ^ n) (2 ^ n) (me S) (P n r)) (zd (stab c)) Ss /\
    Forall (fun r => length r = (2 * n)%nat) (zd (stab c)) /\
    (indep 2 (2 * n) (zd (stab c)) -> length (zd (stab c)) = (n - k)%nat -> m = (2 ^ k)%nat).
Proof.
  intros HE I Hn B HY. destruct (encoder_isometry eigh g n k ops c HE I Hn B HY) as (Ss & m & E & EB & EE & IS & FX & _ & HM).
  exists Ss, m, E. split; [exact EB|]. split; [exact EE|]. split; [exact IS|]. split; [exact FX|].
  destruct (init_inv _ _ _ _ _ I) as (M & W & _ & ZC & ES & _). rewrite ES in *.
  assert (L : Forall (fun r => length r = (2 * n)%nat) (zd M)) by (destruct W as [_ W]; rewrite ZC in W; exact W).
  destruct (rowmats (K := CC) n (zd M) Hn L B) as (Ss' & EM & FM).
  assert (EB' : binary_rep_to_pauli_mat (K := CC) M = Ok Ss') by (unfold binary_rep_to_pauli_mat; rewrite ZC, CodesProofs.div2_double; exact EM).
  rewrite EB in EB'. injection EB' as <-. auto.
Qed.
Lemma in_matrix n rows (Ss : list (marr CC)) U : Forall2 (fun r S => mr S = (2 ^ n)%nat /\ mc S = (2 ^ n)%nat /\ eqm (2 ^ n) (2 ^ n) (me S) (P n r)) rows Ss -> In U Ss ->
  exists r, In r rows /\ mr U = (2 ^ n)%nat /\ mc U = (2 ^ n)%nat /\ eqm (2 ^ n) (2 ^ n) (me U) (P n r).
Proof. intros F. induction F as [|r S rows Ss H F IH]; intros []; [subst; exists r; split; [left; reflexivity|exact H]|]. destruct (IH H0) as (r' & H1 & H2). exists r'. split; [right; exact H1|exact H2]. Qed.
Lemma in_row n rows (Ss : list (marr CC)) r : Forall2 (fun r S => mr S = (2 ^ n)%nat /\ mc S = (2 ^ n)%nat /\ eqm (2 ^ n) (2 ^ n) (me S) (P n r)) rows Ss -> In r rows ->
  exists U, In U Ss /\ mr U = (2 ^ n)%nat /\ mc U = (2 ^ n)%nat /\ eqm (2 ^ n) (2 ^ n) (me U) (P n r).
Proof. intros F. induction F as [|r' S rows Ss H F IH]; intros []; [subst; exists S; split; [left; reflexivity|exact H]|]. destruct (IH H0) as (U & H1 & H2). exists U. split; [right; exact H1|exact H2]. Qed.

Lemma mm_form n (U W : array CC) x z (a : CC) y w : eqm (2 ^ n) (2 ^ n) U (pm n x z) -> eqm (2 ^ n) (2 ^ n) W (scale a (pm n y w)) ->
  exists s : bool, eqm (2 ^ n) (2 ^ n) (mm (2 ^ n) U W) (scale (sgn s) (mm (2 ^ n) W U)).
Proof.
  intros HU HW. destruct (pm_commute n x z y w) as (s & H). exists s. intros i j Hi Hj. unfold scale.
  rewrite (mm_eqm _ _ _ _ _ _ _ HU HW i j Hi Hj), (mm_eqm _ _ _ _ _ _ _ HW HU i j Hi Hj). unfold scale. rewrite mm_scale_l, mm_scale_r, H by assumption. ring.
Qed.
Section Uncorrected.
Variables (n m : nat) (E : array CC) (rows : list (list Z)) (Ss : list (marr CC)).
Let N := (2 ^ n)%nat.
Hypothesis FX : forall S, In S Ss -> eqm N m (mm N (me S) E) E.
Hypothesis FS : Forall2 (fun r S => mr S = N /\ mc S = N /\ eqm N N (me S) (P n r)) rows Ss.
Lemma uncorrected W K : pmult n W -> corrected N Ss W K -> up_to_sign (product K (MA N m E)) (product W (MA N m E)).
Proof.
  intros (W1 & W2 & a & y & w & HW) (U & HU & (K1 & K2 & K3)). unfold product in *. cbn [mr mc me] in *. fold N in W1, W2.
  assert (UR : mr U = N /\ mc U = N /\ eqm N m (mm N (me U) E) E /\ exists x z, eqm N N (me U) (pm n x z)).
  { destruct HU as [->|HU].
    - split; [reflexivity|]. split; [reflexivity|]. split; [intros i j Hi Hj; apply mm_eye_l; exact Hi|]. exists (fun _ => false), (fun _ => false). intros i j Hi Hj. symmetry. apply pm_id; assumption.
    - destruct (in_matrix n rows Ss U FS HU) as (r & _ & U1 & U2 & U3). split; [exact U1|]. split; [exact U2|]. split; [apply FX; exact HU|]. exists (xp r), (zp n r). exact U3. }
  destruct UR as (U1 & U2 & U3 & x & z & U4). destruct (mm_form n (me U) (me W) x z a y w U4 HW) as (s & HC). fold N in HC.
  pose proof (sign_move n m E s (me U) (me W) U3 HC) as HM. fold N in HM.
  split; [cbn [mr]; congruence|]. split; [reflexivity|]. cbn [mr mc me]. rewrite K1, U1, K2, W2.
  apply (sgn_cases s). intros i j Hi Hj. rewrite <- HM by assumption. apply mm_congr_l with (r := N); [|exact Hi]. intros i' j' Hi' Hj'. rewrite K3; [|congruence|congruence]. rewrite U2. reflexivity.
Qed.
(** a detected error takes the code space to an orthogonal space *)
Lemma detected_orthogonal b r a (W : array CC) : In r rows -> ip n (brow r) (brow b) = true -> eqm N N W (scale a (P n b)) ->
  forall i j, i < m -> j < m -> mm N (adj E) (mm N W E) i j = 0.
Proof.
  intros Hr Hip HW i j Hi Hj. destruct (in_row n rows Ss r FS Hr) as (U & HU & U1 & U2 & U3). fold N in U1, U2, U3. pose proof (FX U HU) as FU.
  assert (HC : eqm N N (mm N (me U) W) (scale (sgn true) (mm N W (me U)))).
  { pose proof (commute_sign n r b (P n r) (P n b) (eqm_refl _ _ _) (eqm_refl _ _ _)) as C. rewrite Hip in C. unfold scale in *. fold N in C. intros p t Hp Ht.
    rewrite (mm_eqm _ _ _ _ _ _ _ U3 HW p t Hp Ht), (mm_eqm _ _ _ _ _ _ _ HW U3 p t Hp Ht). unfold scale. rewrite mm_scale_l, mm_scale_r. rewrite C by assumption. ring. }
  assert (UU : unitary N (me U)) by (eapply unitary_ext; [exact U3|apply pm_unitary]).
  pose proof (sign_move n m E true (me U) W FU HC) as HM. fold N in HM.
  (* E^dagger U = E^dagger *)
  assert (EU : eqm m N (mm N (adj E) (me U)) (adj E)).
  { intros p t Hp Ht. rewrite <- (mm_congr_l m N (adj (mm N (me U) E)) (adj E) (me U)); [|intros u v Hu Hv; unfold adj; f_equal; apply FU; assumption|exact Hp].
    rewrite (mm_ext N (adj (mm N (me U) E)) (mm N (adj E) (adj (me U))) (me U) (me U)) by (intros; try reflexivity; apply adj_mm).
    rewrite mm_assoc. rewrite (mm_congr_r N (adj E) (mm N (adj (me U)) (me U)) eye) by (intros l Hl; destruct UU as [UU _]; apply UU; assumption).
    apply mm_eye_r. exact Ht. }
  assert (X : mm N (adj E) (mm N W E) i j = - mm N (adj E) (mm N W E) i j).
  { transitivity (mm N (mm N (adj E) (me U)) (mm N W E) i j); [symmetry; apply (mm_congr_l m N _ _ _ i j EU Hi)|]. rewrite mm_assoc.
    transitivity (mm N (adj E) (scale (sgn true) (mm N W E)) i j).
    - apply mm_congr_r. intros l Hl. rewrite <- mm_assoc. apply HM; assumption.
    - unfold scale. rewrite mm_scale_r. cbn [sgn]. ring. }
  set (t := mm N (adj E) (mm N W E) i j) in *. clearbody t. destruct t as [u v]. injection X as Xu Xv. apply CC_eq; cbn; lra.
Qed.
End Uncorrected.

(** the weight of an error does not depend on the state *)
Lemma sign_weight n m (E : array CC) a b W A : 1 <= n -> eqm m m (mm (2 ^ n) (adj E) E) eye -> pauli_multiple_of n a b W -> up_to_sign A (product W (MA (2 ^ n) m E)) ->
  eqm m m (mm (mr A) (adj (me A)) (me A)) (scale (smul (sconj a) a) eye).
Proof.
    intros Hn IS Hb H i j Hi Hj. pose proof (multiple_form n a b W Hn Hb) as HW. destruct Hb as (W1 & W2 & _).
    destruct H as (H1 & H2 & H3). unfold product in *. cbn [mr mc me] in *. rewrite W1, W2 in *. rewrite H1, H2 in *.
    assert (G : forall s : bool, eqm (2 ^ n) m (me A) (scale (sgn s) (mm (2 ^ n) (me W) E)) -> mm (2 ^ n) (adj (me A)) (me A) i j = scale (a^* * a) eye i j).
    2:{ destruct H3 as [H3|H3]; [apply (G false)|apply (G true)]; intros u v Hu Hv; rewrite H3 by assumption; unfold scale; cbn [sgn]; ring. }
    intros s H. assert (H' : eqm (2 ^ n) m (me A) (mm (2 ^ n) (P n b) (scale (sgn s * a) E))).
    { intros u v Hu Hv. rewrite H by assumption. unfold scale. rewrite mm_scale_r. rewrite (mm_congr_l (2 ^ n) (2 ^ n) _ _ E u v HW Hu). unfold scale. rewrite mm_scale_l. ring. }
    transitivity (mm (2 ^ n) (adj (mm (2 ^ n) (P n b) (scale (sgn s * a) E))) (mm (2 ^ n) (P n b) (scale (sgn s * a) E)) i j).
    { apply bsum_ext; intros l Hl. unfold adj. rewrite !H' by assumption. reflexivity. }
    destruct (pm_unitary (K := CC) n (xp b) (zp n b)) as [PU _].
    rewrite (mm_ext (2 ^ n) _ (mm (2 ^ n) (adj (scale (sgn s * a) E)) (adj (P n b))) _ (mm (2 ^ n) (P n b) (scale (sgn s * a) E))) by (intros; try reflexivity; apply adj_mm).
    rewrite mm_assoc. transitivity (mm (2 ^ n) (adj (scale (sgn s * a) E)) (scale (sgn s * a) E) i j).
    { apply mm_congr_r. intros l Hl. rewrite <- mm_assoc. rewrite (mm_congr_l (2 ^ n) (2 ^ n) _ eye _ l j PU Hl). apply mm_eye_l. exact Hl. }
    unfold scale at 2. rewrite mm_scale_r. transitivity ((sgn s * a) * ((sgn s * a)^* * mm (2 ^ n) (adj E) E i j)).
    { f_equal. rewrite <- mm_scale_l. apply mm_ext; intros; [|reflexivity]. unfold adj, scale. rewrite sconj_mul. ring. }
    rewrite IS by assumption. unfold scale. rewrite sconj_mul, sgn_conj. transitivity (sgn s * sgn s * (a^* * a * eye i j)); [ring|]. rewrite sgn_sq. ring.
Qed.

Lemma uncorrected_all eigh g n k ops c errors : eigh_ok eigh -> init g n k ops = Ok c -> 1 <= n ->
  Forall binary (zd (stab c)) -> Forall (fun r => Nat.even (y_count n r) = true) (zd (stab c)) -> Forall (pauli_multiple n) errors ->
  exists E Ks, encode_krauss_operators eigh c = Ok E /\ kraus_operators_correcting_errors c errors = Ok Ks /\ mr E = (2 ^ n)%nat /\ trace_preserving (mc E) [E] /\
    Forall2 (fun W K => up_to_sign (product K E) (product W E)) errors Ks /\
    same_channel (2 ^ n) (map (fun K => product K E) Ks) (map (fun W => product W E) errors) /\
    Forall2 (fun W K => forall a b, pauli_multiple_of n a b W -> detected (zd (stab c)) b -> orthogonal_to E (product K E)) errors Ks /\
    Forall2 (fun W K => forall a b, pauli_multiple_of n a b W -> eqm (mc E) (mc E) (mm (2 ^ n) (adj (me (product K E))) (me (product K E))) (scale (smul (sconj a) a) eye)) errors Ks.
Proof.
  intros HE I Hn B HY FW. destruct (code_setup eigh g n k ops c HE I Hn B HY) as (Ss & m & E & EB & EE & IS & FX & FS & L & _).
  assert (FF : fits (2 ^ n) (2 ^ n) errors) by (unfold fits; rewrite Forall_forall in *; intros A HA; destruct (FW A HA) as (a & b & H1 & H2 & _); auto).
  destruct (corrected_all g n k ops c errors I Hn B FF) as (Ss' & Ks & EB' & EK & CK & FK & _). rewrite EB in EB'. injection EB' as <-.
  exists (MA (2 ^ n) m E), Ks. split; [exact EE|]. split; [exact EK|]. split; [reflexivity|]. split.
  { intros i j Hi Hj. cbn [map]. rewrite ksum_cons. cbn [mr mc me] in *. rewrite (IS i j Hi Hj). change (ksum []) with (s0 (s := CC)). ring. }
  assert (SG : Forall2 (fun W K => up_to_sign (product K (MA (2 ^ n) m E)) (product W (MA (2 ^ n) m E))) errors Ks).
  { clear -CK FW Hn FX FS. induction CK as [|W K errors Ks H CK IH]; [constructor|]. inversion FW as [|? ? F1 F2]; subst. constructor; [|apply IH; exact F2].
    apply (uncorrected n m E (zd (stab c)) Ss FX FS); [apply multiple_pmult; assumption|exact H]. }
  split; [exact SG|]. split.
  { apply (channel_sign (2 ^ n) m).
    - unfold fits. apply Forall_map. rewrite Forall_forall. intros A HA. cbn. split; [|reflexivity]. rewrite Forall_forall in FW. destruct (FW A HA) as (a & b & H1 & _). exact H1.
    - clear -SG. induction SG as [|W K errors Ks H SG IH]; constructor; assumption. }
  split.
  2:{ clear -SG Hn IS FW. induction SG as [|W K errors Ks H SG IH]; [constructor|]. inversion FW as [|? ? F1 F2]; subst. constructor; [|apply IH; exact F2]. intros a b Hb.
    pose proof (sign_weight n m E a b W _ Hn IS Hb H) as X. destruct H as (H1 & _). unfold product in *. cbn [mr mc me] in *. destruct Hb as (W1 & _). rewrite H1, W1 in X. exact X. }
  clear -SG FW Hn FX FS L. induction SG as [|W K errors Ks H SG IH]; [constructor|]. inversion FW as [|? ? F1 F2]; subst. constructor; [|apply IH; exact F2].
  intros a b Hb (r & Hr & Hip). pose proof (multiple_form n a b W Hn Hb) as HW. pose proof Hb as (W1 & W2 & Lb & _).
  rewrite (inner_prod_ip n) in Hip; [|exact (proj1 (Forall_forall _ _) L r Hr)|exact Lb].
  assert (Hip' : ip n (brow r) (brow b) = true) by (destruct (ip n (brow r) (brow b)); [reflexivity|discriminate Hip]).
  pose proof (detected_orthogonal n m E (zd (stab c)) Ss FX FS b r a (me W) Hr Hip' HW) as DO.
  destruct H as (H1 & H2 & H3). unfold product in *. cbn [mr mc me] in *. rewrite W1, W2 in *. split; [cbn; symmetry; exact H1|]. cbn [mr mc me]. rewrite H1 in H3.
  intros i j Hi Hj. destruct H3 as [H3|H3].
  - rewrite <- (DO i j Hi Hj). apply mm_congr_r. intros l Hl. apply H3; assumption.
  - transitivity (mm (2 ^ n) (adj E) (scale (- (1)) (mm (2 ^ n) (me W) E)) i j); [apply mm_congr_r; intros l Hl; apply H3; assumption|].
    unfold scale. rewrite mm_scale_r, (DO i j Hi Hj). ring.
Qed.
(** an operator that is orthogonal to the isometry E is no multiple of it, unless it vanishes *)
Lemma orthogonal_multiple (A E : marr CC) z : mr E = mr A -> mc E = mc A -> 0 < mc E -> trace_preserving (mc E) [E] -> orthogonal_to E A -> eqm (mr A) (mc A) (me A) (scale z (me E)) -> z = 0.
Proof.
  intros R C P0 T (_ & X) H. rewrite <- C in X. specialize (X O O P0 P0).
  rewrite (mm_congr_r (mr E) (adj (me E)) (me A) (scale z (me E))) in X by (intros l Hl; apply H; [rewrite <- R; exact Hl|rewrite <- C; exact P0]).
  unfold scale in X. rewrite mm_scale_r in X. specialize (T O O P0 P0). cbn [map] in T. rewrite ksum_cons in T. change (ksum []) with (s0 (s := CC)) in T.
  change (eye (K := CC) O O) with (s1 (s := CC)) in T. set (t := mm (mr E) (adj (me E)) (me E) O O) in *. clearbody t.
  transitivity (z * (t + 0)); [rewrite T; ring|]. transitivity (z * t); [ring|exact X].
Qed.

Lemma no_multiple (A E : marr CC) p : mr E = mr A -> mc E = mc A -> 0 < mc E -> trace_preserving (mc E) [E] -> orthogonal_to E A -> eqm (mc E) (mc E) (mm (mr A) (adj (me A)) (me A)) (scale p eye) -> p <> 0 ->
  ~ exists z, eqm (mr A) (mc A) (me A) (scale z (me E)).
Proof.
  intros R C P0 T O W NP (z & H). pose proof (orthogonal_multiple A E z R C P0 T O H) as ->. apply NP. specialize (W 0%nat 0%nat P0 P0). unfold scale, eye in W. cbn [Nat.eqb] in W.
  transitivity (p * 1); [ring|]. rewrite <- W. apply bsum_zero. intros l Hl. rewrite (H l 0%nat Hl) by (rewrite <- C; exact P0). unfold scale. ring.
Qed.

(** ** arbitrary errors *)
Lemma Cmod_add (x y : CC) : (Cmod (x + y) <= Cmod x + Cmod y)%R.
Proof.
  destruct x as [a b], y as [u v]. unfold Cmod. cbn [fst snd sadd CC CC_add].
  set (p := (a * a + b * b)%R). set (r := (u * u + v * v)%R). assert (P0 : (0 <= p)%R) by (unfold p; nra). assert (R0 : (0 <= r)%R) by (unfold r; nra).
  apply Rsqr_incr_0_var; [|apply Rplus_le_le_0_compat; apply sqrt_pos]. unfold Rsqr. rewrite sqrt_sqrt by (apply Rplus_le_le_0_compat; apply Rle_0_sqr).
  replace ((sqrt p + sqrt r) * (sqrt p + sqrt r))%R with (sqrt p * sqrt p + sqrt r * sqrt r + 2 * (sqrt p * sqrt r))%R by ring. rewrite !sqrt_sqrt by assumption. rewrite <- sqrt_mult by assumption.
  assert (X : (a * u + b * v <= sqrt (p * r))%R).
  { destruct (Rle_dec 0 (a * u + b * v)) as [G|G]; [|pose proof (sqrt_pos (p * r)); lra].
    rewrite <- (sqrt_square (a * u + b * v)) by exact G. apply sqrt_le_1; [nra|unfold p, r; nra|]. unfold p, r. assert (0 <= (a * v - b * u) * (a * v - b * u))%R by apply Rle_0_sqr. nra. }
  replace ((a + u) * (a + u) + (b + v) * (b + v))%R with (p + r + 2 * (a * u + b * v))%R by (unfold p, r; ring). lra.
Qed.
Lemma Cmod_bsum d (f : nat -> CC) (c : R) : (forall l, l < d -> (Cmod (f l) <= c)%R) -> (Cmod (bsum d f) <= INR d * c)%R.
Proof.
  induction d as [|d IH]; intros H.
  - cbn. unfold Cmod. cbn. replace (0 * 0 + 0 * 0)%R with 0%R by ring. rewrite sqrt_0. lra.
  - cbn [bsum]. eapply Rle_trans; [apply Cmod_add|]. rewrite S_INR. pose proof (IH ltac:(intros; apply H; lia)). pose proof (H d ltac:(lia)). lra.
Qed.
Lemma Cmod_sq (x : CC) : (x^* * x)%K = ((Cmod x * Cmod x, 0)%R : CC).
Proof. destruct x as [a b]. unfold Cmod. cbn [fst snd]. rewrite sqrt_sqrt by nra. apply CC_eq; cbn; ring. Qed.
Lemma column_bound N m (E : array CC) l j : eqm m m (mm N (adj E) E) eye -> l < N -> j < m -> (Cmod (E l j) <= 1)%R.
Proof.
  intros IS Hl Hj. specialize (IS j j Hj Hj). unfold mm, adj, eye in IS. rewrite Nat.eqb_refl in IS.
  assert (G : forall d, d <= N -> exists t, bsum d (fun i => (E i j)^* * E i j) = ((t, 0)%R : CC) /\ (0 <= t)%R /\ (l < d -> (Cmod (E l j) * Cmod (E l j) <= t)%R)).
  { induction d as [|d IH]; intros Hd; [exists 0%R; split; [reflexivity|]; split; [lra|lia]|]. destruct (IH ltac:(lia)) as (t & H1 & H2 & H3). cbn [bsum]. rewrite H1, Cmod_sq.
    exists (t + Cmod (E d j) * Cmod (E d j))%R. split; [apply CC_eq; cbn; ring|]. assert (0 <= Cmod (E d j) * Cmod (E d j))%R by apply Rle_0_sqr. split; [lra|].
    intros Hl'. destruct (Nat.eq_dec l d) as [->|Hn]; [lra|]. specialize (H3 ltac:(lia)). lra. }
  destruct (G N (le_n N)) as (t & H1 & H2 & H3). rewrite H1 in IS. injection IS as ->. specialize (H3 Hl).
  assert (0 <= Cmod (E l j))%R by apply sqrt_pos. nra.
Qed.
Lemma correct_cases n Ss W : Forall (fun S => mr S = (2 ^ n)%nat /\ mc S = (2 ^ n)%nat) Ss ->
  exists K, correct_error Ss (MA (2 ^ n) (2 ^ n) W) = Ok (MA (2 ^ n) (2 ^ n) K) /\
    (K = W \/ exists S, In S Ss /\ K = mm (2 ^ n) (me S) W /\ forall i j, i < 2 ^ n -> j < 2 ^ n -> (Cmod (mm (2 ^ n) W (me S) i j + mm (2 ^ n) (me S) W i j) < tol5)%R).
Proof.
  induction 1 as [|S Ss [R1 R2] F IH]; [exists W; split; [reflexivity|left; reflexivity]|].
  cbn [correct_error]. unfold np_dot. cbn [mr mc me]. rewrite R1, R2, Nat.eqb_refl. cbn [bind mr mc]. rewrite !Nat.eqb_refl. cbn [andb].
  destruct (all_sum_small _ _) eqn:Es.
  - eexists. split; [reflexivity|]. right. exists S. split; [left; reflexivity|]. split; [reflexivity|]. intros i j Hi Hj.
    exact (all_small_entry _ _ i j Es Hi Hj).
  - destruct IH as (K & E1 & E2). exists K. split; [exact E1|]. destruct E2 as [->|(S' & HS' & H)]; [left; reflexivity|].
    right. exists S'. split; [right; exact HS'|exact H].
Qed.
Lemma any_uncorrected eigh g n k ops c errors : eigh_ok eigh -> init g n k ops = Ok c -> 1 <= n ->
  Forall binary (zd (stab c)) -> Forall (fun r => Nat.even (y_count n r) = true) (zd (stab c)) -> fits (2 ^ n) (2 ^ n) errors ->
  exists E Ks, encode_krauss_operators eigh c = Ok E /\ kraus_operators_correcting_errors c errors = Ok Ks /\
    Forall2 (fun W K => same_mat (product K E) (product W E) \/
       forall i j, i < 2 ^ n -> j < mc E -> (Cmod (me (product K E) i j + me (product W E) i j) <= INR (2 ^ n) * tol5)%R) errors Ks.
Proof.
  intros HE I Hn B HY FF. destruct (code_setup eigh g n k ops c HE I Hn B HY) as (Ss & m & E & EB & EE & IS & FX & FS & L & _).
  exists (MA (2 ^ n) m E). unfold kraus_operators_correcting_errors. rewrite EB. cbn [bind].
  assert (SH : Forall (fun S => mr S = (2 ^ n)%nat /\ mc S = (2 ^ n)%nat) Ss) by (clear -FS; induction FS as [|r S rows Ss (H1 & H2 & _) F IH]; constructor; auto).
  assert (G : exists Ks, mapM (correct_error Ss) errors = Ok Ks /\ Forall2 (fun W K => same_mat (product K (MA (2 ^ n) m E)) (product W (MA (2 ^ n) m E)) \/
       forall i j, i < 2 ^ n -> j < m -> (Cmod (me (product K (MA (2 ^ n) m E)) i j + me (product W (MA (2 ^ n) m E)) i j) <= INR (2 ^ n) * tol5)%R) errors Ks).
  2:{ destruct G as (Ks & G1 & G2). exists Ks. split; [exact EE|]. split; [exact G1|exact G2]. }
  induction FF as [|A Ws [A1 A2] F IH]; [exists []; split; [reflexivity|constructor]|].
  destruct IH as (Ks & E1 & E2). destruct A as [ar ac W]. cbn in A1, A2. subst ar ac. destruct (correct_cases n Ss W SH) as (K & EK & HK).
  exists (MA (2 ^ n) (2 ^ n) K :: Ks). split; [cbn [mapM]; rewrite EK, E1; reflexivity|]. constructor; [|exact E2].
  destruct HK as [->|(S & HS & -> & SM)]; [left; split; [reflexivity|]; split; [reflexivity|]; intros i j _ _; reflexivity|]. right. intros i j Hi Hj. unfold product. cbn [mr mc me].
  rewrite mm_assoc. rewrite <- (mm_assoc (2 ^ n) (2 ^ n) (me S)).
  rewrite <- (mm_congr_r (2 ^ n) W (mm (2 ^ n) (me S) E) E) by (intros l Hl; apply (FX S HS); assumption). rewrite <- (mm_assoc (2 ^ n) (2 ^ n) W).
  unfold mm at 1 3. rewrite <- bsum_add. apply Cmod_bsum. intros l Hl.
  match goal with |- (Cmod ?x <= _)%R => replace x with ((mm (2 ^ n) W (me S) i l + mm (2 ^ n) (me S) W i l) * E l j) by ring end.
  rewrite DeviceProofs4.Cmod_mul. pose proof (column_bound _ _ E l j IS Hl Hj) as C1. pose proof (SM i l Hi Hl) as C2.
  assert (0 <= Cmod (E l j))%R by apply sqrt_pos. set (u := Cmod (mm _ _ _ _ _ + _)) in *. assert (0 <= u)%R by apply sqrt_pos. nra.
Qed.

(** ** the effective channel *)
Lemma sign_same A B C : same_mat A B -> up_to_sign B C -> up_to_sign A C.
Proof.
  intros (A1 & A2 & A3) (B1 & B2 & B3). split; [congruence|]. split; [congruence|]. rewrite A1, A2 in *. destruct B3 as [B3|B3]; [left|right]; intros i j Hi Hj; rewrite A3, B3 by assumption; reflexivity.
Qed.
Theorem effective_uncorrected eigh g n c errors : eigh_ok eigh -> init g n 1 None = Ok c -> valid_generators n 1 (zd (stab c)) ->
  Forall (fun r => Nat.even (y_count n r) = true) (zd (stab c)) ->
  arg_matrices errors <> [] -> trace_preserving 2 (arg_matrices errors) -> Forall (pauli_multiple 1) (arg_matrices errors) ->
  exists E ops, encode_krauss_operators eigh c = Ok E /\ mr E = (2 ^ n)%nat /\ mc E = 2%nat /\ trace_preserving 2 [E] /\
    effective_operators eigh g n 1 errors = Ok ops /\
    Forall2 (fun W A => up_to_sign A (product W E)) (power_ops (arg_matrices errors) n) ops /\
    same_channel (2 ^ n) ops (map (fun W => product W E) (power_ops (arg_matrices errors) n)) /\
    Forall2 (fun W A => forall a b, pauli_multiple_of n a b W -> detected (zd (stab c)) b -> orthogonal_to E A) (power_ops (arg_matrices errors) n) ops /\
    Forall2 (fun W A => forall a b, pauli_multiple_of n a b W -> eqm 2 2 (mm (mr A) (adj (me A)) (me A)) (scale (smul (sconj a) a) eye)) (power_ops (arg_matrices errors) n) ops.
Proof.
  intros HE I V HY NE T FW. pose proof V as (V0 & V1 & V2 & V3 & V4 & V5). assert (Hn : 1 <= n) by lia.
  assert (F : fits 2 2 (arg_matrices errors)) by (unfold fits; rewrite Forall_forall in *; intros A HA; destruct (FW A HA) as (a & b & H1 & H2 & _); auto).
  destruct (effective_ok eigh g n c errors HE I V HY NE F T) as (Ss & E & ops & EB & EE & RE & CE & TE & FX & EO & EN & FO & TO).
  destruct (code_setup eigh g n 1 None c HE I Hn V3 HY) as (Ss' & m & E' & EB' & EE' & _ & _ & FS & L & _). rewrite EB in EB'. injection EB' as <-. rewrite EE in EE'. injection EE' as ->.
  cbn [mr mc] in CE. clear RE. subst m. rename E' into E. exists (MA (2 ^ n) 2 E), ops.
  assert (FM : forall S, In S Ss -> eqm (2 ^ n) 2 (mm (2 ^ n) (me S) E) E).
  { intros S HS. destruct (in_matrix _ _ _ _ FS HS) as (r & _ & S1 & S2 & _). destruct (FX S HS) as (X1 & X2 & X3). cbn [product mr mc me] in *. rewrite S1, S2 in X3. exact X3. }
  assert (PM : Forall (pmult n) (power_ops (arg_matrices errors) n)) by (apply power_pmult; rewrite Forall_forall in *; intros A HA; apply multiple_pmult; [lia|apply FW; exact HA]).
  split; [exact EE|]. split; [reflexivity|]. split; [reflexivity|]. split; [exact TE|]. split; [exact EO|].
  assert (SG : Forall2 (fun W A => up_to_sign A (product W (MA (2 ^ n) 2 E))) (power_ops (arg_matrices errors) n) ops).
  { clear -EN PM FM FS. induction EN as [|W A Ws ops (U & HU & HA) EN IH]; [constructor|]. inversion PM as [|? ? P1 P2]; subst. constructor; [|apply IH; exact P2].
    eapply sign_same; [exact HA|]. apply (uncorrected n 2 E (zd (stab c)) Ss FM FS W (product U W) P1). exists U. split; [exact HU|]. split; [reflexivity|]. split; [reflexivity|]. intros i j _ _; reflexivity. }
  split; [exact SG|].
  assert (FP : fits (2 ^ n) (2 ^ n) (power_ops (arg_matrices errors) n)) by (apply fits_power; exact F).
  split; [|split].
  - apply (channel_sign (2 ^ n) 2).
    + unfold fits in *. apply Forall_map. rewrite Forall_forall in *. intros A HA. cbn. split; [apply FP; exact HA|reflexivity].
    + clear -SG. induction SG as [|W K Ws Ks H SG IH]; constructor; assumption.
  - clear -SG Hn FM FS L. induction SG as [|W A Ws ops H SG IH]; [constructor|]. constructor; [|exact IH].
    intros a b Hb (r & Hr & Hip). pose proof (multiple_form n a b W Hn Hb) as HW. pose proof Hb as (W1 & W2 & Lb & _).
    rewrite (inner_prod_ip n) in Hip; [|exact (proj1 (Forall_forall _ _) L r Hr)|exact Lb].
    assert (Hip' : ip n (brow r) (brow b) = true) by (destruct (ip n (brow r) (brow b)); [reflexivity|discriminate Hip]).
    pose proof (detected_orthogonal n 2 E (zd (stab c)) Ss FM FS b r a (me W) Hr Hip' HW) as DO.
    destruct H as (H1 & H2 & H3). unfold product in *. cbn [mr mc me] in *. rewrite W1, W2 in *. split; [cbn; symmetry; exact H1|]. cbn [mr mc me]. rewrite H1, H2 in *.
    intros i j Hi Hj. destruct H3 as [H3|H3].
    + rewrite <- (DO i j Hi Hj). apply mm_congr_r. intros l Hl. apply H3; assumption.
    + transitivity (mm (2 ^ n) (adj E) (scale (- (1)) (mm (2 ^ n) (me W) E)) i j); [apply mm_congr_r; intros l Hl; apply H3; assumption|].
      unfold scale. rewrite mm_scale_r, (DO i j Hi Hj). ring.
  - assert (IS : eqm 2 2 (mm (2 ^ n) (adj E) E) eye).
    { intros i j Hi Hj. specialize (TE i j Hi Hj). cbn [map] in TE. rewrite ksum_cons in TE. change (ksum []) with (s0 (s := CC)) in TE. cbn [mr me] in TE. rewrite <- TE. ring. }
    clear -SG Hn IS. induction SG as [|W A Ws ops H SG IH]; [constructor|]. constructor; [|exact IH]. intros a b Hb. exact (sign_weight n 2 E a b W A Hn IS Hb H).
Qed.
(** the entropy of the exchange matrix is that of the uncorrected operators *)
Lemma exchange_uncorrected O D l m rho s : fits O D l -> fits O D m -> same_channel O l m -> density D rho ->
  vn_entropy (length l) (exchange_entry l rho) s -> vn_entropy (length m) (exchange_entry m rho) s.
Proof.
  intros F G S (H1 & H2 & _) V. destruct (vn_exists (length m) (exchange_entry m rho)) as (t & T); [apply (KrausProofs6.exchange_hermitian O D); assumption|].
  rewrite (vn_unique _ _ _ _ _ _ V T); [exact T|]. intros p. apply (same_exchange O D); try assumption. apply cross_of_channel; assumption.
Qed.

(** ** the row of a Kronecker product *)
Lemma multiple_intro n a b (A : marr CC) : 1 <= n -> mr A = (2 ^ n)%nat -> mc A = (2 ^ n)%nat -> length b = (2 * n)%nat -> binary b ->
  eqm (2 ^ n) (2 ^ n) (me A) (scale a (P n b)) -> pauli_multiple_of n a b A.
Proof.
  intros Hn R C L Bi H. split; [exact R|]. split; [exact C|]. split; [exact L|]. split; [exact Bi|]. destruct (pauli_row_mat_spec (K := CC) n b Hn L Bi) as (B & EB & HB).
  exists B. split; [unfold binary_rep_to_pauli_mat; cbn [zc zd mapM]; rewrite CodesProofs.div2_double, EB; reflexivity|].
  intros i j Hi Hj. rewrite H by assumption. unfold scale. rewrite HB by assumption. reflexivity.
Qed.
Lemma multiple_same n a b (A B : marr CC) : 1 <= n -> pauli_multiple_of n a b A -> same_mat A B -> pauli_multiple_of n a b B.
Proof.
  intros Hn H (E1 & E2 & E3). pose proof (multiple_form n a b A Hn H) as X. destruct H as (R & C & L & Bi & _). apply multiple_intro; try congruence; try assumption.
  intros i j Hi Hj. rewrite <- X by assumption. symmetry. apply E3; congruence.
Qed.
Lemma tens_one (A : marr CC) : same_mat A (tens A one_by_one).
Proof.
  unfold tens, one_by_one. cbn [mr mc me]. split; [cbn; lia|]. split; [cbn; lia|]. intros i j Hi Hj. cbn [me]. rewrite !Nat.div_1_r. ring.
Qed.
Lemma tens_multiple n a b x z xs zs (A B : marr CC) : 1 <= n -> length xs = n -> pauli_multiple_of 1 a [x; z] A -> pauli_multiple_of n b (xs ++ zs) B ->
  pauli_multiple_of (S n) (smul a b) (x :: xs ++ z :: zs) (tens A B).
Proof.
  intros Hn LX HA HB. pose proof (multiple_form 1 a _ A (le_n 1) HA) as FA. pose proof (multiple_form n b _ B Hn HB) as FB.
  destruct HA as (A1 & A2 & _ & BA & _). destruct HB as (B1 & B2 & LB & BB & _). rewrite app_length in LB.
  unfold binary in *. rewrite Forall_app in BB. destruct BB as [BX BZ]. inversion BA as [|? ? BA1 BA2]; subst. inversion BA2 as [|? ? BA3 _]; subst.
  apply multiple_intro; [lia|unfold tens; cbn [mr]; rewrite A1, B1; cbn; lia|unfold tens; cbn [mc]; rewrite A2, B2; cbn; lia|cbn [length]; rewrite app_length; cbn [length]; lia|
    constructor; [exact BA1|apply Forall_app; split; [exact BX|constructor; [exact BA3|exact BZ]]]|].
  intros i j Hi Hj. unfold tens. cbn [me]. rewrite B1, B2. pose proof (pow2_pos (length xs)) as P0.
  assert (i / 2 ^ length xs < 2 /\ j / 2 ^ length xs < 2) as [Hi' Hj'] by (split; apply Nat.div_lt_upper_bound; cbn [Nat.pow] in *; lia).
  rewrite FA by (cbn; lia). rewrite FB by (apply Nat.mod_upper_bound; lia). unfold scale, P. rewrite (pm_head (length xs)) by assumption.
  cbn [pm]. rewrite !(Nat.mod_small (_ / _)) by assumption.
  assert (E0 : xp (x :: xs ++ z :: zs) O = xp [x; z] O) by reflexivity.
  assert (E1 : zp (S (length xs)) (x :: xs ++ z :: zs) O = zp 1 [x; z] O).
  { unfold zp, brow. rewrite !Nat.add_0_r. cbn [nth]. rewrite app_nth2, Nat.sub_diag by lia. reflexivity. }
  rewrite E0, E1.
  rewrite (pm_ext (length xs) (xp (xs ++ zs)) (zp (length xs) (xs ++ zs)) (fun l => xp (x :: xs ++ z :: zs) (S l)) (fun l => zp (S (length xs)) (x :: xs ++ z :: zs) (S l))).
  - ring.
  - intros l Hl. unfold xp, zp, brow. cbn [nth]. rewrite !(app_nth1 xs) by lia. split; [reflexivity|]. f_equal. cbn [Nat.add nth]. rewrite !app_nth2 by lia.
    replace (length xs + S l - length xs)%nat with (S l) by lia. replace (length xs + l - length xs)%nat with l by lia. reflexivity.
Qed.
