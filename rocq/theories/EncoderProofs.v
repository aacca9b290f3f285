(** C13, C14. *)
From Verif Require Import Py ZMat CodesModel RankSpec CodesSpec BoolLin Rank CodesProofs CodesProofs2 Scalar PauliModel PauliSpec PauliProofs PauliProofs2.
From Coq Require Import Reals Lra.
Open Scope nat_scope.

Add Ring CCring : (s_rt CC).
Open Scope K_scope.

Definition rc (x : R) : CC := (x, 0%R).

Lemma rc_inj x y : rc x = rc y -> x = y.
Proof. intros H. injection H. auto. Qed.
Lemma rc_mul x y : rc x * rc y = rc (x * y).
Proof. unfold rc. cbn. unfold CC_mul. cbn. f_equal; ring. Qed.
Lemma rc_1 : rc 1 = 1. Proof. reflexivity. Qed.
Lemma rc_0 : rc 0 = 0. Proof. reflexivity. Qed.
Lemma CC_eq (a b : CC) : fst a = fst b -> snd a = snd b -> a = b.
Proof. destruct a, b; simpl; intros; subst; reflexivity. Qed.

(** ** column selection *)
Section Select.
Variable mask : nat -> bool.
Variable m : nat.
Let sel := filter mask (seq O m).

Lemma sel_in t : t < length sel -> nth t sel O < m /\ mask (nth t sel O) = true.
Proof.
  intros H. pose proof (nth_In sel O H) as Hi. unfold sel in Hi at 2. apply filter_In in Hi. destruct Hi as [H1 H2].
  apply in_seq in H1. split; [lia|exact H2].
Qed.
Lemma sel_eye s t : s < length sel -> t < length sel -> (eye (nth s sel O) (nth t sel O) : CC) = eye s t.
Proof.
  intros Hs Ht. unfold eye. destruct (Nat.eqb_spec s t) as [->|N]; [rewrite Nat.eqb_refl; reflexivity|].
  destruct (Nat.eqb_spec (nth s sel O) (nth t sel O)) as [E|]; [|reflexivity]. exfalso. apply N.
  assert (ND : NoDup sel) by (apply NoDup_filter, seq_NoDup). rewrite NoDup_nth in ND. apply (ND s t Hs Ht E).
Qed.
End Select.

Lemma bsum_list (g : nat -> CC) (l : list nat) : bsum (length l) (fun t => g (nth t l O)) = fold_right (fun t s => g t + s) 0 l.
Proof.
  induction l as [|a l IH]; [reflexivity|]. cbn [length fold_right]. rewrite <- IH.
  rewrite (bsum_bsk (length l) O) by lia. cbn [nth]. reflexivity.
Qed.
Lemma bsum_filter (g : nat -> CC) mask m : 
  bsum (length (filter mask (seq O m))) (fun t => g (nth t (filter mask (seq O m)) O)) = bsum m (fun t => if mask t then g t else 0).
Proof.
  rewrite bsum_list. induction m as [|m IH]; [reflexivity|]. rewrite seq_S, filter_app, fold_right_app. cbn [bsum filter Nat.add].
  rewrite <- IH. generalize (filter mask (seq O m)) as l. intros l. destruct (mask m); cbn [fold_right].
  - induction l as [|a l IHl]; cbn [fold_right]; [ring|]. rewrite IHl. ring.
  - ring.
Qed.

Lemma below_one e : (e * e = 1)%R -> below (Rabs (e - 1)) tol5 = true <-> e = 1%R.
Proof.
  intros H. unfold below, tol5. destruct (Rlt_dec _ _) as [L|L]; split; intros H'; try discriminate; try reflexivity.
  - assert (E : ((e - 1) * (e + 1) = 0)%R) by (ring_simplify; simpl; lra). apply Rmult_integral in E. destruct E as [E|E]; [lra|].
    exfalso. replace e with (-1)%R in L by lra. replace (-1 - 1)%R with (-(2))%R in L by ring. rewrite Rabs_Ropp, Rabs_pos_eq in L by lra. lra.
  - exfalso. apply L. rewrite H'. replace (1 - 1)%R with 0%R by ring. rewrite Rabs_R0. lra.
Qed.

(** ** the invariant of the diagonalisation loop *)
Section Encoder.
Variable N : nat.          (* 2^n *)

(** column j of W is fixed by S *)
Definition fixes (S W : array CC) (j : nat) : Prop := forall i, i < N -> mm N S W i j = W i j.

(** E (N x m) is an isometry whose range is the common fixed space of Ss *)
Definition spans (Ss : list (array CC)) (m : nat) (E : array CC) : Prop :=
  eqm m m (mm N (adj E) E) eye /\
  (forall S, In S Ss -> eqm N m (mm N S E) E) /\
  (forall W j, (forall S, In S Ss -> fixes S W j) -> forall i, i < N -> mm m E (mm N (adj E) W) i j = W i j).

Lemma mm_congr_l r d (A A' B : array CC) i j : eqm r d A A' -> i < r -> mm d A B i j = mm d A' B i j.
Proof. intros H Hi. apply bsum_ext; intros l Hl. rewrite H by assumption. reflexivity. Qed.
Lemma mm_congr_r d (A B B' : array CC) i j : (forall l, l < d -> B l j = B' l j) -> mm d A B i j = mm d A B' i j.
Proof. intros H. apply bsum_ext; intros l Hl. rewrite H by assumption. reflexivity. Qed.

Lemma spans_nil : spans [] N eye.
Proof.
  split; [|split].
  - intros i j Hi Hj. rewrite mm_eye_r by exact Hj. apply adj_eye.
  - intros S [].
  - intros W j _ i Hi. rewrite mm_eye_l by exact Hi. 
    rewrite (mm_congr_l N N (adj eye) eye) by (auto; intros a b _ _; apply adj_eye). apply mm_eye_l; exact Hi.
Qed.

Section Step.
Variables (Ss : list (array CC)) (m : nat) (E S : array CC) (e : nat -> R) (V : array CC).
Hypothesis HE : spans Ss m E.
Hypothesis SH : hermitian N S.
Hypothesis S2 : eqm N N (mm N S S) eye.
Hypothesis SC : forall T, In T Ss -> eqm N N (mm N S T) (mm N T S).
Let A := mm N (adj E) (mm N S E).
Hypothesis HV : eigen_decomposition m A e V.
Let mask t := below (Rabs (e t - 1)) tol5.
Let sel := filter mask (seq O m).
Let Vs : array CC := fun i t => V i (nth t sel O).

Lemma SE_in i j : i < N -> j < m -> mm m E A i j = mm N S E i j.
Proof.
  intros Hi Hj. destruct HE as (_ & F & C). unfold A. apply (C (mm N S E) j); [|exact Hi].
  intros T HT i' Hi'. rewrite <- mm_assoc.
  rewrite (mm_congr_l N N (mm N T S) (mm N S T)) by (auto; apply eqm_sym, SC; exact HT).
  rewrite mm_assoc. apply mm_congr_r. intros l Hl. apply F; assumption.
Qed.

Lemma A_herm : hermitian m A.
Proof.
  intros i j Hi Hj. unfold A. rewrite adj_mm.
  rewrite (mm_congr_r N (adj (mm N S E)) (adj (adj E)) E) by (intros; apply adj_adj).
  rewrite (mm_congr_l m N (adj (mm N S E)) (mm N (adj E) S)); [apply mm_assoc| |exact Hi].
  intros a b Ha Hb. rewrite adj_mm. apply mm_congr_r. intros l Hl. apply SH; assumption.
Qed.

Lemma A_sq : eqm m m (mm m A A) eye.
Proof.
  intros i j Hi Hj. unfold A at 1. rewrite mm_assoc.
  rewrite (mm_congr_r N (adj E) (mm m (mm N S E) A) E).
  - destruct HE as (I & _). apply I; assumption.
  - intros l Hl. rewrite mm_assoc.
    rewrite (mm_congr_r N S (mm m E A) (mm N S E)) by (intros l' Hl'; apply SE_in; assumption).
    rewrite <- mm_assoc. rewrite (mm_congr_l N N (mm N S S) eye) by assumption. apply mm_eye_l; exact Hl.
Qed.

Lemma eig_pm t : t < m -> (e t * e t = 1)%R.
Proof.
  intros Ht. destruct HV as [[U _] HA].
  assert (X : forall i, i < m -> V i t = V i t * rc (e t * e t)).
  { intros i Hi. transitivity (mm m (mm m A A) V i t).
    - rewrite (mm_congr_l m m (mm m A A) eye) by (auto; apply A_sq). symmetry; apply mm_eye_l; exact Hi.
    - rewrite mm_assoc. rewrite (mm_congr_r m A (mm m A V) (fun l t => V l t * rc (e t))) by (intros; apply HA; assumption).
      transitivity (mm m A V i t * rc (e t)).
      + unfold mm. rewrite <- bsum_mul_r. apply bsum_ext; intros l Hl. ring.
      + rewrite HA by assumption. rewrite <- rc_mul. fold (rc (e t)). ring. }
  specialize (U t t Ht Ht). unfold eye in U. rewrite Nat.eqb_refl in U.
  apply rc_inj. rewrite rc_1, <- U. unfold mm.
  transitivity (bsum m (fun l => adj V t l * V l t) * rc (e t * e t)).
  - fold (mm m (adj V) V t t). rewrite U. ring.
  - rewrite <- bsum_mul_r. apply bsum_ext; intros l Hl. rewrite (X l Hl) at 2. ring.
Qed.

Lemma mask_one t : t < m -> (mask t = true <-> e t = 1%R).
Proof. intros Ht. apply below_one, eig_pm, Ht. Qed.

Lemma sel_one t : t < length sel -> nth t sel O < m /\ e (nth t sel O) = 1%R.
Proof. intros Ht. destruct (sel_in mask m t Ht) as [H1 H2]. split; [exact H1|]. apply mask_one; assumption. Qed.

Lemma step_spans : spans (S :: Ss) (length sel) (mm m E Vs).
Proof.
  destruct HE as (I & F & C). destruct HV as [[U1 U2] HA].
  assert (AVs : forall i t, i < m -> t < length sel -> mm m A Vs i t = Vs i t).
  { intros i t Hi Ht. destruct (sel_one t Ht) as [H1 H2].
    transitivity (mm m A V i (nth t sel O)); [reflexivity|]. rewrite HA by assumption. rewrite H2. unfold Vs. fold (rc 1). rewrite rc_1. ring. }
  split; [|split].
  - intros s t Hs Ht.
    transitivity (mm m (adj Vs) Vs s t).
    + transitivity (mm N (mm m (adj Vs) (adj E)) (mm m E Vs) s t).
      { apply bsum_ext; intros l Hl. rewrite adj_mm. reflexivity. }
      rewrite mm_assoc. apply mm_congr_r. intros l Hl. rewrite <- mm_assoc.
      rewrite (mm_congr_l m m (mm N (adj E) E) eye) by assumption. apply mm_eye_l; exact Hl.
    + transitivity (mm m (adj V) V (nth s sel O) (nth t sel O)); [reflexivity|].
      rewrite U1 by (apply sel_one; assumption). apply sel_eye; assumption.
  - intros T [<-|HT] i t Hi Ht.
    + rewrite <- mm_assoc. transitivity (mm m (mm m E A) Vs i t).
      * apply bsum_ext; intros l Hl. rewrite SE_in by assumption. reflexivity.
      * rewrite mm_assoc. apply mm_congr_r. intros l Hl. apply AVs; assumption.
    + rewrite <- mm_assoc. apply (mm_congr_l N m); [apply F; exact HT|exact Hi].
  - intros W j HW i Hi.
    set (u := mm N (adj E) W).
    assert (Wu : forall l, l < N -> mm m E u l j = W l j).
    { intros l Hl. apply C; [|exact Hl]. intros T HT. apply HW; right; exact HT. }
    assert (Au : forall l, l < m -> mm m A u l j = u l j).
    { intros l Hl. unfold A. rewrite !mm_assoc. unfold u. apply mm_congr_r. intros l' Hl'. rewrite mm_assoc.
      transitivity (mm N S W l' j); [|apply HW; [left; reflexivity|exact Hl']]. apply mm_congr_r. intros l'' Hl''. apply Wu; exact Hl''. }
    set (w := mm m (adj V) u).
    assert (Ew : forall t, t < m -> w t j = rc (e t) * w t j).
    { intros t Ht. unfold w at 1. transitivity (mm m (adj V) (mm m A u) t j); [apply mm_congr_r; intros; symmetry; apply Au; assumption|].
      rewrite <- mm_assoc. unfold w, mm at 1 3. rewrite <- bsum_mul_l. apply bsum_ext; intros l Hl.
      transitivity (adj V t l * rc (e t) * u l j); [|ring]. f_equal.
      transitivity (adj (mm m A V) t l).
      - rewrite adj_mm. apply mm_congr_r. intros l' Hl'. symmetry. apply (A_herm l' l Hl' Hl).
      - unfold adj at 1. rewrite HA by assumption. rewrite sconj_mul. fold (rc (e t)). f_equal. unfold rc. cbn. unfold CC_conj. cbn. f_equal. ring. }
    assert (Wz : forall t, t < m -> mask t = false -> w t j = 0).
    { intros t Ht Hm. assert (e t = -1)%R.
      { pose proof (eig_pm t Ht) as H1. assert (E0 : ((e t - 1) * (e t + 1) = 0)%R) by (ring_simplify; simpl; lra).
        apply Rmult_integral in E0. destruct E0 as [E0|E0]; [|lra]. exfalso.
        assert (mask t = true) by (apply mask_one; [exact Ht|lra]). congruence. }
      specialize (Ew t Ht). rewrite H in Ew. destruct (w t j) as [a b]. unfold rc in Ew. cbn in Ew. unfold CC_mul in Ew. cbn in Ew.
      injection Ew as E1 E2. apply CC_eq; simpl; lra. }
    (* V_s V_s^dagger u = u *)
    assert (VVu : forall l, l < m -> mm (length sel) Vs (mm m (adj Vs) u) l j = u l j).
    { intros l Hl. transitivity (bsum (length sel) (fun t => (fun t' => V l t' * w t' j) (nth t sel O))); [reflexivity|].
      unfold sel. rewrite (bsum_filter (fun t' => V l t' * w t' j)).
      transitivity (mm m V w l j).
      - apply bsum_ext; intros t Ht. destruct (mask t) eqn:Em; [reflexivity|]. rewrite Wz by assumption. ring.
      - unfold w. rewrite <- mm_assoc. rewrite (mm_congr_l m m (mm m V (adj V)) eye) by assumption. apply mm_eye_l; exact Hl. }
    transitivity (mm m E (mm (length sel) Vs (mm m (adj Vs) u)) i j).
    + rewrite mm_assoc. apply mm_congr_r. intros l Hl. apply mm_congr_r. intros t Ht. unfold u. rewrite <- mm_assoc.
      apply bsum_ext; intros l' Hl'. rewrite adj_mm. reflexivity.
    + rewrite (mm_congr_r m E _ u) by (intros; apply VVu; assumption). apply Wu; exact Hi.
Qed.
End Step.
End Encoder.

Section Run.
Variable eigh : marr CC -> (nat -> R) * marr CC.
Hypothesis EO : eigh_ok eigh.
Variable N : nat.

Definition good (S : array CC) := hermitian N S /\ is_involution N S.

Lemma run_loop rest : forall Ss m E,
  Forall (fun S => mr S = N /\ mc S = N /\ good (me S)) rest ->
  (forall S T, In S rest -> In T Ss \/ (exists T', In T' rest /\ T = me T') -> eqm N N (mm N (me S) T) (mm N T (me S))) ->
  spans N Ss m E ->
  exists m' E', foldM (fun evecs S =>
               do se <- np_dot S evecs;
               do conju <- np_dot (np_dagger evecs) se;
               let '(e1, ev1) := eigh conju in
               np_dot evecs (obtain_eigenspace_one e1 ev1)) rest (MA N m E) = Ok (MA N m' E') /\
    spans N (rev (map me rest) ++ Ss) m' E'.
Proof.
  induction rest as [|S rest IH]; intros Ss m E G C HE.
  - exists m, E. split; [reflexivity|exact HE].
  - apply Forall_cons_iff in G. destruct G as [(R1 & R2 & GS1 & GS2) G]. destruct S as [sr sc S]. cbn [mr mc me] in *. subst sr sc.
    assert (SC : forall T, In T Ss -> eqm N N (mm N S T) (mm N T S)).
    { intros T HT. apply (C (MA N N S) T); [left; reflexivity|left; exact HT]. }
    pose (A := mm N (adj E) (mm N S E)).
    destruct (EO m A (A_herm N m E S GS1) (A_sq N Ss m E S HE GS2 SC)) as (V1 & V2 & V3).
    cbn [foldM]. unfold np_dot at 1. cbn [mr mc me]. rewrite Nat.eqb_refl. cbn [bind].
    unfold np_dot at 1, np_dagger. cbn [mr mc me]. rewrite Nat.eqb_refl. cbn [bind]. fold A.
    destruct (eigh (MA m m A)) as [e ev] eqn:Eev. cbn [fst snd] in *. 
    unfold np_dot at 1, obtain_eigenspace_one. cbn [mr mc me]. rewrite V1, V2, Nat.eqb_refl. cbn [bind].
    pose proof (step_spans N Ss m E S e (me ev) HE GS1 GS2 SC V3) as HS.
    assert (C' : forall S' T, In S' rest -> In T (S :: Ss) \/ (exists T', In T' rest /\ T = me T') -> eqm N N (mm N (me S') T) (mm N T (me S'))).
    { intros S' T HS' HT. apply C; [right; exact HS'|]. destruct HT as [[<-|HT]|(T' & HT & ->)].
      * right. exists (MA N N S). split; [left; reflexivity|reflexivity].
      * left; exact HT.
      * right. exists T'. split; [right; exact HT|reflexivity]. }
    destruct (IH (S :: Ss) _ _ G C' HS) as (m' & E' & R & H).
    exists m', E'. split; [exact R|]. cbn [map rev]. rewrite <- app_assoc. exact H.
Qed.

Lemma spans_ext N' Ss Ss' m E E' : eqm N' m E E' -> (forall S, In S Ss' <-> In S Ss) -> spans N' Ss m E -> spans N' Ss' m E'.
Proof.
  intros HE HI (H1 & H2 & H3). split; [|split].
  - eapply eqm_trans; [|exact H1]. apply mm_eqm; [apply adj_eqm, eqm_sym; exact HE|apply eqm_sym; exact HE].
  - intros S HS. eapply eqm_trans; [apply mm_eqm; [apply eqm_refl|apply eqm_sym; exact HE]|].
    eapply eqm_trans; [apply H2, HI, HS|exact HE].
  - intros W j HW i Hi. rewrite <- (H3 W j (fun S HS => HW S (proj2 (HI S) HS)) i Hi).
    apply bsum_ext; intros l Hl. rewrite HE by assumption. f_equal. apply bsum_ext; intros l' Hl'. f_equal. unfold adj. rewrite HE by assumption. reflexivity.
Qed.

Lemma run_all S0 rest :
  Forall (fun S => mr S = N /\ mc S = N /\ good (me S)) (S0 :: rest) ->
  (forall S T, In S (S0 :: rest) -> In T (S0 :: rest) -> eqm N N (mm N (me S) (me T)) (mm N (me T) (me S))) ->
  exists m' E', (let '(eigs, evecs) := eigh S0 in
      foldM (fun evecs S =>
               do se <- np_dot S evecs;
               do conju <- np_dot (np_dagger evecs) se;
               let '(e1, ev1) := eigh conju in
               np_dot evecs (obtain_eigenspace_one e1 ev1))
            rest (obtain_eigenspace_one eigs evecs)) = Ok (MA N m' E') /\
    spans N (map me (S0 :: rest)) m' E'.
Proof.
  intros G C. apply Forall_cons_iff in G. destruct G as [(R1 & R2 & GS1 & GS2) G]. destruct S0 as [sr sc S]. cbn [mr mc me] in *. subst sr sc.
  destruct (EO N S GS1 GS2) as (V1 & V2 & V3). destruct (eigh (MA N N S)) as [e ev] eqn:Eev. cbn [fst snd] in *.
  (* the first step is the general step started from the identity *)
  assert (A0 : eqm N N (mm N (adj eye) (mm N S eye)) S).
  { intros i j Hi Hj. rewrite (mm_congr_l N N (adj eye) eye) by (auto; intros a b _ _; apply adj_eye). rewrite mm_eye_l by exact Hi. apply mm_eye_r; exact Hj. }
  assert (V3' : eigen_decomposition N (mm N (adj eye) (mm N S eye)) e (me ev)).
  { destruct V3 as [U HA]. split; [exact U|]. intros i t Hi Ht. rewrite <- HA by assumption. apply (mm_congr_l N N); [exact A0|exact Hi]. }
  pose proof (step_spans N [] N eye S e (me ev) (spans_nil N) GS1 GS2 (fun T (H : In T []) => match H with end) V3') as HS.
  unfold obtain_eigenspace_one at 2. rewrite V1, V2.
  assert (C' : forall S' T, In S' rest -> In T [S] \/ (exists T', In T' rest /\ T = me T') -> eqm N N (mm N (me S') T) (mm N T (me S'))).
  { intros S' T HS' [[<-|[]]|(T' & HT & ->)].
    + apply (C S' (MA N N S)); [right; exact HS'|left; reflexivity].
    + apply (C S' T'); right; assumption. }
  pose proof (spans_ext N [S] [S] _ _
     (fun i t => me ev i (nth t (filter (fun t0 => below (Rabs (e t0 - 1)) tol5) (seq O N)) O))
     (fun i t Hi Ht => mm_eye_l N _ i t Hi) (fun S => iff_refl _) HS) as HS'.
  destruct (run_loop rest [S] _ _ G C' HS') as (m' & E' & R & H).
  exists m', E'. split; [exact R|]. eapply spans_ext; [apply eqm_refl| |exact H].
  intros T. rewrite in_app_iff, <- in_rev. cbn [map In]. tauto.
Qed.
End Run.

(** ** dimension of the code space *)
Section Dim.
Variable n : nat.
Let N := (2 ^ n)%nat.
Definition P (row : list Z) : array CC := pm n (xp row) (zp n row).

(** product of (I + P(r)) *)
Fixpoint Q (rows : list (list Z)) : array CC :=
  match rows with
  | [] => eye
  | r :: l => fun i j => Q l i j + mm N (P r) (Q l) i j
  end.

Fixpoint insp (rows : list (list Z)) (x z : nat -> bool) : Prop :=
  match rows with
  | [] => forall j, j < n -> x j = false /\ z j = false
  | r :: l => insp l x z \/ insp l (fun j => xorb (x j) (xp r j)) (fun j => xorb (z j) (zp n r j))
  end.

Lemma tr_add d (A B : array CC) : tr d (fun i j => A i j + B i j) = tr d A + tr d B.
Proof. apply bsum_add. Qed.
Lemma tr_scale d a (A : array CC) : tr d (fun i j => a * A i j) = a * tr d A.
Proof. apply bsum_mul_l. Qed.

Lemma tr_PQ rows : forall x z, ~ insp rows x z -> tr N (mm N (pm n x z) (Q rows)) = 0.
Proof.
  induction rows as [|r l IH]; intros x z H.
  - rewrite (tr_eqm N _ (pm n x z)) by (intros i j Hi Hj; apply mm_eye_r; exact Hj).
    unfold N. rewrite pm_tr. destruct (existsb _ _) eqn:Ex; [reflexivity|]. exfalso. apply H. intros j Hj.
    assert (Hf : (x j || z j)%bool = false).
    { destruct (x j || z j)%bool eqn:Ej; [|reflexivity]. rewrite <- Ex. symmetry. apply existsb_exists. exists j. split; [apply in_seq; lia|exact Ej]. }
    apply orb_false_iff in Hf. exact Hf.
  - cbn [Q]. rewrite (tr_eqm N _ (fun i j => mm N (pm n x z) (Q l) i j +
        sgn (xsum n (fun t => z t && xp r t)) * mm N (pm n (fun t => xorb (x t) (xp r t)) (fun t => xorb (z t) (zp n r t))) (Q l) i j)).
    + rewrite tr_add, tr_scale, IH, IH.
      * ring.
      * intros H'. apply H. right. exact H'.
      * intros H'. apply H. left. exact H'.
    + intros i j Hi Hj.
      transitivity (mm N (pm n x z) (Q l) i j + mm N (mm N (pm n x z) (P r)) (Q l) i j).
      * rewrite mm_assoc. apply mm_add_r.
      * f_equal. rewrite <- mm_scale_l. apply (mm_congr_l N N); [|exact Hi]. intros a b Ha Hb. unfold P. apply pm_mul; assumption.
Qed.

Fixpoint indp (rows : list (list Z)) : Prop :=
  match rows with [] => True | r :: l => ~ insp l (xp r) (zp n r) /\ indp l end.

Lemma tr_Q rows : indp rows -> tr N (Q rows) = bsum N (fun _ => 1).
Proof.
  induction rows as [|r l IH]; intros H.
  - apply bsum_ext; intros i _. unfold Q, eye. rewrite Nat.eqb_refl. reflexivity.
  - destruct H as [H1 H2]. cbn [Q]. rewrite tr_add, IH by exact H2. unfold P. rewrite tr_PQ by exact H1. ring.
Qed.

Lemma insp_ext rows : forall x z x' z', (forall j, j < n -> x j = x' j /\ z j = z' j) -> insp rows x z -> insp rows x' z'.
Proof.
  induction rows as [|r l IH]; intros x z x' z' H; cbn [insp].
  - intros G j Hj. destruct (H j Hj) as [<- <-]. apply G; exact Hj.
  - intros [G|G]; [left|right]; (eapply IH; [|exact G]); intros j Hj; destruct (H j Hj) as [<- <-]; auto.
Qed.

Lemma insp_lcomb rows : forall x z, insp rows x z -> exists c, length c = length rows /\
  forall j, j < n -> x j = Z.odd (lcomb c rows j) /\ z j = Z.odd (lcomb c rows (n + j)).
Proof.
  induction rows as [|r l IH]; intros x z; cbn [insp].
  - intros H. exists []. split; [reflexivity|]. intros j Hj. apply H; exact Hj.
  - intros [H|H]; apply IH in H; destruct H as (c & L & H).
    + exists (0%Z :: c). split; [simpl; lia|]. intros j Hj. cbn [lcomb]. rewrite !Z.mul_0_l, !Z.add_0_l. apply H; exact Hj.
    + exists (1%Z :: c). split; [simpl; lia|]. intros j Hj. cbn [lcomb]. rewrite !Z.mul_1_l, !Z.odd_add.
      destruct (H j Hj) as [H1 H2]. rewrite <- H1, <- H2. unfold xp, zp, brow.
      split; [destruct (x j), (Z.odd (nth j r 0%Z)); reflexivity|destruct (z j), (Z.odd (nth (n + j) r 0%Z)); reflexivity].
Qed.

Lemma indep_indp rows : indep 2 (2 * n) rows -> indp rows.
Proof.
  induction rows as [|r l IH]; intros H; [exact I|]. split.
  - intros G. apply insp_lcomb in G. destruct G as (c & L & G).
    assert (F : Forall (Z.divide 2) (1%Z :: c)).
    { apply H; [simpl; lia|]. intros j Hj. cbn [lcomb]. rewrite Z.mul_1_l, divide2_odd, Z.odd_add.
      destruct (Nat.lt_ge_cases j n) as [Hl|Hl].
      - rewrite <- (proj1 (G j Hl)). unfold xp, brow. apply xorb_nilpotent.
      - replace j with (n + (j - n))%nat by lia. rewrite <- (proj2 (G (j - n)%nat ltac:(lia))). unfold zp, brow. apply xorb_nilpotent. }
    apply Forall_inv in F. destruct F as [q F]. lia.
  - apply IH. intros c L G. assert (F : Forall (Z.divide 2) (0%Z :: c)).
    { apply H; [simpl; lia|]. intros j Hj. cbn [lcomb]. rewrite Z.mul_0_l. apply G; exact Hj. }
    apply Forall_inv_tail in F. exact F.
Qed.

(** each generator fixes the columns of Q *)
Lemma P_Q_commute rows T : (forall r, In r rows -> eqm N N (mm N T (P r)) (mm N (P r) T)) ->
  eqm N N (mm N T (Q rows)) (mm N (Q rows) T).
Proof.
  induction rows as [|r l IH]; intros C i j Hi Hj.
  - cbn [Q]. rewrite mm_eye_r by exact Hj. symmetry. apply mm_eye_l; exact Hi.
  - cbn [Q]. specialize (IH (fun r' Hr' => C r' (or_intror Hr'))).
    transitivity (mm N T (Q l) i j + mm N (mm N T (P r)) (Q l) i j).
    + rewrite mm_assoc. apply mm_add_r.
    + transitivity (mm N (Q l) T i j + mm N (mm N (P r) (Q l)) T i j).
      * f_equal; [apply IH; assumption|].
        rewrite (mm_congr_l N N (mm N T (P r)) (mm N (P r) T)) by (first [exact Hi | apply C; left; reflexivity]).
        rewrite !mm_assoc. apply mm_congr_r. intros t Ht. apply IH; assumption.
      * symmetry. apply mm_add_l.
Qed.

Lemma Q_fixed rows : (forall r, In r rows -> is_involution N (P r)) ->
  (forall r r', In r rows -> In r' rows -> eqm N N (mm N (P r) (P r')) (mm N (P r') (P r))) ->
  forall r, In r rows -> eqm N N (mm N (P r) (Q rows)) (Q rows).
Proof.
  induction rows as [|r0 l IH]; intros I C r Hr; [destruct Hr|]. intros i j Hi Hj.
  assert (X : forall T, mm N T (Q (r0 :: l)) i j = mm N T (Q l) i j + mm N (mm N T (P r0)) (Q l) i j).
  { intros T. rewrite mm_assoc. cbn [Q]. apply mm_add_r. }
  rewrite X. cbn [Q]. destruct Hr as [<-|Hr].
  - rewrite (mm_congr_l N N (mm N (P r0) (P r0)) eye) by (first [exact Hi | apply I; left; reflexivity]). rewrite mm_eye_l by exact Hi. ring.
  - specialize (IH (fun r' H => I r' (or_intror H)) (fun a b Ha Hb => C a b (or_intror Ha) (or_intror Hb)) r Hr).
    f_equal; [apply IH; assumption|].
    rewrite (mm_congr_l N N (mm N (P r) (P r0)) (mm N (P r0) (P r))) by (first [exact Hi | apply C; [right; exact Hr|left; reflexivity]]).
    rewrite mm_assoc. apply mm_congr_r. intros t Ht. apply IH; assumption.
Qed.

Lemma Q_E rows m E : (forall r, In r rows -> eqm N m (mm N (P r) E) E) ->
  eqm N m (mm N (Q rows) E) (fun i j => rc (2 ^ length rows) * E i j).
Proof.
  induction rows as [|r l IH]; intros F i j Hi Hj.
  - cbn [Q length pow]. rewrite mm_eye_l by exact Hi. rewrite rc_1. ring.
  - specialize (IH (fun r' H => F r' (or_intror H))).
    transitivity (mm N (Q l) E i j + mm N (P r) (mm N (Q l) E) i j).
    + rewrite <- mm_assoc. cbn [Q]. apply mm_add_l.
    + rewrite IH by assumption. rewrite (mm_congr_r N (P r) _ (fun i j => rc (2 ^ length l) * E i j)) by (intros t Ht; apply IH; assumption).
      transitivity (rc (2 ^ length l) * E i j + rc (2 ^ length l) * mm N (P r) E i j).
      * f_equal. apply mm_scale_r.
      * rewrite F by (assumption || left; reflexivity). cbn [length pow]. rewrite <- rc_mul.
        replace (rc 2) with (1 + 1 : CC) by (apply CC_eq; cbn; lra). ring.
Qed.

Lemma bsum_ones d : bsum d (fun _ => 1 : CC) = rc (INR d).
Proof.
  induction d as [|d IH]; [reflexivity|]. cbn [bsum]. rewrite IH, S_INR. apply CC_eq; cbn; lra.
Qed.

Lemma spans_dim rows m E : (forall r, In r rows -> is_involution N (P r)) ->
  (forall r r', In r rows -> In r' rows -> eqm N N (mm N (P r) (P r')) (mm N (P r') (P r))) ->
  indep 2 (2 * n) rows -> spans N (map P rows) m E -> (2 ^ length rows * m = 2 ^ n)%nat.
Proof.
  intros I C D (H1 & H2 & H3).
  assert (T1 : tr N (Q rows) = rc (INR (2 ^ n))) by (rewrite tr_Q by (apply indep_indp; exact D); apply bsum_ones).
  assert (T2 : tr N (Q rows) = rc (2 ^ length rows) * rc (INR m)).
  { rewrite (tr_eqm N (Q rows) (mm m E (mm N (adj E) (Q rows)))).
    - rewrite tr_mm. rewrite (tr_eqm m _ (mm N (adj E) (mm N (Q rows) E))) by (intros i j _ _; apply mm_assoc).
      rewrite (tr_eqm m _ (fun i j => rc (2 ^ length rows) * mm N (adj E) E i j)).
      + rewrite tr_scale, (tr_eqm m _ eye) by exact H1. f_equal. unfold tr, eye. rewrite <- bsum_ones. apply bsum_ext; intros i _. rewrite Nat.eqb_refl. reflexivity.
      + intros i j Hi Hj. transitivity (mm N (adj E) (fun i j => rc (2 ^ length rows) * E i j) i j).
        * apply mm_congr_r. intros t Ht. apply (Q_E rows m E); [|exact Ht|exact Hj]. intros r Hr. apply H2, in_map, Hr.
        * apply mm_scale_r.
    - intros i j Hi Hj. symmetry. apply H3; [|exact Hi]. intros S HS i' Hi'. apply in_map_iff in HS. destruct HS as (r & <- & Hr).
      apply (Q_fixed rows I C r Hr); assumption. }
  rewrite T1, rc_mul in T2. apply rc_inj in T2.
  apply INR_eq. rewrite mult_INR, T2. f_equal. rewrite pow_INR. reflexivity.
Qed.
End Dim.

Theorem encoder_isometry eigh g n k ops c : eigh_ok eigh -> init g n k ops = Ok c -> 1 <= n ->
  Forall binary (zd (stab c)) -> Forall (fun r => Nat.even (y_count n r) = true) (zd (stab c)) ->
  exists Ss m E, binary_rep_to_pauli_mat (stab c) = Ok Ss /\
    encode_krauss_operators eigh c = Ok (MA (2 ^ n) m E) /\
    eqm m m (mm (2 ^ n) (adj E) E) eye /\
    (forall S, In S Ss -> eqm (2 ^ n) m (mm (2 ^ n) (me S) E) E) /\
    (forall v : nat -> CC, (forall S, In S Ss -> forall i, i < 2 ^ n -> bsum (2 ^ n) (fun l => me S i l * v l) = v i) ->
       forall i, i < 2 ^ n -> bsum m (fun t => E i t * bsum (2 ^ n) (fun l => (E l t)^* * v l)) = v i) /\
    (indep 2 (2 * n) (zd (stab c)) -> length (zd (stab c)) = (n - k)%nat -> m = (2 ^ k)%nat).
Proof.
  intros EO I Hn B Y. destruct (init_inv _ _ _ _ _ I) as (M & W & _ & ZC & ES & Hk & Hp & _).
  pose proof (init_commutes _ _ _ _ _ I) as C. rewrite ES in *.
  assert (L : Forall (fun r => length r = (2 * n)%nat) (zd M)) by (destruct W as [_ W]; rewrite ZC in W; exact W).
  destruct (rowmats (K := CC) n (zd M) Hn L B) as (Ss & EM & F).
  assert (EB : binary_rep_to_pauli_mat (K := CC) M = Ok Ss) by (unfold binary_rep_to_pauli_mat; rewrite ZC, CodesProofs.div2_double; exact EM).
  (* facts about each matrix *)
  assert (FG : forall S, In S Ss -> exists r, In r (zd M) /\ mr S = (2 ^ n)%nat /\ mc S = (2 ^ n)%nat /\ eqm (2 ^ n) (2 ^ n) (me S) (P n r)).
  { clear -F. induction F as [|r S rows Ss H F IH]; intros S' [].
    - subst. exists r. split; [left; reflexivity|exact H].
    - destruct (IH S' H0) as (r' & Hr' & H'). exists r'. split; [right; exact Hr'|exact H']. }
  assert (PG : forall r, In r (zd M) -> good (2 ^ n) (P n r)).
  { intros r Hr. rewrite Forall_forall in L, B, Y. destruct (pauli_square (K := CC) n r Hn (L r Hr) (B r Hr)) as (A & EA & U & SQ & HH).
    assert (HA : eqm (2 ^ n) (2 ^ n) A (P n r)).
    { destruct (pauli_row_mat_spec (K := CC) n r Hn (L r Hr) (B r Hr)) as (A' & EA' & HA').
      unfold binary_rep_to_pauli_mat in EA. cbn [zc zd mapM] in EA. rewrite CodesProofs.div2_double, EA' in EA. cbn in EA. injection EA as <-. exact HA'. }
    rewrite (Y r Hr) in SQ, HH. split.
    - eapply eqm_trans; [|exact HA]. eapply eqm_trans; [apply adj_eqm, eqm_sym; exact HA|]. apply HH; reflexivity.
    - intros i j Hi Hj. rewrite <- (mm_eqm _ _ _ A (P n r) A (P n r) HA HA i j Hi Hj). rewrite SQ by assumption. unfold scale. ring. }
  assert (PC : forall r r', In r (zd M) -> In r' (zd M) -> eqm (2 ^ n) (2 ^ n) (mm (2 ^ n) (P n r) (P n r')) (mm (2 ^ n) (P n r') (P n r))).
  { intros r r' Hr Hr' i j Hi Hj. rewrite (commute_sign n r r' (P n r) (P n r') (eqm_refl _ _ _) (eqm_refl _ _ _) i j Hi Hj).
    unfold scale. assert (E0 : ip n (brow r) (brow r') = false) by (apply commute_ip, C; assumption). rewrite E0. cbn [sgn]. ring. }
  assert (LSs : length Ss = length (zd M)) by (symmetry; eapply Forall2_length; exact F).
  destruct Ss as [|S0 rest]. { exfalso. destruct W as [LM _]. simpl in LSs. lia. }
  assert (GG : Forall (fun S => mr S = (2 ^ n)%nat /\ mc S = (2 ^ n)%nat /\ good (2 ^ n) (me S)) (S0 :: rest)).
  { apply Forall_forall. intros S HS. destruct (FG S HS) as (r & Hr & R1 & R2 & HE). split; [exact R1|]. split; [exact R2|].
    destruct (PG r Hr) as [G1 G2]. split.
    - eapply eqm_trans; [apply adj_eqm; exact HE|]. eapply eqm_trans; [exact G1|apply eqm_sym; exact HE].
    - eapply eqm_trans; [apply mm_eqm; exact HE|exact G2]. }
  assert (GC : forall S T, In S (S0 :: rest) -> In T (S0 :: rest) -> eqm (2 ^ n) (2 ^ n) (mm (2 ^ n) (me S) (me T)) (mm (2 ^ n) (me T) (me S))).
  { intros S T HS HT. destruct (FG S HS) as (r & Hr & _ & _ & HE). destruct (FG T HT) as (r' & Hr' & _ & _ & HE').
    eapply eqm_trans; [apply mm_eqm; [exact HE|exact HE']|]. eapply eqm_trans; [apply PC; assumption|].
    apply mm_eqm; apply eqm_sym; assumption. }
  destruct (run_all eigh EO (2 ^ n) S0 rest GG GC) as (m & E & R & H).
  exists (S0 :: rest), m, E. split; [exact EB|]. split; [unfold encode_krauss_operators; rewrite ES, EB; exact R|].
  destruct H as (H1 & H2 & H3). split; [exact H1|].
  split; [intros S HS; apply H2, in_map, HS|]. split.
  - intros v Hv i Hi. apply (H3 (fun l _ => v l) O); [|exact Hi]. intros S HS i' Hi'. apply in_map_iff in HS. destruct HS as (S' & <- & HS').
    apply (Hv S' HS' i' Hi').
  - intros D LN.
    assert (SP : spans (2 ^ n) (map (P n) (zd M)) m E).
    { split; [exact H1|]. split.
      - intros S HS. apply in_map_iff in HS. destruct HS as (r & <- & Hr).
        assert (exists S, In S (S0 :: rest) /\ eqm (2 ^ n) (2 ^ n) (me S) (P n r)) as (S & HS & HE).
        { clear -F Hr. induction F as [|r0 S rows Ss H F IH]; [destruct Hr|]. destruct Hr as [->|Hr].
          - exists S. split; [left; reflexivity|apply H].
          - destruct (IH Hr) as (S' & HS' & HE'). exists S'. split; [right; exact HS'|exact HE']. }
        eapply eqm_trans; [apply mm_eqm; [apply eqm_sym; exact HE|apply eqm_refl]|]. apply H2, in_map, HS.
      - intros W' j HW i Hi. apply H3; [|exact Hi]. intros S HS i' Hi'. apply in_map_iff in HS. destruct HS as (S' & <- & HS').
        destruct (FG S' HS') as (r & Hr & _ & _ & HE). rewrite (mm_congr_l (2 ^ n) (2 ^ n) (me S') (P n r)) by assumption.
        apply (HW (P n r)); [apply in_map, Hr|exact Hi']. }
    pose proof (spans_dim n (zd M) m E (fun r Hr => proj2 (PG r Hr)) PC D SP) as DM. rewrite LN in DM.
    assert (X : (2 ^ (n - k) * m = 2 ^ (n - k) * 2 ^ k)%nat) by (rewrite DM, <- Nat.pow_add_r; f_equal; lia).
    apply Nat.mul_cancel_l in X; [exact X|]. pose proof (pow2_pos (n - k)). lia.
Qed.
