(** C93: the encoder of a code some generator of which has an odd number of Ys. *)
From Verif Require Import Py ZMat CodesModel RankSpec CodesSpec BoolLin Rank CodesProofs CodesProofs2 Scalar PauliModel PauliSpec DependSpec PauliProofs PauliProofs2 EncoderProofs KrausSpec SpectralExists ChoiSpec.
From Coq Require Import Reals Lra.
Open Scope nat_scope.
Add Ring CCring41 : (s_rt CC).
Open Scope K_scope.

Lemma lower_herm d A : hermitian d (lower_hermitian A).
Proof.
  intros i j Hi Hj. unfold adj, lower_hermitian. destruct (Nat.ltb_spec i j), (Nat.ltb_spec j i); try lia; [reflexivity|apply sconj_conj|].
  replace j with i by lia. apply CC_eq; cbn; lra.
Qed.

Lemma lower_same d A : hermitian d A -> eqm d d (lower_hermitian A) A.
Proof.
  intros H i j Hi Hj. unfold lower_hermitian. destruct (Nat.ltb_spec j i); [reflexivity|]. destruct (Nat.ltb_spec i j); [exact (H i j Hi Hj)|].
  replace j with i by lia. pose proof (H i i Hi Hi) as X. unfold adj in X. apply CC_eq; cbn; [reflexivity|]. apply (f_equal snd) in X. cbn in X. lra.
Qed.

Lemma eigh_lower_exists : exists eigh, eigh_lower_ok eigh.
Proof.
  destruct eigh_exists as (eigh & H). exists (fun A => eigh (MA (mr A) (mc A) (lower_hermitian (me A)))). intros d A. cbn [mr mc me].
  destruct (H d (MA d d (lower_hermitian A)) (conj eq_refl eq_refl) (lower_herm d A)) as [[X1 X2] X3]. auto.
Qed.

Lemma eigh_lower_eigh eigh : eigh_lower_ok eigh -> eigh_ok eigh.
Proof.
  intros H d A HA _. destruct (H d A) as (H1 & H2 & U & HV). split; [exact H1|]. split; [exact H2|]. split; [exact U|].
  intros i t Hi Ht. rewrite <- HV by assumption. apply (mm_congr_l d d A); [apply eqm_sym, lower_same, HA|exact Hi].
Qed.

Section Flip.
Notation pm := (pm (K := CC)).

Lemma pm_diag n x z : (forall l, l < n -> x l = false) -> forall i j, i < 2 ^ n -> j < 2 ^ n -> i <> j -> pm n x z i j = 0.
Proof.
  induction n as [|n IH]; intros H i j Hi Hj NE; [cbn in Hi, Hj; lia|]. cbn [PauliProofs.pm].
  pose proof (Nat.div_mod i 2 ltac:(lia)) as Ei. pose proof (Nat.div_mod j 2 ltac:(lia)) as Ej. pose proof (mod2_lt i). pose proof (mod2_lt j).
  destruct (Nat.eq_dec (i / 2) (j / 2)) as [E|E].
  - rewrite (H n) by lia. destruct (i mod 2)%nat as [|[|]], (j mod 2)%nat as [|[|]]; try lia; cbn [q]; ring.
  - rewrite IH; [ring|intros l Hl; apply H; lia|apply div2_lt; exact Hi|apply div2_lt; exact Hj|exact E].
Qed.

Lemma pm_flip n x z t : t < n -> x t = true -> (forall l, l < t -> x l = false) -> forall i j, i < 2 ^ n -> j < 2 ^ n ->
  (j < i -> pm n x (fun l => xorb (z l) (Nat.eqb l t)) i j = pm n x z i j) /\
  (i < j -> pm n x (fun l => xorb (z l) (Nat.eqb l t)) i j = - pm n x z i j) /\
  (i = j -> pm n x (fun l => xorb (z l) (Nat.eqb l t)) i j = 0 /\ pm n x z i j = 0).
Proof.
  induction n as [|n IH]; intros Ht Xt F i j Hi Hj; [lia|]. cbn [PauliProofs.pm].
  pose proof (Nat.div_mod i 2 ltac:(lia)) as Ei. pose proof (Nat.div_mod j 2 ltac:(lia)) as Ej. pose proof (mod2_lt i). pose proof (mod2_lt j).
  destruct (Nat.eq_dec t n) as [->|Nt].
  - rewrite (pm_ext n x (fun l => xorb (z l) (l =? n)) x z) by (intros l Hl; split; [reflexivity|rewrite (proj2 (Nat.eqb_neq l n)) by lia; apply xorb_false_r]).
    rewrite Nat.eqb_refl, Xt, xorb_true_r. destruct (Nat.eq_dec (i / 2) (j / 2)) as [E|E].
    + destruct (i mod 2)%nat as [|[|]], (j mod 2)%nat as [|[|]]; try lia; cbn [q]; (split; [|split]); intros G; try lia; try (split; ring); try ring.
      destruct (z n); cbn [negb sgn]; ring.
    + rewrite pm_diag by (first [exact F|apply div2_lt; assumption|exact E]). split; [intros _; ring|split; [intros _; ring|intros G; subst; congruence]].
  - rewrite (proj2 (Nat.eqb_neq n t)) by lia. rewrite xorb_false_r. destruct (IH ltac:(lia) Xt F (i / 2)%nat (j / 2)%nat (div2_lt _ _ Hi) (div2_lt _ _ Hj)) as (A & B & C).
    destruct (Nat.lt_trichotomy (i / 2) (j / 2)) as [G|[G|G]].
    + rewrite (B G). split; [intros; lia|split; [intros; ring|intros; subst; lia]].
    + destruct (C G) as [-> ->]. split; [intros; ring|split; [intros; ring|intros; split; ring]].
    + rewrite (A G). split; [reflexivity|split; [intros; lia|intros; subst; lia]].
Qed.

Lemma lower_flip n x z t : t < n -> x t = true -> (forall l, l < t -> x l = false) -> xsum n (fun l => x l && z l) = true ->
  eqm (2 ^ n) (2 ^ n) (lower_hermitian (pm n x z)) (pm n x (fun l => xorb (z l) (Nat.eqb l t))).
Proof.
  intros Ht Xt F Y i j Hi Hj. destruct (pm_flip n x z t Ht Xt F i j Hi Hj) as (A & B & C). unfold lower_hermitian.
  destruct (Nat.ltb_spec j i); [symmetry; apply A; assumption|]. destruct (Nat.ltb_spec i j).
  - rewrite B by assumption. pose proof (pm_adj (K := CC) n x z i j) as G. unfold adj in G. rewrite G, Y. cbn [sgn]. ring.
  - assert (i = j) by lia. subst j. destruct (C eq_refl) as [-> ->]. reflexivity.
Qed.
End Flip.

Section Run.
Variable eigh : marr CC -> (nat -> R) * marr CC.
Hypothesis EO : eigh_lower_ok eigh.
Variable N : nat.

Definition iso m (E : array CC) := eqm m m (mm N (adj E) E) eye.

Lemma iso_mul m p E G : iso m E -> eqm p p (mm m (adj G) G) eye -> iso p (mm m E G).
Proof.
  intros HE HG s t Hs Ht. rewrite <- (HG s t Hs Ht).
  transitivity (mm N (mm m (adj G) (adj E)) (mm m E G) s t). { apply bsum_ext; intros l Hl. rewrite adj_mm. reflexivity. }
  rewrite mm_assoc. apply mm_congr_r. intros l Hl. rewrite <- mm_assoc. rewrite (mm_congr_l m m (mm N (adj E) E) eye) by assumption. apply mm_eye_l; exact Hl.
Qed.

Lemma columns_iso (d : nat) (V : array CC) (mask : nat -> bool) : unitary d V ->
  let sel := filter mask (seq O d) in eqm (length sel) (length sel) (mm d (adj (fun i t => V i (nth t sel O))) (fun i t => V i (nth t sel O))) eye.
Proof.
  intros [U _] sel s t Hs Ht. destruct (sel_in mask d s Hs) as [S1 _]. destruct (sel_in mask d t Ht) as [T1 _].
  transitivity (mm d (adj V) V (nth s sel O) (nth t sel O)); [reflexivity|]. rewrite U by assumption. apply (sel_eye mask d); assumption.
Qed.

Lemma run_loop_iso rest : forall m E, Forall (fun S => mr S = N /\ mc S = N) rest -> iso m E ->
  exists m' E', foldM (fun evecs S =>
               do se <- np_dot S evecs;
               do conju <- np_dot (np_dagger evecs) se;
               let '(e1, ev1) := eigh conju in
               np_dot evecs (obtain_eigenspace_one e1 ev1)) rest (MA N m E) = Ok (MA N m' E') /\ iso m' E' /\
    exists G, eqm N m' E' (mm m E G).
Proof.
  induction rest as [|S rest IH]; intros m E G HE.
  - exists m, E. split; [reflexivity|]. split; [exact HE|]. exists eye. intros i j Hi Hj. symmetry. apply mm_eye_r, Hj.
  - apply Forall_cons_iff in G. destruct G as [(R1 & R2) G]. destruct S as [sr sc S]. cbn [mr mc me] in *. subst sr sc.
    pose (A := mm N (adj E) (mm N S E)). destruct (EO m A) as (V1 & V2 & [V3 _]).
    cbn [foldM]. unfold np_dot at 1. cbn [mr mc me]. rewrite Nat.eqb_refl. cbn [bind].
    unfold np_dot at 1, np_dagger. cbn [mr mc me]. rewrite Nat.eqb_refl. cbn [bind]. fold A.
    destruct (eigh (MA m m A)) as [e ev] eqn:Eev. cbn [fst snd] in *.
    unfold np_dot at 1, obtain_eigenspace_one. cbn [mr mc me]. rewrite V1, V2, Nat.eqb_refl. cbn [bind].
    set (mask := fun t => below (Rabs (e t - 1)) tol5).
    destruct (IH _ _ G (iso_mul m _ E _ HE (columns_iso m (me ev) mask V3))) as (m' & E' & R & I' & G' & HG').
    exists m', E'. split; [exact R|]. split; [exact I'|]. eexists. intros i j Hi Hj. rewrite HG' by assumption. apply mm_assoc.
Qed.

(** The columns are orthonormal, and each is fixed by the first matrix as eigh reads it. *)
Lemma run_iso S0 rest : mr S0 = N -> mc S0 = N -> Forall (fun S => mr S = N /\ mc S = N) rest ->
  exists m' E', (let '(eigs, evecs) := eigh S0 in
      foldM (fun evecs S =>
               do se <- np_dot S evecs;
               do conju <- np_dot (np_dagger evecs) se;
               let '(e1, ev1) := eigh conju in
               np_dot evecs (obtain_eigenspace_one e1 ev1))
            rest (obtain_eigenspace_one eigs evecs)) = Ok (MA N m' E') /\ iso m' E' /\
    (is_involution N (lower_hermitian (me S0)) -> eqm N m' (mm N (lower_hermitian (me S0)) E') E').
Proof.
  intros R1 R2 G. destruct S0 as [sr sc S]. cbn [mr mc me] in *. subst sr sc.
  destruct (EO N S) as (V1 & V2 & V3). destruct (eigh (MA N N S)) as [e ev] eqn:Eev. cbn [fst snd] in *.
  unfold obtain_eigenspace_one at 2. rewrite V1, V2. set (mask := fun t => below (Rabs (e t - 1)) tol5). set (sel := filter mask (seq O N)).
  set (E0 := fun i t => me ev i (nth t sel O)).
  assert (I0 : iso (length sel) E0) by apply (columns_iso N (me ev) mask (proj1 V3)).
  destruct (run_loop_iso rest _ _ G I0) as (m' & E' & R & I' & G' & HG'). exists m', E'. split; [exact R|]. split; [exact I'|].
  intros IV. set (A := lower_hermitian S) in *. destruct V3 as [U HA].
  assert (F0 : eqm N (length sel) (mm N A E0) E0).
  { intros i t Hi Ht. destruct (sel_in mask N t Ht) as [S1 S2]. transitivity (mm N A (me ev) i (nth t sel O)); [reflexivity|]. rewrite HA by assumption.
    assert (e (nth t sel O) = 1%R) as ->; [|unfold E0; apply CC_eq; cbn; ring].
    assert (SQ : (e (nth t sel O) * e (nth t sel O) = 1)%R); [|apply below_one in S2; assumption].
    set (q0 := nth t sel O) in *.
    assert (X : forall l, l < N -> me ev l q0 = me ev l q0 * rc (e q0 * e q0)).
    { intros l Hl. transitivity (mm N (mm N A A) (me ev) l q0).
      - rewrite (mm_congr_l N N (mm N A A) eye) by assumption. symmetry. apply mm_eye_l; exact Hl.
      - rewrite mm_assoc. rewrite (mm_congr_r N A (mm N A (me ev)) (fun l t => me ev l t * rc (e t))) by (intros; apply HA; assumption).
        transitivity (mm N A (me ev) l q0 * rc (e q0)).
        + unfold mm. rewrite <- bsum_mul_r. apply bsum_ext; intros l' Hl'. ring.
        + rewrite HA by assumption. rewrite <- rc_mul. fold (rc (e q0)). ring. }
    pose proof (proj1 U q0 q0 S1 S1) as UU. unfold eye in UU. rewrite Nat.eqb_refl in UU. apply rc_inj. rewrite rc_1, <- UU. unfold mm.
    transitivity (bsum N (fun l => adj (me ev) q0 l * me ev l q0) * rc (e q0 * e q0)).
    - fold (mm N (adj (me ev)) (me ev) q0 q0). rewrite UU. ring.
    - rewrite <- bsum_mul_r. apply bsum_ext; intros l Hl. rewrite (X l Hl) at 2. ring. }
  intros i j Hi Hj. rewrite (mm_congr_r N A E' (mm (length sel) E0 G')) by (intros l Hl; apply HG'; assumption).
  rewrite <- mm_assoc. rewrite (mm_congr_l N (length sel) (mm N A E0) E0) by assumption. symmetry. apply HG'; assumption.
Qed.
End Run.

Lemma find_seq (f : nat -> bool) n t : find f (seq 0 n) = Some t -> t < n /\ f t = true /\ forall l, l < t -> f l = false.
Proof.
  assert (G : forall s m, find f (seq s m) = Some t -> s <= t < s + m /\ f t = true /\ forall l, s <= l < t -> f l = false).
  { intros s m. revert s. induction m as [|m IH]; intros s H; [discriminate|]. cbn [seq find] in H. destruct (f s) eqn:Fs.
    - injection H as <-. split; [lia|]. split; [exact Fs|intros l Hl; lia].
    - apply IH in H. destruct H as (H1 & H2 & H3). split; [lia|]. split; [exact H2|]. intros l Hl. destruct (Nat.eq_dec l s) as [->|]; [exact Fs|apply H3; lia]. }
  intros H. apply G in H. destruct H as (H1 & H2 & H3). split; [lia|]. split; [exact H2|intros l Hl; apply H3; lia].
Qed.

Section Exchange.
Variables (n : nat) (r : list Z).
Hypotheses (L : length r = (2 * n)%nat) (B : binary r) (Y : Nat.even (y_count n r) = false).

Lemma odd_ysum : xsum n (fun l => xp r l && zp n r l) = true.
Proof. pose proof (y_count_xsum n r B) as X. rewrite <- X, <- Nat.negb_even, Y. reflexivity. Qed.

Lemma bin01 j : Z.odd (nth j r 0%Z) = Z.eqb (nth j r 0%Z) 1.
Proof. destruct (binary_nth r j B) as [-> | ->]; reflexivity. Qed.

Lemma exchange_at : exists t, t < n /\ xp r t = true /\ (forall l, l < t -> xp r l = false) /\ length (exchange_first n r) = (2 * n)%nat /\ binary (exchange_first n r) /\
  forall j, j < n -> xp (exchange_first n r) j = xp r j /\ zp n (exchange_first n r) j = xorb (zp n r j) (Nat.eqb j t).
Proof.
  unfold exchange_first. destruct (find (fun j => Z.eqb (nth j r 0%Z) 1) (seq 0 n)) as [t|] eqn:Fd.
  - apply find_seq in Fd. destruct Fd as (H1 & H2 & H3). exists t. split; [exact H1|]. split; [unfold xp, brow; rewrite bin01; exact H2|].
    split; [intros l Hl; unfold xp, brow; rewrite bin01; apply H3, Hl|]. split; [rewrite map_length, seq_length; reflexivity|]. split.
    + apply Forall_forall. intros x Hx. apply in_map_iff in Hx. destruct Hx as (j & <- & Hj). destruct (Nat.eqb j (n + t)), (binary_nth r j B) as [-> | ->]; auto.
    + assert (NT : forall j, j < 2 * n -> nth j (map (fun j => if Nat.eqb j (n + t) then (1 - nth j r 0)%Z else nth j r 0%Z) (seq 0 (2 * n))) 0%Z = if Nat.eqb j (n + t) then (1 - nth j r 0)%Z else nth j r 0%Z).
      { intros j Hj. set (f := fun j => if Nat.eqb j (n + t) then (1 - nth j r 0)%Z else nth j r 0%Z). rewrite (nth_indep _ 0%Z (f O)) by (rewrite map_length, seq_length; exact Hj). rewrite map_nth, seq_nth by exact Hj. reflexivity. }
      intros j Hj. unfold xp, zp, brow. rewrite !NT by lia. rewrite (proj2 (Nat.eqb_neq j (n + t))) by lia. split; [reflexivity|].
      destruct (Nat.eqb_spec j t) as [->|N].
      * rewrite Nat.eqb_refl, xorb_true_r. destruct (binary_nth r (n + t) B) as [-> | ->]; reflexivity.
      * rewrite (proj2 (Nat.eqb_neq (n + j) (n + t))) by lia. rewrite xorb_false_r. reflexivity.
  - exfalso. pose proof odd_ysum as O. assert (X : forall l, l < n -> xp r l && zp n r l = false).
    { intros l Hl. pose proof (find_none _ _ Fd l ltac:(apply in_seq; lia)) as F0. cbn beta in F0. unfold xp, brow. rewrite bin01, F0. reflexivity. }
    rewrite (xsum_ext n _ (fun _ => false) X) in O. clear -O. induction n; [discriminate|]. cbn [xsum] in O. rewrite xorb_false_r in O. auto.
Qed.
End Exchange.

Theorem odd_encoder eigh g n k ops c : eigh_lower_ok eigh -> init g n k ops = Ok c -> (1 <= n)%nat -> Forall binary (zd (stab c)) ->
  exists (Ss : list (marr CC)) m E, binary_rep_to_pauli_mat (stab c) = Ok Ss /\ encode_krauss_operators eigh c = Ok (MA (2 ^ n) m E) /\
    eqm m m (mm (2 ^ n) (adj E) E) eye /\
    (forall j (v : nat -> CC), (j < length (zd (stab c)))%nat -> Nat.even (y_count n (nth j (zd (stab c)) [])) = false ->
       (forall i, (i < 2 ^ n)%nat -> bsum (2 ^ n) (fun l => me (nth j Ss mI) i l * v l) = v i) -> forall i, (i < 2 ^ n)%nat -> v i = 0) /\
    (Nat.even (y_count n (nth 0 (zd (stab c)) [])) = false -> exists P', binary_rep_to_pauli_mat (ZM 1 (2 * n) [exchange_first n (nth 0 (zd (stab c)) [])]) = Ok [MA (2 ^ n) (2 ^ n) P'] /\
       eqm (2 ^ n) m (mm (2 ^ n) P' E) E /\ eqm m m (mm (2 ^ n) (adj E) (mm (2 ^ n) (me (nth 0 Ss mI)) E)) (fun _ _ => 0)).
Proof.
  intros EO I Hn B. destruct (init_inv _ _ _ _ _ I) as (M & W & _ & ZC & ES & Hk & Hp & _). rewrite ES in *.
  assert (L : Forall (fun r => length r = (2 * n)%nat) (zd M)) by (destruct W as [_ W]; rewrite ZC in W; exact W).
  destruct (rowmats (K := CC) n (zd M) Hn L B) as (Ss & EM & F).
  assert (EB : binary_rep_to_pauli_mat (K := CC) M = Ok Ss) by (unfold binary_rep_to_pauli_mat; rewrite ZC, CodesProofs.div2_double; exact EM).
  assert (FN : forall j, (j < length (zd M))%nat -> mr (nth j Ss mI) = (2 ^ n)%nat /\ mc (nth j Ss mI) = (2 ^ n)%nat /\ eqm (2 ^ n) (2 ^ n) (me (nth j Ss mI)) (P n (nth j (zd M) []))).
  { clear -F. induction F as [|r S rows Ss H F IH]; intros j Hj; [cbn in Hj; lia|]. destruct j as [|j]; [exact H|]. apply (IH j). cbn in Hj. lia. }
  assert (LS : length Ss = length (zd M)) by (symmetry; eapply Forall2_length; exact F).
  destruct Ss as [|S0 rest]. { exfalso. destruct W as [LM _]. simpl in LS. lia. }
  assert (SH : Forall (fun S => mr S = (2 ^ n)%nat /\ mc S = (2 ^ n)%nat) (S0 :: rest)).
  { clear -F. induction F as [|r S rows Ss H F IH]; [constructor|]. constructor; [split; apply H|exact IH]. }
  pose proof (Forall_inv SH) as [Z1 Z2]. destruct (run_iso eigh EO (2 ^ n) S0 rest Z1 Z2 (Forall_inv_tail SH)) as (m & E & R & IE & FX).
  exists (S0 :: rest), m, E. split; [exact EB|]. split; [unfold encode_krauss_operators; rewrite ES, EB; exact R|]. split; [exact IE|].
  assert (SQ : forall j, (j < length (zd M))%nat -> Nat.even (y_count n (nth j (zd M) [])) = false -> eqm (2 ^ n) (2 ^ n) (mm (2 ^ n) (P n (nth j (zd M) [])) (P n (nth j (zd M) []))) (fun i j => - eye i j)).
  { intros j Hj Y a b Ha Hb. set (r := nth j (zd M) []) in *. assert (Br : binary r) by (rewrite Forall_forall in B; apply B, nth_In, Hj). unfold P. rewrite pm_mul by assumption.
    rewrite (pm_ext n _ _ (fun _ => false) (fun _ => false)) by (intros; split; apply xorb_nilpotent). rewrite pm_id by assumption.
    rewrite (xsum_ext n _ (fun l => xp r l && zp n r l)) by (intros; apply andb_comm). rewrite (odd_ysum n r Br Y). cbn [sgn]. ring. }
  split.
  - intros j v Hj Y Hv i Hi. destruct (FN j Hj) as (_ & _ & EP). set (A := me (nth j (S0 :: rest) mI)) in *.
    assert (X : mm (2 ^ n) (mm (2 ^ n) A A) (fun l _ => v l) i O = v i).
    { rewrite mm_assoc. rewrite (mm_congr_r (2 ^ n) A _ (fun l _ => v l)) by (intros l Hl; apply Hv, Hl). apply Hv, Hi. }
    rewrite (mm_congr_l (2 ^ n) (2 ^ n) (mm (2 ^ n) A A) (fun a b => - (1) * eye a b)) in X.
    + rewrite mm_scale_l, mm_eye_l in X by exact Hi. destruct (v i) as [a b]. apply (f_equal fst) in X as X1. apply (f_equal snd) in X as X2. cbn in X1, X2. apply CC_eq; cbn; lra.
    + intros a b Ha Hb. rewrite (mm_eqm _ _ _ _ _ _ _ EP EP a b Ha Hb). rewrite (SQ j Hj Y) by assumption. ring.
    + exact Hi.
  - intros Y. assert (H0 : (0 < length (zd M))%nat) by (rewrite <- LS; cbn; lia). destruct (FN O H0) as (_ & _ & EP). set (r := nth 0 (zd M) []) in *. cbn [nth] in EP |- *.
    assert (Br : binary r) by (rewrite Forall_forall in B; apply B, nth_In, H0). assert (Lr : length r = (2 * n)%nat) by (rewrite Forall_forall in L; apply L, nth_In, H0).
    destruct (exchange_at n r Lr Br Y) as (t & Ht & Xt & Ft & L' & B' & PX).
    destruct (pauli_row_mat_spec (K := CC) n _ Hn L' B') as (P' & EP' & HP').
    assert (HP2 : eqm (2 ^ n) (2 ^ n) P' (pm n (xp r) (fun l => xorb (zp n r l) (Nat.eqb l t)))).
    { intros i j Hi Hj. rewrite HP' by assumption. apply pm_ext. exact PX. }
    assert (HL : eqm (2 ^ n) (2 ^ n) (lower_hermitian (me S0)) P').
    { intros i j Hi Hj. rewrite HP2 by assumption. rewrite <- (lower_flip n (xp r) (zp n r) t Ht Xt Ft (odd_ysum n r Br Y) i j Hi Hj).
      unfold lower_hermitian. pose proof (EP i j Hi Hj) as E1. pose proof (EP j i Hj Hi) as E2. pose proof (EP i i Hi Hi) as E3. unfold P in E1, E2, E3. rewrite E1, E2, E3. reflexivity. }
    set (z' := fun l => xorb (zp n r l) (Nat.eqb l t)) in *.
    assert (EV : xsum n (fun l => xp r l && z' l) = false).
    { assert (X : xsum n (fun l => xp r l && z' l) = xorb (xsum n (fun l => xp r l && zp n r l)) (xsum n (fun l => Nat.eqb l t))).
      { clear -Xt. unfold z'. generalize (zp n r) as zz. intros zz. induction n as [|m IH]; [reflexivity|]. cbn [xsum]. rewrite IH. destruct (Nat.eqb_spec m t) as [->|]; [rewrite Xt|].
        - destruct (zz t), (xsum t (fun l => xp r l && zz l)), (xsum t (fun l => Nat.eqb l t)); reflexivity.
        - destruct (xp r m), (zz m), (xsum m (fun l => xp r l && zz l)), (xsum m (fun l => Nat.eqb l t)); reflexivity. }
      rewrite X, (odd_ysum n r Br Y). clear -Ht. assert (G : forall m, xsum m (fun l => Nat.eqb l t) = Nat.ltb t m).
      { induction m as [|m IH]; [reflexivity|]. cbn [xsum]. rewrite IH. destruct (Nat.ltb_spec t m), (Nat.eqb_spec m t), (Nat.ltb_spec t (S m)); try lia; reflexivity. }
      rewrite G. apply Nat.ltb_lt in Ht. rewrite Ht. reflexivity. }
    assert (IV : is_involution (2 ^ n) P').
    { intros i j Hi Hj. rewrite (mm_eqm _ _ _ _ _ _ _ HP2 HP2 i j Hi Hj). rewrite pm_mul by assumption.
      rewrite (pm_ext n _ _ (fun _ => false) (fun _ => false)) by (intros; split; apply xorb_nilpotent). rewrite pm_id by assumption.
      rewrite (xsum_ext n _ (fun l => xp r l && z' l)) by (intros; apply andb_comm). rewrite EV. cbn [sgn]. ring. }
    assert (FP : eqm (2 ^ n) m (mm (2 ^ n) P' E) E).
    { intros i j Hi Hj. transitivity (mm (2 ^ n) (lower_hermitian (me S0)) E i j); [apply (mm_congr_l (2 ^ n) (2 ^ n)); [apply eqm_sym; exact HL|exact Hi]|].
      apply FX; [|exact Hi|exact Hj]. intros a b Ha Hb. rewrite (mm_eqm _ _ _ _ _ _ _ HL HL a b Ha Hb). apply IV; assumption. }
    exists P'. split. { unfold binary_rep_to_pauli_mat. cbn [zc zd mapM]. rewrite CodesProofs.div2_double, EP'. reflexivity. }
    split; [exact FP|].
    assert (HH : eqm (2 ^ n) (2 ^ n) (adj P') P').
    { intros i j Hi Hj. rewrite (adj_eqm _ _ _ _ HP2 i j Hi Hj). rewrite pm_adj, EV. cbn [sgn]. rewrite HP2 by assumption. ring. }
    assert (AC : eqm (2 ^ n) (2 ^ n) (mm (2 ^ n) (me S0) P') (fun i j => - (1) * mm (2 ^ n) P' (me S0) i j)).
    { intros i j Hi Hj. rewrite (mm_eqm _ _ _ _ _ _ _ EP HP2 i j Hi Hj), (mm_eqm _ _ _ _ _ _ _ HP2 EP i j Hi Hj). unfold P. rewrite !pm_mul by assumption.
      rewrite (pm_ext n (fun l => xorb (xp r l) (xp r l)) (fun l => xorb (z' l) (zp n r l)) (fun l => xorb (xp r l) (xp r l)) (fun l => xorb (zp n r l) (z' l))) by (intros; split; [reflexivity|apply xorb_comm]).
      rewrite (xsum_ext n (fun l => z' l && xp r l) (fun l => xp r l && z' l)) by (intros; apply andb_comm). rewrite EV.
      rewrite (xsum_ext n (fun l => zp n r l && xp r l) (fun l => xp r l && zp n r l)) by (intros; apply andb_comm). rewrite (odd_ysum n r Br Y). cbn [sgn]. ring. }
    intros a b Ha Hb. set (x := mm (2 ^ n) (adj E) (mm (2 ^ n) (me S0) E) a b).
    assert (X : x = - (1) * x); [|destruct x as [u v]; apply (f_equal fst) in X as X1; apply (f_equal snd) in X as X2; cbn in X1, X2; apply CC_eq; cbn; lra].
    unfold x at 1. transitivity (mm (2 ^ n) (adj E) (mm (2 ^ n) (mm (2 ^ n) (me S0) P') E) a b).
    { apply mm_congr_r. intros l Hl. rewrite mm_assoc. apply mm_congr_r. intros l' Hl'. symmetry. apply FP; assumption. }
    transitivity (mm (2 ^ n) (adj E) (fun i j => - (1) * mm (2 ^ n) P' (mm (2 ^ n) (me S0) E) i j) a b).
    { apply mm_congr_r. intros l Hl. rewrite (mm_congr_l (2 ^ n) (2 ^ n) _ _ E l b AC Hl), mm_scale_l, mm_assoc. reflexivity. }
    rewrite mm_scale_r. f_equal. unfold x. rewrite <- mm_assoc. apply (mm_congr_l m (2 ^ n)); [|exact Ha].
    intros i j Hi Hj. transitivity (adj (mm (2 ^ n) P' E) i j).
    + rewrite adj_mm. apply mm_congr_r. intros l Hl. symmetry. apply HH; assumption.
    + apply (adj_eqm _ _ _ _ FP i j Hi Hj).
Qed.

(** with a single generator half of the space is returned *)
Lemma run_single eigh (EO : eigh_lower_ok eigh) N S0 T : mr S0 = N -> mc S0 = N -> eqm N N (lower_hermitian (me S0)) T -> is_involution N T ->
  forall e ev, eigh S0 = (e, ev) -> exists m E, obtain_eigenspace_one e ev = MA N m E /\ spans N [T] m E.
Proof.
  intros R1 R2 HT IV e ev Ee. destruct S0 as [sr sc S]. cbn [mr mc me] in *. subst sr sc.
  destruct (EO N S) as (V1 & V2 & [U HA]). rewrite Ee in *. cbn [fst snd] in *.
  assert (TH : hermitian N T). { intros i j Hi Hj. unfold adj. rewrite <- (HT i j Hi Hj), <- (HT j i Hj Hi). apply (lower_herm N S i j Hi Hj). }
  assert (A0 : eqm N N (mm N (adj eye) (mm N T eye)) (lower_hermitian S)).
  { intros i j Hi Hj. rewrite (mm_congr_l N N (adj eye) eye) by (auto; intros a b _ _; apply adj_eye). rewrite mm_eye_l by exact Hi. rewrite mm_eye_r by exact Hj. symmetry. apply HT; assumption. }
  assert (V3' : eigen_decomposition N (mm N (adj eye) (mm N T eye)) e (me ev)).
  { split; [exact U|]. intros i t Hi Ht. rewrite <- HA by assumption. apply (mm_congr_l N N); [exact A0|exact Hi]. }
  pose proof (step_spans N [] N eye T e (me ev) (spans_nil N) TH IV (fun T (H : In T []) => match H with end) V3') as HS.
  unfold obtain_eigenspace_one. rewrite V1, V2. eexists _, _. split; [reflexivity|].
  exact (spans_ext N [T] [T] _ _
     (fun i t => me ev i (nth t (filter (fun t0 => below (Rabs (e t0 - 1)) tol5) (seq O N)) O))
     (fun i t Hi Ht => mm_eye_l N _ i t Hi) (fun S => iff_refl _) HS).
Qed.

Theorem odd_single eigh g n k ops c r : eigh_lower_ok eigh -> init g n k ops = Ok c -> (1 <= n)%nat -> zd (stab c) = [r] -> binary r -> Nat.even (y_count n r) = false ->
  exists m E, encode_krauss_operators eigh c = Ok (MA (2 ^ n) m E) /\ (2 * m = 2 ^ n)%nat.
Proof.
  intros EO I Hn ZD Br Y. destruct (init_inv _ _ _ _ _ I) as (M & W & _ & ZC & ES & Hk & Hp & _). rewrite ES in *.
  assert (L : Forall (fun r => length r = (2 * n)%nat) (zd M)) by (destruct W as [_ W]; rewrite ZC in W; exact W).
  rewrite ZD in L. pose proof (Forall_inv L) as Lr.
  destruct (pauli_row_mat_spec (K := CC) n r Hn Lr Br) as (A & EA & HA).
  assert (EB : binary_rep_to_pauli_mat (K := CC) M = Ok [MA (2 ^ n) (2 ^ n) A]) by (unfold binary_rep_to_pauli_mat; rewrite ZC, CodesProofs.div2_double, ZD; cbn [mapM]; rewrite EA; reflexivity).
  destruct (exchange_at n r Lr Br Y) as (t & Ht & Xt & Ft & L' & B' & PX).
  set (z' := fun l => xorb (zp n r l) (Nat.eqb l t)).
  assert (HL : eqm (2 ^ n) (2 ^ n) (lower_hermitian A) (P n (exchange_first n r))).
  { intros i j Hi Hj. unfold P. rewrite (pm_ext n _ _ (xp r) z' PX). unfold z'. rewrite <- (lower_flip n (xp r) (zp n r) t Ht Xt Ft (odd_ysum n r Br Y) i j Hi Hj).
    unfold lower_hermitian. rewrite (HA i j Hi Hj), (HA j i Hj Hi), (HA i i Hi Hi). reflexivity. }
  assert (IV : is_involution (2 ^ n) (P n (exchange_first n r))).
  {     intros i j Hi Hj. unfold P. rewrite pm_mul by assumption. rewrite (pm_ext n _ _ (fun _ => false) (fun _ => false)) by (intros; split; apply xorb_nilpotent). rewrite pm_id by assumption.
    assert (EV : xsum n (fun l => zp n (exchange_first n r) l && xp (exchange_first n r) l) = false); [|rewrite EV; cbn [sgn]; ring].
    rewrite (xsum_ext n _ (fun l => xp r l && z' l)) by (intros l Hl; destruct (PX l Hl) as [-> ->]; apply andb_comm).
    assert (X : xsum n (fun l => xp r l && z' l) = xorb (xsum n (fun l => xp r l && zp n r l)) (xsum n (fun l => Nat.eqb l t))).
    { clear -Xt. unfold z'. generalize (zp n r) as zz. intros zz. induction n as [|m IH]; [reflexivity|]. cbn [xsum]. rewrite IH. destruct (Nat.eqb_spec m t) as [->|]; [rewrite Xt|].
      - destruct (zz t), (xsum t (fun l => xp r l && zz l)), (xsum t (fun l => Nat.eqb l t)); reflexivity.
      - destruct (xp r m), (zz m), (xsum m (fun l => xp r l && zz l)), (xsum m (fun l => Nat.eqb l t)); reflexivity. }
    rewrite X, (odd_ysum n r Br Y). clear -Ht. assert (G : forall m, xsum m (fun l => Nat.eqb l t) = Nat.ltb t m).
    { induction m as [|m IH]; [reflexivity|]. cbn [xsum]. rewrite IH. destruct (Nat.ltb_spec t m), (Nat.eqb_spec m t), (Nat.ltb_spec t (S m)); try lia; reflexivity. }
    rewrite G. apply Nat.ltb_lt in Ht. rewrite Ht. reflexivity. }
  destruct (eigh (MA (2 ^ n) (2 ^ n) A)) as [e ev] eqn:Ee.
  destruct (run_single eigh EO (2 ^ n) (MA (2 ^ n) (2 ^ n) A) _ eq_refl eq_refl HL IV e ev Ee) as (m & E & HE & SP).
  exists m, E. split. { unfold encode_krauss_operators. rewrite ES, EB. cbn [bind]. rewrite Ee. cbn [foldM]. rewrite HE. reflexivity. }
  assert (D : indep 2 (2 * n) [exchange_first n r]).
  { intros co Lc H. destruct co as [|a [|]]; try discriminate. constructor; [|constructor]. specialize (H t ltac:(lia)). cbn [lcomb] in H. apply divide2_odd in H. rewrite Z.add_0_r, Z.odd_mul in H.
    destruct (PX t Ht) as [G _]. rewrite Xt in G. unfold xp, brow in G. rewrite G, andb_true_r in H. apply divide2_odd, H. }
  pose proof (spans_dim n [exchange_first n r] m E) as DM. cbn [map length] in DM. rewrite <- DM; [reflexivity| | |exact D|exact SP].
  - intros r' [<-|[]]. exact IV.
  - intros a b [<-|[]] [<-|[]]. apply eqm_refl.
Qed.
