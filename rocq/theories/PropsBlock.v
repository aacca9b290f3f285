(** The code space of a concatenated code (C156).  Specification: BlockSpec.v (encode_each: every qubit of a state encoded once more),
    CircuitSpec.v (states, matrix_maps, matrix_fixes, encode), CodesSpec.v.  Models: CodesModel.v, PauliModel.v, CircuitModel.v. *)
From Verif Require Import Py ZMat CodesModel RankSpec CodesSpec BoolLin Rank Gauss Gauss2 Logical CodesProofs CodesProofs2 ConcatProofs ConcatSpec ConcatAbs ConcatProofs2 StringsProofs PropsCodes Scalar PauliModel PauliSpec PauliProofs2 PropsPauli
  CircuitModel CircuitSpec CircuitProofs EncodeProofs CircuitProofs2 CircuitProofs3 CircuitProofs5 PropsCircuits QecSpec QecProofs WorkflowSpec WorkflowProofs EncodedSpec EncodedProofs SameCodeSpec SameCodeProofs PropsConcat DistProofs BlockSpec BlockProofs.
From Coq Require Import Bool Lia.
Open Scope nat_scope.
Ltac calc := vm_compute; reflexivity.

Lemma Forall2_in_r {A B} (R : A -> B -> Prop) l l' : Forall2 R l l' -> forall y, In y l' -> exists x, In x l /\ R x y.
Proof. induction 1 as [|x y l l' H F IH]; intros z Hz; [destruct Hz|]. destruct Hz as [<-|Hz]; [exists x; split; [left; reflexivity|exact H]|]. destruct (IH z Hz) as (w & Hw & Hr). exists w. split; [right; exact Hw|exact Hr]. Qed.
Section Fixed.
Context {K : StarRing}.
(** the Pauli matrix that binary_rep_to_pauli_mat returns for the row maps psi to phi *)
Definition row_maps (n : nat) (row : list Z) (psi phi : @state K) : Prop :=
  exists A : array K, binary_rep_to_pauli_mat (ZM 1 (2 * n) [row]) = Ok [MA (2 ^ n) (2 ^ n) A] /\ matrix_maps n A psi phi.
Lemma row_maps_prow n row psi phi : 1 <= n -> length row = 2 * n -> binary row -> row_maps n row psi phi <-> eqs n (prow n (brow row) psi) phi.
Proof.
  intros Hn L B. destruct (single_mat (K := K) n row Hn L B) as (A & EA & PA). split.
  - intros (A' & EA' & M). rewrite EA in EA'. injection EA' as <-. apply (maps_prow n A row psi phi PA), M.
  - intros E. exists A. split; [exact EA|]. apply (maps_prow n A row psi phi PA), E.
Qed.
Add Ring Kringpb : (s_rt K).
Lemma one_mul (x : K) : smul s1 x = x.
Proof. ring. Qed.
(** X^bx Z^bz on a block, from the action of the two logical operators *)
Lemma two_parts m lx lz (e : bool -> @state K) b bx bz : length lx = 2 * m -> length lz = 2 * m ->
  (forall b, eqs m (prow m (brow (x_only m lx)) (e b)) (e (negb b))) -> (forall b, eqs m (prow m (brow (z_only m lz)) (e b)) (sscale (sgn b) (e b))) ->
  eqs m (prow m (fun p => xorb (bx && brow (x_only m lx) p) (bz && brow (z_only m lz) p)) (e b)) (sscale (sgn (bz && b)) (e (xorb b bx))).
Proof.
  intros LX LZ PX PZ y Hy.
  assert (Q : prow m (fun p => xorb (bx && brow (x_only m lx) p) (bz && brow (z_only m lz) p)) (e b) y =
    prow m (fun p => bx && brow (x_only m lx) p) (prow m (fun p => bz && brow (z_only m lz) p) (e b)) y).
  { unfold prow, pact. rewrite xorv_xorv.
    assert (F1 : forall j, j < m -> brow (x_only m lx) (m + j) = false) by (intros j Hj; rewrite brow_x_only by lia; destruct (Nat.ltb_spec (m + j) m); [lia|reflexivity]).
    assert (F2 : forall j, j < m -> brow (z_only m lz) j = false) by (intros j Hj; rewrite brow_z_only by lia; destruct (Nat.leb_spec m j); [lia|reflexivity]).
    rewrite (BoolLin.xsum_ext m (fun j => (bx && brow (x_only m lx) (m + j)) && _) (fun _ => false)) by (intros j Hj; rewrite F1 by exact Hj; rewrite andb_false_r; reflexivity). rewrite xsum_0. cbn [sgn]. rewrite one_mul.
    f_equal. f_equal. apply BoolLin.xsum_ext. intros j Hj. rewrite (F1 j Hj), (F2 j Hj). rewrite getb_xorv_in by lia. rewrite !andb_false_r, !xorb_false_r, xorb_false_l. reflexivity. }
  rewrite Q. clear Q.
  assert (QZ : eqs m (prow m (fun p => bz && brow (z_only m lz) p) (e b)) (sscale (sgn (bz && b)) (e b))).
  { destruct bz; cbn [andb]; [exact (PZ b)|]. intros w Hw. unfold prow. rewrite pact_id. unfold sscale. cbn [sgn]. rewrite one_mul. reflexivity. }
  rewrite (prow_eqs m _ _ _ QZ y Hy). unfold prow at 1. rewrite pact_scale. unfold sscale. f_equal.
  destruct bx; cbn [andb]; [rewrite (xorb_true_r b); exact (PX b y Hy)|rewrite pact_id, xorb_false_r; reflexivity].
Qed.
End Fixed.
Lemma x_only_len m l : length l = 2 * m -> length (x_only m l) = 2 * m.
Proof. intros L. unfold x_only. rewrite app_length, firstn_length, repeat_length. lia. Qed.
Lemma z_only_len m l : length l = 2 * m -> length (z_only m l) = 2 * m.
Proof. intros L. unfold z_only. rewrite app_length, skipn_length, repeat_length. lia. Qed.
Lemma zeros_bin m : binary (repeat 0%Z m).
Proof. apply Forall_forall. intros x Hx. apply repeat_spec in Hx. left. exact Hx. Qed.
Lemma x_only_bin m l : binary l -> binary (x_only m l).
Proof. intros B. unfold x_only. apply Forall_app. split; [rewrite <- (firstn_skipn m l) in B; apply Forall_app in B; apply B|apply zeros_bin]. Qed.
Lemma z_only_bin m l : binary l -> binary (z_only m l).
Proof. intros B. unfold z_only. apply Forall_app. split; [apply zeros_bin|rewrite <- (firstn_skipn m l) in B; apply Forall_app in B; apply B]. Qed.
Lemma pos_x n m b p : p < m -> pos n m b p = b * m + p.
Proof. intros H. unfold pos. destruct (Nat.ltb_spec p m); lia. Qed.
Lemma pos_z n m b p : p < m -> pos n m b (m + p) = n * m + (b * m + p).
Proof. intros H. unfold pos. destruct (Nat.ltb_spec (m + p) m); lia. Qed.
Lemma entries_binary n m r : length r = 2 * (n * m) -> (forall b p, b < n -> p < m -> (x_at n m r b p = 0 \/ x_at n m r b p = 1)%Z /\ (z_at n m r b p = 0 \/ z_at n m r b p = 1)%Z) -> binary r.
Proof.
  intros L H. apply Forall_forall. intros v Hv. apply (In_nth _ _ 0%Z) in Hv. destruct Hv as (j & Hj & <-). rewrite L in Hj. destruct (Nat.eq_dec m 0) as [->|M0]; [lia|].
  assert (D : forall j, j < n * m -> exists b p, b < n /\ p < m /\ j = b * m + p).
  { intros i Hi. exists (i / m), (i mod m). split; [apply Nat.div_lt_upper_bound; lia|]. split; [apply Nat.mod_upper_bound; exact M0|]. rewrite (Nat.mul_comm (i / m)). apply Nat.div_mod. exact M0. }
  destruct (Nat.lt_ge_cases j (n * m)) as [HL|HL].
  - destruct (D j HL) as (b & p & Hb & Hp & ->). exact (proj1 (H b p Hb Hp)).
  - destruct (D (j - n * m) ltac:(lia)) as (b & p & Hb & Hp & E). replace j with (n * m + (b * m + p)) by lia. exact (proj2 (H b p Hb Hp)).
Qed.
Lemma concatenation_binary n m XL ZL outer inner rows : (forall r, In r inner -> binary r) -> concatenation n n m (fun j => j) (fun _ => XL) (fun _ => ZL) outer inner rows -> forall r, In r rows -> binary r.
Proof.
  intros BI (A & B & -> & FA & FB) r Hr. apply in_app_iff in Hr. destruct Hr as [Hr|Hr].
  - destruct (Forall2_in_r _ _ _ FA r Hr) as ([i g] & Hg & L & E). apply in_prod_iff in Hg. cbn [fst snd] in E. apply (entries_binary n m r L). intros b p Hb Hp. destruct (E b p Hb Hp) as [-> ->].
    destruct (Nat.eqb b i); [split; apply nth_bin, BI; apply Hg|auto].
  - destruct (Forall2_in_r _ _ _ FB r Hr) as (g & Hg & L & E). apply (entries_binary n m r L). intros b p Hb Hp. destruct (E b p Hb Hp) as [-> ->].
    split; match goal with |- (?a mod 2 = _ \/ _)%Z => pose proof (Z.mod_pos_bound a 2 ltac:(lia)); lia end.
Qed.

(** ** C156 *)
(** e false and e true: codewords of the inner code on which the logical operators that concatenate_codes
    uses act as X and Z.  psi: a state in the outer code.  Encoding every qubit of psi gives a state in the
    code that concatenate_codes returns. *)
Theorem C156_space (K : StarRing) g1 g2 o1 o2 n k m c1 c2 lx lz c (e : bool -> @state K) psi :
  init g1 n k o1 = Ok c1 -> init g2 m 1 o2 = Ok c2 -> valid_generators n k (zd (stab c1)) -> valid_generators m 1 (zd (stab c2)) ->
  nth_error (zd (logical_x c2)) 0 = Some lx -> nth_error (zd (logical_z c2)) 0 = Some lz ->
  length lx = 2 * m -> length lz = 2 * m -> binary lx -> binary lz ->
  (forall r b, In r (zd (stab c2)) -> row_maps m r (e b) (e b)) ->
  (forall b, row_maps m (x_only m lx) (e b) (e (negb b))) -> (forall b, row_maps m (z_only m lz) (e b) (sscale (sgn b) (e b))) ->
  (forall r, In r (zd (stab c1)) -> row_maps n r psi psi) ->
  concatenate_codes c1 c2 = Ok (Some c) ->
  forall r, In r (zd (stab c)) -> row_maps (n * m) r (encode_each n m e psi) (encode_each n m e psi).
Proof.
  intros I1 I2 V1 V2 EX EZ LX LZ BX BZ FI FX FZ FO CO r Hr.
  destruct (C22_rows g1 g2 o1 o2 n k m c1 c2 lx lz I1 I2 (proj1 (proj2 (proj2 (proj2 V1)))) EX EZ LX LZ BX BZ) as (rows & CC & E).
  rewrite E in CO. apply bind_ok in CO. destruct CO as (c' & I & [= ->]). destruct (C06_accepted_rows rows (n * m) k None c I) as (ER & _ & FL).
  destruct (init_inv _ _ _ _ _ I1) as (_ & _ & _ & _ & _ & Hk1 & _).
  destruct (concatenation_rows n k m _ _ _ _ rows V1 Hk1 V2 CC) as (LR & RB & RE).
  pose proof V1 as (P1 & N1 & L1 & B1 & _). pose proof V2 as (P2 & N2 & L2 & B2 & _). assert (M1 : 1 <= m) by lia. assert (H1 : 1 <= n) by lia. rewrite Forall_forall in L1, B1, L2, B2.
  assert (HR : In r rows) by (rewrite <- ER; exact Hr). rewrite Forall_forall in FL.
  assert (BR : binary r) by (apply (concatenation_binary n m (x_only m lx) (z_only m lz) (zd (stab c1)) (zd (stab c2)) rows); auto).
  apply row_maps_prow; [nia|exact (FL r HR)|exact BR|].
  assert (PX : forall b, eqs m (prow m (brow (x_only m lx)) (e b)) (e (negb b))) by (intros b; apply row_maps_prow; [lia|apply x_only_len; exact LX|apply x_only_bin; exact BX|apply FX]).
  assert (PZ : forall b, eqs m (prow m (brow (z_only m lz)) (e b)) (sscale (sgn b) (e b))) by (intros b; apply row_maps_prow; [lia|apply z_only_len; exact LZ|apply z_only_bin; exact BZ|apply FZ]).
  assert (PI : forall g b, In g (zd (stab c2)) -> eqs m (prow m (brow g) (e b)) (e b)) by (intros g b Hg; apply row_maps_prow; [lia|auto|auto|apply FI; exact Hg]).
  apply (In_nth _ _ []) in HR. destruct HR as (x & Hx & <-). change (brow (nth x rows [])) with (brows rows x). clear Hr BR. rewrite LR in Hx.
  destruct (Nat.lt_ge_cases x (n * length (zd (stab c2)))) as [HL|HL].
  - assert (S0 : length (zd (stab c2)) <> 0) by lia. set (s := length (zd (stab c2))) in *. pose proof (Nat.div_mod x s S0) as DM. pose proof (Nat.mod_upper_bound x s S0) as HM.
    assert (HI : x / s < n) by (apply Nat.div_lt_upper_bound; lia). rewrite DM, (Nat.mul_comm s). assert (HN : In (nth (x mod s) (zd (stab c2)) []) (zd (stab c2))) by (apply nth_In; exact HM).
    eapply eqs_trans; [apply (acts_encoded m e n _ _ (fun _ => false) (fun _ => false))|].
    + intros j b Hj. rewrite xorb_false_r. cbn [andb sgn]. intros y Hy. unfold sscale. rewrite one_mul.
      destruct (Nat.eq_dec j (x / s)) as [->|NE].
      * rewrite <- (PI _ b HN y Hy). apply pact_ext. intros p Hp. cbv beta. rewrite <- (pos_z n m (x / s) p Hp), <- (pos_x n m (x / s) p Hp). rewrite !RB by lia. rewrite Nat.eqb_refl. split; reflexivity.
      * apply Nat.eqb_neq in NE. rewrite <- (pact_id m (e b) y). apply pact_ext. intros p Hp. cbv beta. rewrite <- (pos_z n m j p Hp), <- (pos_x n m j p Hp). rewrite !RB by lia. rewrite NE. split; reflexivity.
    + intros y Hy. unfold encode_each. apply isum_ext. intros i Hi. rewrite pact_id. reflexivity.
  - assert (HT : x - n * length (zd (stab c2)) < length (zd (stab c1))) by lia. set (t := x - n * length (zd (stab c2))) in *. replace x with (n * length (zd (stab c2)) + t) by (unfold t; lia).
    assert (HN : In (nth t (zd (stab c1)) []) (zd (stab c1))) by (apply nth_In; exact HT).
    assert (PO : eqs n (prow n (brow (nth t (zd (stab c1)) [])) psi) psi) by (apply row_maps_prow; auto).
    eapply eqs_trans; [apply (acts_encoded m e n _ _ (fun j => brow (nth t (zd (stab c1)) []) j) (fun j => brow (nth t (zd (stab c1)) []) (n + j)))|].
    + intros j b Hj. change (brow (nth t (zd (stab c1)) [])) with (brows (zd (stab c1)) t). set (bx := brows (zd (stab c1)) t j). set (bz := brows (zd (stab c1)) t (n + j)).
      apply (eqs_trans m _ (prow m (fun p => xorb (bx && brow (x_only m lx) p) (bz && brow (z_only m lz) p)) (e b))).
      { intros y Hy. apply pact_ext. intros p Hp. cbv beta. rewrite <- (pos_z n m j p Hp), <- (pos_x n m j p Hp). rewrite !RE by lia. split; reflexivity. }
      apply two_parts; assumption.
    + intros y Hy. unfold encode_each. apply isum_ext. intros i Hi. f_equal. exact (PO i Hi).
Qed.
Print Assumptions C156_space.

(** With the circuits: encode with the first code, then every qubit with the second.  Needed are that the generators given for the two
    codes fix their encoded states (C105 says when) and that the second code's logical X has no Z part, since concatenate_codes
    leaves it out. *)
Definition b2bit (b : bool) : Z := if b then 1%Z else 0%Z.
Theorem C156_circuits (K : StarRing) (h im : K) g1 g2 n k m c1 c2 c (l : list (K * list Z)) : qubit_constants h im ->
  init g1 n k None = Ok c1 -> init g2 m 1 None = Ok c2 -> valid_generators n k (zd (stab c1)) -> valid_generators m 1 (zd (stab c2)) ->
  even_ys m (zd (stab c2)) ->
  (forall r st, In r (zd (stab c1)) -> length st = k -> binary st -> row_maps n r (encode h im n c1 st) (encode h im n c1 st)) ->
  (forall r st, In r (zd (stab c2)) -> length st = 1 -> binary st -> row_maps m r (encode h im m c2 st) (encode h im m c2 st)) ->
  (forall r, In r (zd (logical_x c2)) -> x_only m r = r) ->
  concatenate_codes c1 c2 = Ok (Some c) -> (forall p, In p l -> length (snd p) = k /\ binary (snd p)) ->
  let e b := encode h im m c2 [b2bit b] in let message := superpose l (encode h im n c1) in
  (forall r, In r (zd (stab c)) -> row_maps (n * m) r (encode_each n m e message) (encode_each n m e message)) /\
  forall phi, inner (n * m) (encode_each n m e message) (encode_each n m e phi) = inner n message phi.
Proof.
  intros HC I1 I2 V1 V2 E2 F1 F2 NX CO Hl e message.
  destruct (C10_logical_relations g2 m 1 c2 I2 V2) as (LNX & LNZ & SH & _). destruct (init_logical g2 m 1 c2 I2 V2) as (_ & _ & _ & FZ).
  pose proof V1 as (P1 & N1 & L1 & B1 & _). pose proof V2 as (P2 & N2 & L2 & B2 & _). assert (M1 : 1 <= m) by lia. assert (H1 : 1 <= n) by lia. rewrite Forall_forall in L1, B1.
  destruct (zd (logical_x c2)) as [|lx [|]] eqn:EX; try discriminate LNX. destruct (zd (logical_z c2)) as [|lz [|]] eqn:EZ; try discriminate LNZ.
  destruct (SH lx (or_introl (or_introl eq_refl))) as [LX BX]. destruct (SH lz (or_intror (or_introl eq_refl))) as [LZ BZ].
  assert (Bb : forall b, binary [b2bit b]) by (intros b; constructor; [destruct b; auto|constructor]).
  assert (AX : forall b, eqs m (prow m (brow lx) (e b)) (e (negb b))).
  { intros b. pose proof (logical_x_ok h im g2 m 1 c2 I2 V2 0 [b2bit b] ltac:(lia) ltac:(lia) eq_refl (Bb b)) as O.
    rewrite (logical_x_events g2 m 1 c2 I2 V2) in O by lia. cbn [fst] in O. rewrite EX in O. cbn [nth] in O.
    pose proof (eqs_trans m _ _ _ (eqs_sym m _ _ (paulis_exec h im m 1 c2 [] lx (encode h im m c2 [b2bit b]))) O) as Q. unfold e. destruct b; exact Q. }
  assert (AZ : forall b, eqs m (prow m (brow lz) (e b)) (sscale (sgn b) (e b))).
  { intros b. pose proof (logical_z_ok h im g2 m 1 c2 I2 V2 0 [b2bit b] ltac:(lia) ltac:(lia) eq_refl (Bb b)) as O.
    rewrite (logical_z_events g2 m 1 c2 I2 V2) in O by lia. cbn [fst] in O. rewrite EZ in O. cbn [nth] in O.
    pose proof (eqs_trans m _ _ _ (eqs_sym m _ _ (paulis_exec h im m 1 c2 [] lz (encode h im m c2 [b2bit b]))) O) as Q. unfold e. destruct b; exact Q. }
  assert (Z0 : forall j, j < 2 * m -> brow (z_only m lz) j = brow lz j).
  { intros j Hj. rewrite brow_z_only by assumption. destruct (Nat.leb_spec m j); [reflexivity|]. specialize (FZ 0 j ltac:(lia) ltac:(lia)). unfold fz in FZ. destruct (Nat.ltb_spec j m); [|lia]. unfold bz, get in FZ. rewrite EZ in FZ. symmetry. exact FZ. }
  split.
  - apply (C156_space K g1 g2 None None n k m c1 c2 lx lz c e message I1 I2 V1 V2); try assumption; [rewrite EX; reflexivity|rewrite EZ; reflexivity| | | |].
    + intros r b Hr. apply F2; [exact Hr|reflexivity|apply Bb].
    + intros b. rewrite (NX lx (or_introl eq_refl)). apply row_maps_prow; auto.
    + intros b. apply row_maps_prow; [lia|apply z_only_len; exact LZ|apply z_only_bin; exact BZ|]. intros y Hy. transitivity (prow m (brow lz) (e b) y); [apply pact_ext; intros j Hj; rewrite !Z0 by lia; split; reflexivity|apply AZ, Hy].
    + intros r Hr. apply row_maps_prow; auto. intros y Hy. unfold message. rewrite prow_superpose. apply superpose_ext. intros p Hp. destruct (Hl p Hp) as [Lp Bp].
      pose proof (proj1 (row_maps_prow n r _ _ H1 (L1 r Hr) (B1 r Hr)) (F1 r (snd p) Hr Lp Bp)) as Q. exact (Q y Hy).
  - intros phi. apply encode_each_inner. intros a b. destruct (C15_encoding K h im g2 m 1 c2 [b2bit a] HC I2 V2 E2 eq_refl (Bb a)) as (_ & U & _ & O).
    destruct (Bool.eqb a b) eqn:Q; [apply Bool.eqb_prop in Q; subst b; exact U|]. apply O; [reflexivity|apply Bb|]. destruct a, b; try discriminate Q; intros W; discriminate W.
Qed.
Print Assumptions C156_circuits.

(** when the generators given for a code fix its encoded states: no relabelling of the qubits was needed and z_r . x_s is even *)
Theorem C156_guard (K : StarRing) (h im : K) g n k c : init g n k None = Ok c -> valid_generators n k (zd (stab c)) -> even_ys n (zd (stab c)) ->
  (forall r, In r (zd (stab c)) -> in_rowspace n (zd (normal_form c)) r) -> (forall r s, In r (zd (stab c)) -> In s (zd (stab c)) -> Z.even (zx_dot n r s) = true) ->
  forall r st, In r (zd (stab c)) -> length st = k -> binary st -> row_maps n r (encode h im n c st) (encode h im n c st).
Proof.
  intros HI HV HE HR HZ r st Hr L Bs. pose proof HV as (V1 & V2 & W & B & _). destruct (dims g n k c HI HV) as (Hn & Lf & Ls).
  pose proof W as W'. pose proof B as B'. rewrite Forall_forall in W', B'. apply row_maps_prow; [lia|auto|auto|].
  destruct (normal_form_same_code g n k None c HI B) as (_ & _ & _ & _ & p & P & R). destruct (qubit_perm_inv n p P) as (q & HP).
  specialize (HR r Hr). apply in_rowspace_b in HR. rewrite Lf in HR. destruct HR as (a & Ha).
  intros y Hy. rewrite (span_sign h im g n k c HI HV HE st r a L Bs Ha y Hy). rewrite esign_even; [unfold sscale; cbn [sgn]; apply one_mul|].
  assert (S : forall i, (i < n - k)%nat -> inspan (brows (map (relabel n p) (zd (stab c)))) (n - k) (2 * n) (bz (normal_form c) i)).
  { intros i Hi. pose proof (proj2 (R (nth i (zd (normal_form c)) []))) as X. rewrite !in_rowspace_b, map_length, Ls, Lf in X. apply X. apply (inspan_row (brows _)). exact Hi. }
  intros i l Hi Hl. apply (span_zx n (brows (map (relabel n p) (zd (stab c)))) (n - k)); [|apply S, Hi|apply S, Hl].
  intros i' b Ha' Hb. rewrite (zxb_ext n _ (fun j => brows (zd (stab c)) i' (Gauss.lift n p j)) _ (fun j => brows (zd (stab c)) b (Gauss.lift n p j))) by (intros j Hj; apply brows_relabel; lia).
  rewrite (zxb_lift n p q _ _ HP). unfold brows. rewrite <- zx_dot_b.
  specialize (HZ (nth i' (zd (stab c)) []) (nth b (zd (stab c)) []) ltac:(apply nth_In; lia) ltac:(apply nth_In; lia)). rewrite <- Z.negb_odd in HZ. apply negb_true_iff in HZ. exact HZ.
Qed.
Print Assumptions C156_guard.
(** Shor's code: the phase-flip code outside, the bit-flip code inside *)
Definition phase3 : list (list ascii) := [str "XXI"; str "IXX"].
Example C156_case : exists c1 c2 c, init (Strings phase3) 3 1 None = Ok c1 /\ init (Strings rep3) 3 1 None = Ok c2 /\ valid_generators 3 1 (zd (stab c1)) /\ valid_generators 3 1 (zd (stab c2)) /\
  even_ys 3 (zd (stab c1)) /\ even_ys 3 (zd (stab c2)) /\
  (forall r, In r (zd (stab c1)) -> in_rowspace 3 (zd (normal_form c1)) r) /\ (forall r s, In r (zd (stab c1)) -> In s (zd (stab c1)) -> Z.even (zx_dot 3 r s) = true) /\
  (forall r, In r (zd (stab c2)) -> in_rowspace 3 (zd (normal_form c2)) r) /\ (forall r s, In r (zd (stab c2)) -> In s (zd (stab c2)) -> Z.even (zx_dot 3 r s) = true) /\
  (forall r, In r (zd (logical_x c2)) -> x_only 3 r = r) /\ concatenate_codes c1 c2 = Ok (Some c) /\ length (zd (stab c)) = 8.
Proof.
  eexists _, _, _. split; [calc|]. split; [calc|]. split; [valid|]. split; [valid|]. split; [repeat constructor|]. split; [repeat constructor|]. cbn [zd stab normal_form logical_x].
  assert (D : forall c rows v, length c = length rows -> forallb (fun j => (nth j v 0 - lcomb c rows j) mod 2 =? 0)%Z (seq 0 6) = true -> in_rowspace 3 rows v).
  { intros c rows v L H. exists c. split; [exact L|]. intros j Hj. apply Z.mod_divide; [discriminate|]. rewrite forallb_forall in H. apply Z.eqb_eq, H, in_seq. lia. }
  split; [intros r [<-|[<-|[]]]; [apply (D [1; 1]%Z)|apply (D [0; 1]%Z)]; reflexivity|]. split; [intros r s [<-|[<-|[]]] [<-|[<-|[]]]; reflexivity|].
  split; [intros r [<-|[<-|[]]]; [apply (D [1; 1]%Z)|apply (D [0; 1]%Z)]; reflexivity|]. split; [intros r s [<-|[<-|[]]] [<-|[<-|[]]]; reflexivity|].
  split; [intros r [<-|[]]; reflexivity|]. split; [calc|reflexivity].
Qed.
