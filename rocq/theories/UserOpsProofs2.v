(** C94: the theorems for codes built with supplied logical operators. *)
From Verif Require Import Py ZMat CodesModel RankSpec CodesSpec BoolLin Rank Gauss Gauss2 CodesProofs CodesProofs2 Logical
  Scalar PauliModel PauliSpec PauliProofs PauliProofs2 CircuitModel CircuitSpec CircuitProofs EncodeProofs CircuitProofs2 CircuitProofs3 CircuitProofs4
  UserOpsSpec UserOpsProofs.
Open Scope nat_scope.

(** ** what the constructor does with them *)
Lemma user_body M n k LX LZ c0 : init_body M n k None = Ok c0 ->
  init_body M n k (Some (LX, LZ)) =
    if (Nat.eqb (zc LX) (2 * n) && Nat.eqb (zc LZ) (2 * n))%bool
    then Ok (Code n k (stab c0) (pauli_stab c0) (normal_form c0) (crank c0) LX LZ) else Err AssertionError.
Proof.
  unfold init_body. destruct (assert_ (is_stabilizer_code M)); [|discriminate]. cbn [bind].
  destruct (mapM binary_rep_to_pauli_str (zd M)) as [ps|]; [|discriminate]. cbn [bind].
  destruct (standard_normal_form n k M) as [[F rank]|]; [|discriminate]. cbn [bind].
  destruct (logical_operators n k F rank) as [lo|]; [|discriminate]. cbn [bind]. intros H. injection H as <-. cbn [stab pauli_stab normal_form crank].
  unfold assert_. destruct (Nat.eqb (zc LX) (2 * n)), (Nat.eqb (zc LZ) (2 * n)); reflexivity.
Qed.
Theorem user_accepted g n k LX LZ c0 : init g n k None = Ok c0 ->
  init g n k (Some (LX, LZ)) =
    if (Nat.eqb (zc LX) (2 * n) && Nat.eqb (zc LZ) (2 * n))%bool
    then Ok (Code n k (stab c0) (pauli_stab c0) (normal_form c0) (crank c0) LX LZ) else Err AssertionError.
Proof.
  unfold init. destruct g as [l|[|r0 l]]; [| |]; try discriminate.
  - destruct (pauli_str_to_binary_representation l) as [M|]; [|discriminate]. cbn [bind]. destruct (negb _); [discriminate|].
    destruct (_ && _)%bool; [|discriminate]. apply user_body.
  - destruct (forallb _ l); [|discriminate]. destruct (assert_ _); [|discriminate]. cbn [bind]. destruct (assert_ (Nat.eqb (S _) _)); [|discriminate]. cbn [bind]. apply user_body.
Qed.

Lemma bit_okm n k rows : bit_matrix k n rows -> okm n k (ZM k (2 * n) rows).
Proof. intros (L & W & B). rewrite <- L. apply okm_rows; assumption. Qed.

Section User.
Context {K : StarRing}.
Variables h im : K.
Add Ring KringU5 : (s_rt K).
Variables (g : gens) (n k : nat) (c0 : code) (LX LZ : list (list Z)).
Hypothesis H0 : init g n k None = Ok c0.
Hypothesis HV : valid_generators n k (zd (stab c0)).
Hypothesis BX : bit_matrix k n LX.
Hypothesis BZ : bit_matrix k n LZ.
Let c := Code n k (stab c0) (pauli_stab c0) (normal_form c0) (crank c0) (ZM k (2 * n) LX) (ZM k (2 * n) LZ).
Lemma user_code c' : init g n k (Some (ZM k (2 * n) LX, ZM k (2 * n) LZ)) = Ok c' -> c' = c.
Proof. rewrite (user_accepted _ _ _ _ _ _ H0). cbn [zc]. rewrite Nat.eqb_refl. cbn [andb]. intros E. injection E as <-. reflexivity. Qed.

Let r := crank c0.
Let s := n - k.
Let f := bz (normal_form c0).
Let B := bz (ZM k (2 * n) LX).
Open Scope K_scope.
Notation encode := (encode h im n c).

Lemma diff_bit st j : length st = k -> binary st -> r <= j < s ->
  xorb (cwf n k s r (carry n s B) (mbit st) j) (cwf n k s r f (mbit st) j) = Z.odd (difference k LX (zd (logical_x c0)) st j).
Proof.
  intros Ls Bs Hj. destruct (struct_f g n k c0 H0 HV) as (Hk & Hr & _). destruct (logical_f g n k c0 H0 HV) as (_ & _ & EX & _).
  rewrite !(cwf_mid n k s r) by (assumption || reflexivity). rewrite <- xsum_xor. unfold difference. rewrite fold_add_zsum, odd_zsum.
  apply xsum_ext. intros i Hi. rewrite (fx_carry n k s r B) by (assumption || reflexivity). fold f r s in EX. rewrite <- EX by (unfold s in *; lia).
  rewrite Z.odd_mul, Z.odd_sub. replace (Z.odd (nth i st 0%Z)) with (mbit st i) by (unfold mbit; destruct (binary_nth st i Bs) as [-> | ->]; reflexivity).
  unfold B. change (bz (ZM k (2 * n) LX) i j) with (Z.odd (entry LX i j)). change (bz (logical_x c0) i j) with (Z.odd (entry (zd (logical_x c0)) i j)).
  destruct (mbit st i), (Z.odd (entry LX i j)), (Z.odd (entry (zd (logical_x c0)) i j)); reflexivity.
Qed.

Lemma encode_encu st : length st = k -> binary st ->
  snd (encoding_circuit c (seq O n) st) = Ok tt /\ eqs n (encode st) (encu h n k s r f B (mbit st)).
Proof.
  intros Ls Bs. destruct (struct_f g n k c0 H0 HV) as (Hk & Hr & OF & U & Lx & V & Cm & Zs).
  unfold CircuitSpec.encode. rewrite (encoding_events_u n k c eq_refl eq_refl (bit_okm n k LX BX)) by assumption. split; [reflexivity|].
  apply (encu_circuit h im n k s r f B); (assumption || reflexivity).
Qed.

Hypothesis HE : Forall (fun row => Nat.even (y_count n row) = true) (zd (stab c0)).
Hypothesis HC : qubit_constants h im.

Theorem user_encoding st : length st = k -> binary st ->
  snd (encoding_circuit c (seq O n) st) = Ok tt /\ inner n (encode st) (encode st) = 1 /\
  (forall st', length st' = k -> binary st' -> st' <> st -> inner n (encode st) (encode st') = 0) /\
  exists Ss, binary_rep_to_pauli_mat (normal_form c0) = Ok Ss /\ length Ss = (n - k)%nat /\
    forall j, j < n - k -> matrix_maps n (me (nth j Ss (MA 0 0 (fun _ _ => 0)))) (encode st)
      (sscale (sgn (Nat.leb r j && Z.odd (difference k LX (zd (logical_x c0)) st j))) (encode st)).
Proof.
  intros L Bs. destruct (struct_f g n k c0 H0 HV) as (Hk & Hr & OF & U & Lx & V & Cm & Zs). destruct HC as (C1 & C2 & C3 & C4).
  destruct (encode_encu st L Bs) as [E0 E]. split; [exact E0|]. split; [|split].
  - rewrite (inner_ext n _ _ _ _ E E). apply (encu_unit h im n k s r f B); (assumption || reflexivity).
  - intros st' L' B' N. destruct (encode_encu st' L' B') as [_ E']. rewrite (inner_ext n _ _ _ _ E E').
    assert (X : exists i, i < k /\ mbit st i <> mbit st' i).
    { destruct (bits_neq (message st) (message st')) as (j & Hj & D).
      - unfold message. rewrite !map_length. congruence.
      - intros Eq. apply N. symmetry. apply message_inj; (assumption || congruence).
      - unfold message in Hj. rewrite map_length in Hj. exists j. split; [lia|]. rewrite !getb_message in D. exact D. }
    destruct X as (i & Hi & D). apply (encu_orth h im n k s r f B) with (i := i); (assumption || reflexivity).
  - destruct (mats_of (K := K) n (normal_form c0) s OF) as (Ss & ES & F); [destruct HV as (A & A' & _); lia|]. exists Ss. split; [exact ES|]. split.
    { rewrite <- (Forall2_length F). destruct (okm_spec n s _ OF) as (LF & _). exact LF. }
    intros i Hi. destruct (okm_spec n s _ OF) as (LF & _).
    assert (P : is_pauli n (me (nth i Ss (MA 0 0 (fun _ _ => 0)))) (nth i (zd (normal_form c0)) [])).
    { assert (Hi' : i < length Ss) by (rewrite <- (Forall2_length F); fold s in Hi; lia). clear - F Hi'. revert i Hi'. induction F as [|row S l l' Q F IH]; intros i Hi; [simpl in Hi; lia|]. destruct i; [apply Q|]. apply IH. simpl in Hi; lia. }
    apply (maps_prow n _ _ _ _ P). fold s in Hi.
    apply (eqs_trans n _ (prow n (f i) (encu h n k s r f B (mbit st)))); [apply prow_eqs; exact E|].
    destruct (Nat.leb_spec r i) as [Hri|Hri]; cbn [andb].
    + rewrite <- diff_bit by (assumption || lia).
      apply (eqs_trans n _ _ _ (encu_low h n k s r f B eq_refl Hk Hr Lx V Cm (mbit st) i ltac:(lia))). intros y Hy. unfold sscale. rewrite E by exact Hy. reflexivity.
    + apply (eqs_trans n _ (encu h n k s r f B (mbit st))).
      * apply (encu_high h n k s r f B eq_refl Hk Hr Cm (even_f g n k c0 H0 HV HE)). exact Hri.
      * intros y Hy. unfold sscale. cbn [sgn]. rewrite E by exact Hy. ring.
Qed.

(** the prepared state lies in the code space exactly if the differences are even *)
Theorem user_codespace st Ss : length st = k -> binary st -> binary_rep_to_pauli_mat (normal_form c0) = Ok Ss ->
  ((forall S, In S Ss -> matrix_fixes n (me S) (encode st)) <->
   (forall j, crank c0 <= j < n - k -> (2 | difference k LX (zd (logical_x c0)) st j)%Z)).
Proof.
  intros L Bs ES. destruct (user_encoding st L Bs) as (_ & N1 & _ & Ss' & ES' & LS & M). rewrite ES in ES'. injection ES' as <-. split.
  - intros F j Hj. specialize (M j ltac:(lia)). specialize (F (nth j Ss (MA 0 0 (fun _ _ => 0))) ltac:(apply nth_In; lia)).
    destruct (Nat.leb_spec r j); [|unfold r in *; lia]. cbn [andb] in M. destruct (Z.odd (difference k LX (zd (logical_x c0)) st j)) eqn:O.
    + exfalso. assert (ZZ : forall i, (i < 2 ^ n)%nat -> encode st (bits_of n i) = 0).
      { intros i Hi. specialize (M i Hi). rewrite (F i Hi) in M. unfold sscale in M. cbn [sgn] in M. destruct HC as (C1 & _).
        set (x := encode st (bits_of n i)) in *. transitivity ((h * h + h * h) * x); [rewrite C1; ring|].
        transitivity (h * h * (x + x)); [ring|]. rewrite M at 2. ring. }
      assert (N0 : inner n (encode st) (encode st) = 0).
      { unfold inner. rewrite (isum_ext n _ (fun _ => 0)); [apply isum_0|]. intros y Hy.
        pose proof (idx_lt y) as Q. rewrite Hy in Q. specialize (ZZ (idx y) Q). rewrite <- Hy in ZZ at 2. rewrite bits_of_idx in ZZ. rewrite ZZ. ring. }
      rewrite N0 in N1. apply (@s1_neq K). rewrite <- N1. ring.
    + rewrite <- Z.negb_even in O. apply negb_false_iff in O. apply Z.even_spec in O. destruct O as [q Q]. exists q. lia.
  - intros D S HS. apply (In_nth _ _ (MA 0 0 (fun _ _ => 0))) in HS. destruct HS as (j & Hj & <-). specialize (M j ltac:(lia)).
    replace (Nat.leb r j && Z.odd (difference k LX (zd (logical_x c0)) st j)) with false in M.
    + intros i Hi. rewrite (M i Hi). unfold sscale. cbn [sgn]. ring.
    + destruct (Nat.leb_spec r j); [|reflexivity]. symmetry. cbn [andb]. destruct (D j ltac:(unfold r in *; lia)) as [q ->].
      rewrite Z.odd_mul. apply andb_false_r.
Qed.
End User.

Section UserDec.
Context {K : StarRing}.
Variables h im : K.
Add Ring KringU6 : (s_rt K).
Variables (n k : nat) (c : code).
Hypothesis Ec : cn c = n.
Hypothesis Ek : ck c = k.
Hypothesis OX : okm n k (logical_x c).
Hypothesis OZ : okm n k (logical_z c).
Hypothesis HC : qubit_constants h im.
Variable v : list Z -> @state K.
Open Scope K_scope.
Hypothesis VX : forall i st, i < k -> length st = k -> binary st ->
  exists A : array K, binary_rep_to_pauli_mat (ZM 1 (2 * n) [nth i (zd (logical_x c)) []]) = Ok [MA (2 ^ n) (2 ^ n) A] /\ matrix_maps n A (v st) (v (flip_bit i st)).
Hypothesis VZ : forall i st, i < k -> length st = k -> binary st ->
  exists A : array K, binary_rep_to_pauli_mat (ZM 1 (2 * n) [z_only n (nth i (zd (logical_z c)) [])]) = Ok [MA (2 ^ n) (2 ^ n) A] /\
    matrix_maps n A (v st) (sscale (sgn (Z.eqb (nth i st 0%Z) 1)) (v st)).
Hypothesis Hn : (1 <= n)%nat.

Lemma one_pauli row A : length row = (2 * n)%nat -> binary row -> binary_rep_to_pauli_mat (ZM 1 (2 * n) [row]) = Ok [MA (2 ^ n) (2 ^ n) A] -> is_pauli (K := K) n A row.
Proof.
  intros L B E. destruct (rowmats (K := K) n [row]) as (Ss & ES & F); [exact Hn|constructor; [exact L|constructor]|constructor; [exact B|constructor]|].
  unfold binary_rep_to_pauli_mat in E. cbn [zc zd] in E. rewrite CodesProofs.div2_double, ES in E. injection E as ->.
  inversion F as [|? ? ? ? (R & C & P) F2 E1 E3]. exact P.
Qed.
Definition zmsg (b : nat -> bool) : list Z := map (fun i => Z.b2z (b i)) (seq 0 k).
Lemma zmsg_ok b : length (zmsg b) = k /\ binary (zmsg b) /\ forall i, i < k -> nth i (zmsg b) 0%Z = Z.b2z (b i).
Proof.
  unfold zmsg. rewrite map_length, seq_length. split; [reflexivity|]. split; [|intros i Hi; apply (nth_map_seq (fun i => Z.b2z (b i))); exact Hi].
  apply Forall_map, Forall_forall. intros i _. destruct (b i); auto.
Qed.
Lemma zmsg_mbit st : length st = k -> binary st -> zmsg (mbit st) = st.
Proof.
  intros L B. apply (nth_ext _ _ 0%Z 0%Z); [rewrite (proj1 (zmsg_ok _)); congruence|]. rewrite (proj1 (zmsg_ok _)). intros i Hi.
  rewrite (proj2 (proj2 (zmsg_ok _))) by exact Hi. unfold mbit. destruct (binary_nth st i B) as [-> | ->]; reflexivity.
Qed.
Lemma flip_zmsg b i : flip_bit i (zmsg b) = zmsg (flip b i).
Proof.
  destruct (zmsg_ok b) as (L & B & N). unfold flip_bit. rewrite L. apply map_ext_in. intros j Hj. apply in_seq in Hj. rewrite !N by lia. unfold flip.
  rewrite (Nat.eqb_sym i j). destruct (Nat.eqb j i), (b j); reflexivity.
Qed.
Lemma decu_family outs st : length st = k -> binary st ->
  eqs (n + k) (exec h im outs (decu_events n k (bz (logical_x c)) (bz (logical_z c))) (tensor n (v st) (repeat false k))) (tensor n (v (repeat 0%Z k)) (message st)).
Proof.
  intros L B.
  assert (E0 : v (repeat 0%Z k) = v (zmsg (fun _ => false))).
  { f_equal. apply (nth_ext _ _ 0%Z 0%Z); [rewrite (proj1 (zmsg_ok _)); apply repeat_length|]. rewrite repeat_length. intros i Hi. rewrite nth_repeat, (proj2 (proj2 (zmsg_ok _))) by exact Hi. reflexivity. }
  rewrite E0. rewrite <- (zmsg_mbit st L B) at 1.
  apply (dec_gen h im n k (bz (logical_x c)) (bz (logical_z c)) (fun b => v (zmsg b))).
  - intros b b' E. f_equal. apply map_ext_in. intros i Hi. apply in_seq in Hi. rewrite E by lia. reflexivity.
  - intros b i Hi. destruct (zmsg_ok b) as (Lb & Bb & Nb). destruct (VX i (zmsg b) Hi Lb Bb) as (A & EA & M).
    destruct (okm_row n k _ i OX Hi) as [Lr Br]. pose proof (one_pauli _ A Lr Br EA) as P. apply (maps_prow n A _ _ _ P) in M.
    rewrite flip_zmsg in M. exact M.
  - intros b i y Hi Hy Ne. destruct (zmsg_ok b) as (Lb & Bb & Nb). destruct (VZ i (zmsg b) Hi Lb Bb) as (A & EA & M).
    destruct (okm_row n k _ i OZ Hi) as [Lr Br]. rewrite Nb in M by exact Hi. replace (Z.eqb (Z.b2z (b i)) 1) with (b i) in M by (destruct (b i); reflexivity).
    set (row := nth i (zd (logical_z c)) []) in *.
    assert (Lz : length (z_only n row) = (2 * n)%nat) by (unfold z_only; rewrite app_length, repeat_length, skipn_length; lia).
    assert (Bz : binary (z_only n row)).
    { unfold z_only. apply Forall_app. split; [apply Forall_forall; intros x Hx; apply repeat_spec in Hx; auto|]. unfold binary in Br. rewrite <- (firstn_skipn n row) in Br. apply Forall_app in Br. apply Br. }
    pose proof (one_pauli _ A Lz Bz EA) as P. apply (maps_prow n A _ _ _ P) in M. specialize (M y Hy). unfold prow, pact, sscale in M.
    assert (X0 : forall j, j < n -> brow (z_only n row) j = false).
    { intros j Hj. unfold brow, z_only. rewrite app_nth1 by (rewrite repeat_length; exact Hj). rewrite nth_repeat. reflexivity. }
    assert (X1 : forall j, j < n -> brow (z_only n row) (n + j) = bz (logical_z c) i (n + j)).
    { intros j Hj. unfold brow, z_only. rewrite app_nth2 by (rewrite repeat_length; lia). rewrite repeat_length. replace (n + j - n)%nat with j by lia. rewrite nth_skipn. reflexivity. }
    rewrite (xorv_ext n (brow (z_only n row)) (fun _ => false)) in M by exact X0. rewrite xorv_false in M.
    rewrite (xsum_ext n _ (fun j => bz (logical_z c) i (n + j)%nat && getb y j)) in M.
    2:{ intros j Hj. rewrite (X1 j Hj), (X0 j Hj). rewrite xorb_false_r. reflexivity. }
    set (a := xsum n _) in *. replace a with (negb (b i)) in M by (destruct a, (b i); (reflexivity || congruence)). destruct HC as (C1 & _).
    set (x := v (zmsg b) y) in *.
    assert (Z2 : x + x = 0).
    { destruct (b i); cbn [negb sgn] in M; [transitivity (1 * x + x); [ring|]; rewrite M; ring|transitivity (x + 1 * x); [ring|]; rewrite <- M; ring]. }
    transitivity ((h * h + h * h) * x); [rewrite C1; ring|]. transitivity (h * h * (x + x)); [ring|]. rewrite Z2. ring.
  - unfold message. rewrite map_length. exact L.
  - intros i _. apply getb_message.
Qed.
Theorem user_decode (l : list (K * list Z)) : (forall p, In p l -> length (snd p) = k /\ binary (snd p)) ->
  eqs (n + k) (exec h im [] (fst (decoding_circuit c (n + k) (seq O (n + k)) false false)) (superpose l (fun st => tensor n (v st) (repeat false k))))
              (superpose l (fun st => tensor n (v (repeat 0%Z k)) (message st))) /\
  eqs (n + k) (exec h im [] (fst (decoding_circuit c n (seq O n) true false)) (superpose l v))
              (superpose l (fun st => tensor n (v (repeat 0%Z k)) (message st))).
Proof.
  intros H. rewrite (user_with_ancillas n k c Ec Ek OX OZ), (user_add_ancillas n k c Ec Ek OX OZ). cbn [fst]. rewrite !app_nil_r.
  split; intros y Hy; rewrite exec_superpose; apply superpose_eqs with (q := (n + k)%nat); try exact Hy; intros p Hp; destruct (H p Hp) as [L B].
  - apply decu_family; assumption.
  - rewrite exec_alloc_app. apply (eqs_trans _ _ (exec h im [] (decu_events n k (bz (logical_x c)) (bz (logical_z c))) (tensor n (v (snd p)) (repeat false k)))); [|apply decu_family; assumption].
    apply exec_eqs; [reflexivity|apply decu_gate|apply (alloc_tensor h im n k c)].
Qed.
End UserDec.
