(** Encoding, logical, decoding circuits of an accepted code (C15, C16, C17). *)
From Verif Require Import Py ZMat CodesModel RankSpec CodesSpec BoolLin Rank Gauss Gauss2 CodesProofs CodesProofs2 Logical
  Scalar PauliModel PauliSpec PauliProofs PauliProofs2 CircuitModel CircuitSpec CircuitProofs EncodeProofs CircuitProofs2.
Open Scope nat_scope.

Definition mbit (s : list Z) (i : nat) : bool := Z.eqb (nth i s 0%Z) 1.
Lemma getb_message s i : getb (message s) i = mbit s i.
Proof. exact (map_nth (fun b => Z.eqb b 1) s 0%Z i). Qed.
Lemma message_inj s s' : length s = length s' -> binary s -> binary s' -> message s = message s' -> s = s'.
Proof.
  intros L B B' E. apply (nth_ext _ _ 0%Z 0%Z L). intros j _. assert (D : mbit s j = mbit s' j) by (rewrite <- !getb_message, E; reflexivity).
  unfold mbit in D. destruct (binary_nth s j B) as [A|A], (binary_nth s' j B') as [A'|A']; rewrite A, A' in *; (reflexivity || discriminate).
Qed.
Lemma brow_zd M i j : brow (nth i (zd M) []) j = bz M i j.
Proof. reflexivity. Qed.
Lemma okm_row n s M i : okm n s M -> i < s -> length (nth i (zd M) []) = 2 * n /\ binary (nth i (zd M) []).
Proof.
  intros O Hi. destruct (okm_spec n s M O) as (L & W & B). rewrite Forall_forall in W, B.
  split; [apply W|apply B]; apply nth_In; lia.
Qed.

Section Tensor.
Context {K : StarRing}.
Variables h im : K.
Add Ring KringT : (s_rt K).
Open Scope K_scope.
Implicit Types psi phi v : @state K.
Notation exec := (exec h im).

Lemma tensor_eqs n psi phi m : eqs n psi phi -> eqs (n + length m) (tensor n psi m) (tensor n phi m).
Proof.
  intros H y Hy. unfold tensor. destruct (list_eq_dec bool_dec (skipn n y) m); [|reflexivity]. apply H. rewrite firstn_length. lia.
Qed.
Lemma getb_skipn y n i : getb (skipn n y) i = getb y (n + i).
Proof. apply nth_skipn. Qed.
Lemma getb_firstn y n i : i < n -> getb (firstn n y) i = getb y i.
Proof. apply nth_firstn. Qed.
Lemma pact_tensor n x z psi m y : length y = (n + length m)%nat -> pact n x z (tensor n psi m) y = tensor n (pact n x z psi) m y.
Proof.
  intros Hy. unfold pact, tensor.
  assert (E1 : skipn n (xorv n x y) = skipn n y).
  { apply bits_eq; [rewrite !skipn_length, xorv_length; reflexivity|]. intros j _. rewrite !getb_skipn. apply getb_xorv_out. lia. }
  assert (E2 : firstn n (xorv n x y) = xorv n x (firstn n y)).
  { apply bits_eq; [rewrite xorv_length, !firstn_length, xorv_length; reflexivity|]. rewrite firstn_length, xorv_length. intros j Hj.
    rewrite getb_firstn by lia. rewrite !getb_xorv_in by (rewrite ?firstn_length; lia). rewrite getb_firstn by lia. reflexivity. }
  rewrite E1, E2. destruct (list_eq_dec bool_dec (skipn n y) m); [|ring]. f_equal. f_equal. apply xsum_ext; intros j Hj. rewrite getb_firstn by lia. reflexivity.
Qed.
(** a Pauli controlled by an ancilla in a basis state *)
Lemma ctl_tensor outs n x z psi m i : i < length m ->
  eqs (n + length m) (exec outs (levs [(n + i)%nat] x z (seq O n)) (tensor n psi m))
                     (tensor n (if getb m i then pact n x z psi else psi) m).
Proof.
  intros Hi y Hy. rewrite exec_paulis by (first [lia|intros c [<-|[]] Hc; lia]). cbn [forallb]. rewrite andb_true_r.
  destruct (list_eq_dec bool_dec (skipn n y) m) as [E|E].
  - assert (Ey : getb y (n + i) = getb m i) by (rewrite <- E, getb_skipn; reflexivity).
    rewrite Ey. destruct (getb m i); [apply pact_tensor, Hy|reflexivity].
  - rewrite pact_tensor by exact Hy. unfold tensor. destruct (list_eq_dec bool_dec (skipn n y) m); [contradiction|]. destruct (getb y (n + i)); reflexivity.
Qed.
(** CNOTs into one target: it receives the parity *)
Definition cnots (n : nat) (a : nat -> bool) (t : nat) : list event := flat_map (fun j => if a j then [Gate [j] GX t] else []) (seq O n).
Lemma cnots_gate n a t : forallb gate_only (cnots n a t) = true.
Proof. apply forallb_flat_map. intros j _. destruct (a j); reflexivity. Qed.
Lemma exec_cnots outs n a t psi : forall y, n <= t -> t < length y ->
  exec outs (cnots n a t) psi y = psi (setb y t (xorb (getb y t) (xsum n (fun j => a j && getb y j)))).
Proof.
  induction n as [|n IH]; intros y Hn Ht.
  - cbn [cnots seq flat_map CircuitSpec.exec xsum]. rewrite xorb_false_r, setb_same. reflexivity.
  - unfold cnots. rewrite seq_S, flat_map_app. cbn [flat_map Nat.add]. rewrite app_nil_r.
    rewrite exec_app by apply cnots_gate. fold (cnots n a t). cbn [xsum].
    destruct (a n) eqn:Ea; cbn [andb].
    + cbn [CircuitSpec.exec]. unfold apply_gate. cbn [forallb]. rewrite andb_true_r. destruct (getb y n) eqn:En.
      * assert (P : forall b, exec outs (cnots n a t) psi (setb y t b) = psi (setb y t (xorb b (xsum n (fun j => a j && getb y j))))).
        { intros b. rewrite IH by (rewrite ?setb_length; lia). rewrite setb_setb, getb_setb, Nat.eqb_refl by exact Ht. f_equal. f_equal. f_equal.
          apply xsum_ext; intros j Hj. rewrite getb_setb by lia. destruct (Nat.eqb_spec j t); [lia|reflexivity]. }
        rewrite !P. destruct (getb y t); cbn [gate_entry].
        -- rewrite (xorb_comm _ true), <- (xorb_assoc true true). cbn [xorb negb]. destruct (xsum n _); cbn; ring.
        -- destruct (xsum n _); cbn; ring.
      * rewrite IH by lia. rewrite xorb_false_r. reflexivity.
    + cbn [CircuitSpec.exec]. rewrite IH by lia. rewrite xorb_false_r. reflexivity.
Qed.
(** parities of data bits xored into the ancillas *)
Definition fan (n m : nat) (L : nat -> nat -> bool) (y : list bool) : list bool :=
  tab (fun j => xorb (getb y j) (Nat.leb n j && Nat.ltb j (n + m) && xsum n (fun l => L (j - n)%nat l && getb y l))) (length y).
Lemma exec_fan outs n m L psi : forall y, n + m <= length y ->
  exec outs (flat_map (fun i => cnots n (L i) (n + i)%nat) (seq O m)) psi y = psi (fan n m L y).
Proof.
  induction m as [|m IH]; intros y Hy.
  - cbn [seq flat_map CircuitSpec.exec]. f_equal. apply bits_eq; [unfold fan; rewrite tab_length; reflexivity|]. intros j Hj. unfold fan.
    rewrite getb_tab by exact Hj. destruct (Nat.leb_spec n j), (Nat.ltb_spec j (n + 0)); try lia; cbn [andb]; rewrite xorb_false_r; reflexivity.
  - rewrite seq_S, flat_map_app. cbn [flat_map Nat.add]. rewrite app_nil_r.
    rewrite exec_app by (apply forallb_flat_map; intros; apply cnots_gate).
    rewrite exec_cnots by lia. rewrite IH by (rewrite setb_length; lia). f_equal.
    apply bits_eq; [unfold fan; rewrite !tab_length, setb_length; reflexivity|]. unfold fan at 1. rewrite tab_length, setb_length. intros j Hj.
    unfold fan. rewrite setb_length, !getb_tab by exact Hj. rewrite getb_setb by exact Hj.
    rewrite (xsum_ext n (fun l => L (j - n)%nat l && getb (setb y (n + m) _) l) (fun l => L (j - n)%nat l && getb y l)).
    2:{ intros l Hl. rewrite getb_setb by lia. destruct (Nat.eqb_spec l (n + m)); [lia|reflexivity]. }
    destruct (Nat.eqb_spec j (n + m)) as [->|Ne].
    + destruct (Nat.leb_spec n (n + m)), (Nat.ltb_spec (n + m) (n + m)), (Nat.ltb_spec (n + m) (n + S m)); try lia. cbn [andb].
      rewrite xorb_false_r. replace (n + m - n)%nat with m by lia. reflexivity.
    + destruct (Nat.leb_spec n j), (Nat.ltb_spec j (n + m)), (Nat.ltb_spec j (n + S m)); try lia; reflexivity.
Qed.
Lemma bits_neq y y' : length y = length y' -> y <> y' -> exists j, j < length y /\ getb y j <> getb y' j.
Proof.
  intros L N. destruct (forallb (fun j => Bool.eqb (getb y j) (getb y' j)) (seq O (length y))) eqn:E.
  - exfalso. apply N. apply bits_eq; [exact L|]. intros j Hj. rewrite forallb_forall in E. specialize (E j ltac:(apply in_seq; lia)). apply Bool.eqb_prop, E.
  - assert (X : exists j, In j (seq O (length y)) /\ Bool.eqb (getb y j) (getb y' j) = false).
    { revert E. induction (seq O (length y)) as [|a l IH]; [discriminate|]. cbn. destruct (Bool.eqb _ _) eqn:Ea; cbn; intros E.
      - destruct (IH E) as (j & Hj & Ej). exists j. auto.
      - exists a. auto. }
    destruct X as (j & Hj & Ej). apply in_seq in Hj. exists j. split; [lia|]. intros Eq. rewrite Eq, Bool.eqb_reflx in Ej. discriminate.
Qed.
(** running commands is linear *)
Lemma exec_lin evs : forall outs psi phi chi a, (forall y, chi y = a * psi y + phi y) ->
  forall y, exec outs evs chi y = a * exec outs evs psi y + exec outs evs phi y.
Proof.
  induction evs as [|e evs IH]; intros outs psi phi chi a H y; [apply H|]. destruct e; cbn [CircuitSpec.exec]; apply IH; intros w.
  - unfold apply_gate. rewrite !H. destruct (forallb _ _); ring.
  - unfold add_qubit. rewrite H. destruct (getb w q); ring.
  - unfold project. rewrite H. destruct (Bool.eqb _ _); ring.
  - apply H.
Qed.
Lemma exec_zero evs : forall outs psi, (forall y, psi y = 0) -> forall y, exec outs evs psi y = 0.
Proof.
  induction evs as [|e evs IH]; intros outs psi H y; [apply H|]. destruct e; cbn [CircuitSpec.exec]; apply IH; intros w.
  - unfold apply_gate. rewrite !H. destruct (forallb _ _); ring.
  - unfold add_qubit. rewrite H. destruct (getb w q); ring.
  - unfold project. rewrite H. destruct (Bool.eqb _ _); ring.
  - apply H.
Qed.
Lemma exec_superpose {A} (l : list (K * A)) F outs evs y : exec outs evs (superpose l F) y = superpose l (fun s => exec outs evs (F s)) y.
Proof.
  induction l as [|[a s] l IH]; [apply exec_zero; reflexivity|].
  rewrite (exec_lin evs outs (F s) (superpose l F) (superpose ((a, s) :: l) F) a) by reflexivity. rewrite IH. reflexivity.
Qed.
Lemma superpose_ext {A} (l : list (K * A)) F G y : (forall p, In p l -> F (snd p) y = G (snd p) y) -> superpose l F y = superpose l G y.
Proof.
  induction l as [|p l IH]; intros H; [reflexivity|]. unfold superpose in *. cbn [fold_right]. rewrite H by (left; reflexivity).
  rewrite IH by (intros; apply H; right; assumption). reflexivity.
Qed.
End Tensor.

Section Code.
Context {K : StarRing}.
Variables h im : K.
Add Ring KringC : (s_rt K).
Variables (g : gens) (n k : nat) (c : code).
Hypothesis HI : init g n k None = Ok c.
Hypothesis HV : valid_generators n k (zd (stab c)).
Implicit Types psi phi v : @state K.
Notation exec := (exec h im).
Let r := crank c.
Let s := n - k.
Let f := bz (normal_form c).

Lemma code_dims : cn c = n /\ ck c = k.
Proof. destruct (init_inv _ _ _ _ _ HI) as (M & _ & _ & _ & _ & _ & _ & HB & _). apply init_body_inv in HB. tauto. Qed.
Lemma struct_f : k <= n /\ r <= s /\ okm n s (normal_form c) /\ unitx s r f /\ lowx n s r f /\ unitz n s r s f /\ commuting n s f /\ zr (stab c) = s.
Proof.
  destruct (init_struct _ _ _ _ _ HI HV (or_introl eq_refl)) as (Hk & Zs & Hc & _ & OF & _ & (U & Lx & Cm & _) & V & _).
  unfold s, r, f. auto 10.
Qed.
Lemma even_f : Forall (fun row => Nat.even (y_count n row) = true) (zd (stab c)) -> forall i, i < s -> ypar n (f i) = false.
Proof.
  intros HE. destruct (init_struct _ _ _ _ _ HI HV (or_introl eq_refl)) as (Hk & Zs & Hc & OS & OF & R & _).
  apply (rel_ypar n s (bz (stab c))); [exact R| |].
  - destruct HV as (_ & _ & _ & _ & Cm & _). destruct OS as (W & Z & _). unfold s. rewrite <- Z. apply all_commute_iff; assumption.
  - intros i Hi. destruct (okm_row n s (stab c) i OS Hi) as [_ B]. destruct (okm_spec n s _ OS) as (L & _).
    rewrite Forall_forall in HE. specialize (HE (nth i (zd (stab c)) []) ltac:(apply nth_In; unfold s in *; lia)).
    rewrite <- Nat.negb_odd, (y_count_xsum n _ B), negb_true_iff in HE. exact HE.
Qed.
Lemma logical_f : okm n k (logical_x c) /\ okm n k (logical_z c) /\
  (forall i j, i < k -> j < 2 * n -> bz (logical_x c) i j = fx n s r f i j) /\
  (forall i j, i < k -> j < 2 * n -> bz (logical_z c) i j = fz n s r f i j).
Proof. exact (init_logical g n k c HI HV). Qed.

Open Scope K_scope.
Lemma levs_ext cs x z x' z' js : (forall j, In j js -> x j = x' j /\ z j = z' j) -> levs cs x z js = levs cs x' z' js.
Proof. intros H. apply flat_map_ext_in. intros j Hj. destruct (H j Hj) as [-> ->]. reflexivity. Qed.

Lemma encoding_events st : length st = k -> binary st ->
  encoding_circuit c (seq O n) st = (enc_events n k s r f (mbit st), Ok tt).
Proof.
  intros Ls Bs. destruct code_dims as [Ec Ek]. destruct struct_f as (Hk & Hr & OF & U & Lx & V & Cm & Zs).
  destruct logical_f as (OX & OZ & EX & EZ).
  unfold encoding_circuit. rewrite Ec, Ek, Ls, seq_length, !Nat.eqb_refl. cbn [assert_ lift cbind].
  rewrite (cfor_ok (enumerate st) _ (fun ib => lev [] (Z.eqb (snd ib) 1) false (s + fst ib)%nat)).
  2:{ intros [i b] Hin. rewrite (list_tab st 0%Z), enumerate_tab in Hin. apply in_map_iff in Hin. destruct Hin as (j & E & Hj).
      injection E as -> E. apply in_seq in Hj. cbn [fst snd]. assert (Hb : (b = 0 \/ b = 1)%Z) by (rewrite <- E; apply binary_nth, Bs).
      destruct Hb as [-> | ->]; cbn [Z.eqb orb assert_ lift cbind Pos.eqb lev]; [reflexivity|].
      replace (Z.of_nat n - Z.of_nat k + Z.of_nat i)%Z with (Z.of_nat (s + i)) by (unfold s; lia).
      rewrite py_get_seq0 by (unfold s; lia). reflexivity. }
  cbn [cbind].
  assert (E1 : flat_map (fun ib : nat * Z => lev [] (Z.eqb (snd ib) 1) false (s + fst ib)%nat) (enumerate st) = levs [] (msg_x s (mbit st)) (fun _ => false) (seq O n)).
  { rewrite (list_tab st 0%Z) at 1. rewrite enumerate_tab, flat_map_map. cbn [fst snd]. rewrite Ls.
    rewrite <- (levs_window [] (msg_x s (mbit st)) (fun _ => false) s k n) by (first [unfold s; lia|intros j Hj [A|A]; [split; [unfold msg_x; destruct (Nat.leb_spec s j); [lia|reflexivity]|reflexivity]|unfold s in A; lia]]).
    unfold levs. replace (seq s k) with (seq (s + 0) k) by (f_equal; lia). rewrite seq_shift_add, flat_map_map. apply flat_map_ext_in. intros j Hj. f_equal.
    unfold msg_x, mbit. destruct (Nat.leb_spec s (s + j)); [|lia]. cbn [andb]. replace (s + j - s)%nat with j by lia. reflexivity. }
  rewrite E1. clear E1.
  match goal with |- context [if Nat.ltb (crank c) (numb_stab c) then ?X else ?Y] =>
    assert (E2 : (if Nat.ltb (crank c) (numb_stab c) then X else Y) = (flat_map (mid_events n s r f) (rev (seq O k)), Ok tt)) end.
  { unfold numb_stab. rewrite Zs. fold r s. destruct (Nat.ltb_spec r s) as [L|L].
    - apply cfor_ok. intros i Hi. apply in_rev in Hi. apply in_seq in Hi.
      destruct (okm_row n k _ i OX ltac:(lia)) as [Lrow Brow]. destruct (okm_spec n k _ OX) as (LX & _).
      rewrite (py_get_nat _ _ []) by (rewrite LX; lia). cbn [lift cbind]. rewrite py_get_neg by lia. fold s. cbn [lift cbind app].
      rewrite (window_tab _ 0%Z) by (rewrite Lrow; unfold s in *; lia). rewrite enumerate_tab, cfor_map.
      rewrite (cfor_ok _ _ (fun j => lev [(s + i)%nat] (mid_x n s r f i (r + j)) false (r + j))).
      2:{ intros j Hj. apply in_seq in Hj. unfold mid_x. destruct (Nat.leb_spec r (r + j)), (Nat.ltb_spec (r + j) s); try lia. cbn [andb].
          rewrite <- EX by (unfold s in *; lia). change (bz (logical_x c) i (r + j)) with (Z.odd (nth (r + j) (nth i (zd (logical_x c)) []) 0%Z)).
          destruct (binary_nth _ (r + j) Brow) as [-> | ->]; cbn [Z.eqb Pos.eqb Z.odd lev]; [reflexivity|].
          rewrite py_get_seq0 by (unfold s in *; lia). reflexivity. }
      f_equal. unfold mid_events. rewrite <- (levs_window _ _ _ r (s - r) n).
      + unfold levs. replace (seq r (s - r)) with (seq (r + 0) (s - r)) by (f_equal; lia). rewrite seq_shift_add, flat_map_map. reflexivity.
      + unfold s in *; lia.
      + intros j Hj A. split; [|reflexivity]. unfold mid_x. destruct (Nat.leb_spec r j), (Nat.ltb_spec j s); try lia; reflexivity.
    - unfold cret. f_equal. symmetry. apply flat_map_nil. intros i _. apply levs_trivial. intros j _. split; [|reflexivity].
      unfold mid_x. destruct (Nat.leb_spec r j), (Nat.ltb_spec j s); try lia; reflexivity. }
  rewrite E2. clear E2. cbn [cbind].
  rewrite (cfor_ok _ _ (stage_events n f)).
  2:{ intros i Hi. apply in_seq in Hi. destruct (okm_row n s _ i OF ltac:(lia)) as [Lrow Brow]. destruct (okm_spec n s _ OF) as (LF & _).
      rewrite py_get_seq0 by (unfold s in *; lia). cbn [lift cbind send]. rewrite (py_get_nat _ _ []) by (rewrite LF; lia). cbn [lift cbind].
      rewrite (to_str_row n _ Lrow Brow). cbn [lift cbind]. rewrite enc_letters_cmd by exact Brow. reflexivity. }
  reflexivity.
Qed.

Notation encode := (encode h im n c).
Lemma encode_enc st : length st = k -> binary st -> eqs n (encode st) (enc h n k s r f (mbit st)).
Proof.
  intros L B. destruct struct_f as (Hk & Hr & OF & U & Lx & V & Cm & Zs). unfold encode. rewrite encoding_events by assumption.
  apply enc_circuit; try assumption; reflexivity.
Qed.

Section Even.
Hypothesis HE : Forall (fun row => Nat.even (y_count n row) = true) (zd (stab c)).
Hypothesis HC : qubit_constants h im.

Lemma mats_of M m : okm n m M -> (1 <= n)%nat -> exists Ss, binary_rep_to_pauli_mat (K := K) M = Ok Ss /\
  Forall2 (fun row S => mr S = (2 ^ n)%nat /\ mc S = (2 ^ n)%nat /\ is_pauli n (me S) row) (zd M) Ss.
Proof.
  intros O Hn. destruct (okm_spec n m M O) as (L & W & B). destruct O as (_ & Z & Zc & _). unfold binary_rep_to_pauli_mat. rewrite Zc, CodesProofs.div2_double.
  apply rowmats; assumption.
Qed.
Lemma n_pos : (1 <= n)%nat. Proof. destruct HV as (A & B & _). lia. Qed.

Theorem encoding_ok st : length st = k -> binary st ->
  snd (encoding_circuit c (seq O n) st) = Ok tt /\ inner n (encode st) (encode st) = 1 /\
  (exists Ss, binary_rep_to_pauli_mat (normal_form c) = Ok Ss /\ length Ss = (n - k)%nat /\ forall S, In S Ss -> matrix_fixes n (me S) (encode st)) /\
  (forall st', length st' = k -> binary st' -> st' <> st -> inner n (encode st) (encode st') = 0).
Proof.
  intros L B. destruct struct_f as (Hk & Hr & OF & U & Lx & V & Cm & Zs). destruct HC as (C1 & C2 & C3 & C4).
  pose proof (encode_enc st L B) as E. split; [rewrite encoding_events by assumption; reflexivity|]. split; [|split].
  - rewrite (inner_ext n _ _ _ _ E E). apply (enc_unit h im n k s r f); (assumption || reflexivity).
  - destruct (mats_of (normal_form c) s OF n_pos) as (Ss & ES & F). exists Ss. split; [exact ES|]. split.
    { rewrite <- (Forall2_length F). destruct (okm_spec n s _ OF) as (LF & _). exact LF. }
    intros S HS. apply (In_nth _ _ (MA 0 0 (fun _ _ => 0))) in HS. destruct HS as (i & Hi & <-).
    assert (Hi' : i < s). { rewrite <- (Forall2_length F) in Hi. destruct (okm_spec n s _ OF) as (LF & _). lia. }
    assert (P : is_pauli n (me (nth i Ss (MA 0 0 (fun _ _ => 0)))) (nth i (zd (normal_form c)) [])).
    { clear - F Hi. revert i Hi. induction F as [|row S l l' Q F IH]; intros i Hi; [simpl in Hi; lia|]. destruct i; [apply Q|]. apply IH. simpl in Hi; lia. }
    apply (fixes_prow n _ _ _ P).
    apply (eqs_trans n _ (prow n (f i) (enc h n k s r f (mbit st)))); [apply prow_eqs; exact E|].
    apply (eqs_trans n _ (enc h n k s r f (mbit st))); [|apply eqs_sym, E].
    apply (enc_stabilized h n k s r f); try (assumption || reflexivity). apply even_f, HE.
  - intros st' L' B' N. rewrite (inner_ext n _ _ _ _ E (encode_enc st' L' B')).
    assert (X : exists i, i < k /\ mbit st i <> mbit st' i).
    { destruct (bits_neq (message st) (message st')) as (j & Hj & D).
      - unfold message. rewrite !map_length. congruence.
      - intros Eq. apply N. symmetry. apply message_inj; (assumption || congruence).
      - unfold message in Hj. rewrite map_length in Hj. exists j. split; [lia|]. rewrite !getb_message in D. exact D. }
    destruct X as (i & Hi & D). apply (enc_orth h im n k s r f) with (i := i); (assumption || reflexivity).
Qed.
End Even.

(** ** logical operators *)
Lemma prow_ext (u w : nat -> bool) psi : (forall j, j < 2 * n -> u j = w j) -> forall y, prow n u psi y = prow n w psi y.
Proof. intros H y. apply pact_ext. intros j Hj. rewrite !H by lia. auto. Qed.
Lemma paulis_exec outs row psi : eqs n (exec outs (levs [] (brow row) (zpart n (brow row)) (seq O n)) psi) (prow n (brow row) psi).
Proof. intros y Hy. rewrite exec_paulis by (first [lia|intros ? []]). reflexivity. Qed.

Lemma py_int_digit i : i < 10 -> py_int (digit i) = Ok i.
Proof. intros H. do 10 (destruct i as [|i]; [reflexivity|]). lia. Qed.
Lemma flip_mbit i st j : binary st -> j < length st -> mbit (flip_bit i st) j = flip (mbit st) i j.
Proof.
  intros B Hj. unfold mbit, flip_bit, flip. rewrite (nth_map_seq (fun j => if Nat.eqb j i then (1 - nth j st 0)%Z else nth j st 0%Z)) by exact Hj.
  rewrite (Nat.eqb_sym i j). destruct (Nat.eqb j i).
  - unfold mbit. destruct (binary_nth st j B) as [-> | ->]; reflexivity.
  - rewrite xorb_false_r. reflexivity.
Qed.
Lemma flip_ok i st : length st = k -> binary st -> length (flip_bit i st) = k /\ binary (flip_bit i st).
Proof.
  intros L B. unfold flip_bit. rewrite map_length, seq_length. split; [exact L|]. apply Forall_map, Forall_forall. intros j _.
  destruct (Nat.eqb j i), (binary_nth st j B) as [-> | ->]; auto.
Qed.

Lemma logical_x_events i : i < k -> i < 10 ->
  logical_circuit c (seq O n) ["X"%char; digit i] = (levs [] (brow (nth i (zd (logical_x c)) [])) (zpart n (brow (nth i (zd (logical_x c)) []))) (seq O n), Ok tt).
Proof.
  intros Hi H10. destruct code_dims as [Ec Ek]. destruct logical_f as (OX & _). destruct (okm_row n k _ i OX Hi) as [L B]. destruct (okm_spec n k _ OX) as (LX & _).
  unfold logical_circuit. cbn [length Nat.eqb assert_ lift cbind nth existsb Ascii.eqb Bool.eqb orb app].
  rewrite py_int_digit by exact H10. cbn [lift cbind app]. rewrite Ek. destruct (Nat.ltb_spec i k); [|lia]. cbn [assert_ lift cbind app].
  rewrite (py_get_nat _ _ []) by lia. cbn [lift cbind app]. rewrite (to_str_row n _ L B). cbn [lift cbind app]. rewrite letters_cmd by (assumption || lia). reflexivity.
Qed.
Lemma logical_z_events i : i < k -> i < 10 ->
  logical_circuit c (seq O n) ["Z"%char; digit i] = (levs [] (brow (nth i (zd (logical_z c)) [])) (zpart n (brow (nth i (zd (logical_z c)) []))) (seq O n), Ok tt).
Proof.
  intros Hi H10. destruct code_dims as [Ec Ek]. destruct logical_f as (_ & OX & _). destruct (okm_row n k _ i OX Hi) as [L B]. destruct (okm_spec n k _ OX) as (LX & _).
  unfold logical_circuit. cbn [length Nat.eqb assert_ lift cbind nth existsb Ascii.eqb Bool.eqb orb app].
  rewrite py_int_digit by exact H10. cbn [lift cbind app]. rewrite Ek. destruct (Nat.ltb_spec i k); [|lia]. cbn [assert_ lift cbind app].
  rewrite (py_get_nat _ _ []) by lia. cbn [lift cbind app]. rewrite (to_str_row n _ L B). cbn [lift cbind app]. rewrite letters_cmd by (assumption || lia). reflexivity.
Qed.
Definition yrow (i : nat) : list Z := map (fun ab => (fst ab + snd ab) mod 2)%Z (combine (nth i (zd (logical_z c)) []) (nth i (zd (logical_x c)) [])).
Lemma yrow_ok i : i < k -> length (yrow i) = (2 * n)%nat /\ binary (yrow i) /\
  forall j, j < 2 * n -> brow (yrow i) j = xorb (brow (nth i (zd (logical_z c)) []) j) (brow (nth i (zd (logical_x c)) []) j).
Proof.
  intros Hi. destruct logical_f as (OX & OZ & _). destruct (okm_row n k _ i OX Hi) as [L1 B1]. destruct (okm_row n k _ i OZ Hi) as [L2 B2].
  assert (L : length (yrow i) = (2 * n)%nat) by (unfold yrow; rewrite map_length, combine_length; lia).
  split; [exact L|]. split.
  - apply Forall_map, Forall_forall. intros ab _. pose proof (Z.mod_pos_bound (fst ab + snd ab) 2 ltac:(lia)). lia.
  - intros j Hj. pose proof (map_nth (fun ab => (fst ab + snd ab) mod 2)%Z (combine (nth i (zd (logical_z c)) []) (nth i (zd (logical_x c)) [])) (0, 0)%Z j : nth j (yrow i) 0%Z = _) as E.
    rewrite combine_nth in E by lia. cbn [fst snd] in E. unfold brow. rewrite E. destruct (binary_nth _ j B1) as [-> | ->], (binary_nth _ j B2) as [-> | ->]; reflexivity.
Qed.
Lemma logical_y_events i : i < k -> i < 10 ->
  logical_circuit c (seq O n) ["Y"%char; digit i] = (levs [] (brow (yrow i)) (zpart n (brow (yrow i))) (seq O n), Ok tt).
Proof.
  intros Hi H10. destruct code_dims as [Ec Ek]. destruct logical_f as (OX & OZ & _). destruct (yrow_ok i Hi) as (L & B & _).
  destruct (okm_spec n k _ OX) as (LX & _). destruct (okm_spec n k _ OZ) as (LZ & _).
  unfold logical_circuit. cbn [length Nat.eqb assert_ lift cbind nth existsb Ascii.eqb Bool.eqb orb app].
  rewrite py_int_digit by exact H10. cbn [lift cbind app]. rewrite Ek. destruct (Nat.ltb_spec i k); [|lia]. cbn [assert_ lift cbind app].
  rewrite !(py_get_nat _ _ []) by lia. cbn [lift cbind app cret]. fold (yrow i). rewrite (to_str_row n _ L B). cbn [lift cbind app]. rewrite letters_cmd by (assumption || lia). reflexivity.
Qed.

Theorem logical_x_ok i st : i < k -> i < 10 -> length st = k -> binary st ->
  eqs n (exec [] (fst (logical_circuit c (seq O n) ["X"%char; digit i])) (encode st)) (encode (flip_bit i st)).
Proof.
  intros Hi H10 L B. destruct struct_f as (Hk & Hr & OF & U & Lx & V & Cm & Zs). destruct logical_f as (OX & OZ & EX & EZ).
  rewrite logical_x_events by assumption. cbn [fst]. destruct (flip_ok i st L B) as [L' B'].
  apply (eqs_trans n _ _ _ (paulis_exec [] _ _)).
  apply (eqs_trans n _ (prow n (fx n s r f i) (enc h n k s r f (mbit st)))).
  { intros y Hy. rewrite (prow_ext _ (fx n s r f i)) by (intros j Hj; rewrite brow_zd; apply EX; assumption).
    apply (prow_eqs n). apply encode_enc; assumption. exact Hy. }
  apply (eqs_trans n _ (enc h n k s r f (flip (mbit st) i))); [apply (enc_fx h n k s r f); (assumption || reflexivity)|].
  apply eqs_sym. apply (eqs_trans n _ _ _ (encode_enc _ L' B')). intros y _.
  rewrite (enc_ext h n k s r f) with (b' := flip (mbit st) i); try (assumption || reflexivity). intros j Hj. apply flip_mbit; [exact B|lia].
Qed.
Theorem logical_z_ok i st : i < k -> i < 10 -> length st = k -> binary st ->
  eqs n (exec [] (fst (logical_circuit c (seq O n) ["Z"%char; digit i])) (encode st)) (sscale (sgn (mbit st i)) (encode st)).
Proof.
  intros Hi H10 L B. destruct struct_f as (Hk & Hr & OF & U & Lx & V & Cm & Zs). destruct logical_f as (OX & OZ & EX & EZ).
  rewrite logical_z_events by assumption. cbn [fst].
  apply (eqs_trans n _ _ _ (paulis_exec [] _ _)).
  apply (eqs_trans n _ (prow n (fz n s r f i) (enc h n k s r f (mbit st)))).
  { intros y Hy. rewrite (prow_ext _ (fz n s r f i)) by (intros j Hj; rewrite brow_zd; apply EZ; assumption).
    apply (prow_eqs n). apply encode_enc; assumption. exact Hy. }
  apply (eqs_trans n _ (sscale (sgn (mbit st i)) (enc h n k s r f (mbit st)))); [apply (enc_fz h n k s r f); (assumption || reflexivity)|].
  intros y Hy. unfold sscale. rewrite (encode_enc st L B y Hy). reflexivity.
Qed.
Theorem logical_y_ok i psi : i < k -> i < 10 ->
  eqs n (exec [] (fst (logical_circuit c (seq O n) ["Y"%char; digit i])) psi)
        (exec [] (fst (logical_circuit c (seq O n) ["X"%char; digit i])) (exec [] (fst (logical_circuit c (seq O n) ["Z"%char; digit i])) psi)).
Proof.
  intros Hi H10. destruct struct_f as (Hk & Hr & OF & U & Lx & V & Cm & Zs). destruct logical_f as (OX & OZ & EX & EZ). destruct (yrow_ok i Hi) as (_ & _ & Ey).
  rewrite logical_x_events, logical_y_events, logical_z_events by assumption. cbn [fst].
  set (lx := nth i (zd (logical_x c)) []) in *. set (lz := nth i (zd (logical_z c)) []) in *.
  apply (eqs_trans n _ _ _ (paulis_exec [] _ _)). apply eqs_sym. apply (eqs_trans n _ _ _ (paulis_exec [] _ _)).
  apply (eqs_trans n _ (prow n (brow lx) (prow n (brow lz) psi))); [apply (prow_eqs n), paulis_exec|].
  intros y Hy. unfold prow. rewrite (pact_mul n n) by (lia || exact Hy). unfold sscale.
  replace (xsum n (fun j => brow lx (n + j)%nat && brow lz j)) with false.
  - cbn [sgn]. rewrite (pact_ext n _ _ (brow (yrow i)) (fun j => brow (yrow i) (n + j)%nat)); [ring|]. intros j Hj. rewrite !Ey by lia. split; apply xorb_comm.
  - symmetry. apply xsum_zero. intros j Hj. unfold lz. rewrite (brow_zd (logical_z c)), EZ by lia.
    rewrite (Logical.fz_x n k s r eq_refl Hk Hr f i j Hj). apply andb_false_r.
Qed.

(** ** decoding *)
Definition dec_events : list event :=
  flat_map (fun i => cnots n (fun j => fz n s r f i (n + j)%nat) (n + i)%nat) (seq O k) ++
  flat_map (fun i => levs [(n + i)%nat] (fx n s r f i) (zpart n (fx n s r f i)) (seq O n)) (seq O k).
Lemma dec_gate : forallb gate_only dec_events = true.
Proof. unfold dec_events. rewrite forallb_app, !forallb_flat_map; [reflexivity| |]; intros; [apply levs_gate|apply cnots_gate]. Qed.

Lemma dec_body q anc : n <= q -> (forall i, i < k -> py_get anc (Z.of_nat i) = Ok (n + i)%nat) ->
  (run _ <- cfor (seq 0 k) (fun i =>
             run lz <- lift (py_get (zd (logical_z c)) (Z.of_nat i));
             cfor (enumerate (skipn n lz)) (fun jb =>
               let '(j, b) := jb in
               if Z.eqb b 1
               then run q <- lift (py_get (seq 0 q) (Z.of_nat j)); run a <- lift (py_get anc (Z.of_nat i)); send (Gate [q] GX a)
               else cret tt));
   cfor (seq 0 k) (fun i =>
             run lx <- lift (py_get (zd (logical_x c)) (Z.of_nat i));
             run a <- lift (py_get anc (Z.of_nat i));
             run pauli <- lift (binary_rep_to_pauli_str lx);
             cfor (enumerate pauli) (pauli_letter_cmd [a] (seq 0 q)))) = (dec_events, Ok tt).
Proof.
  intros Hq HA. destruct struct_f as (Hk & Hr & OF & U & Lx & V & Cm & Zs). destruct logical_f as (OX & OZ & EX & EZ).
  destruct (okm_spec n k _ OX) as (LX & _). destruct (okm_spec n k _ OZ) as (LZ & _).
  rewrite (cfor_ok (seq 0 k) _ (fun i => cnots n (fun j => fz n s r f i (n + j)%nat) (n + i)%nat)).
  2:{ intros i Hi. apply in_seq in Hi. destruct (okm_row n k _ i OZ ltac:(lia)) as [L B].
      rewrite (py_get_nat _ _ []) by lia. cbn [lift cbind app]. rewrite (skipn_tab _ 0%Z n n) by lia. rewrite enumerate_tab, cfor_map.
      rewrite (cfor_ok _ _ (fun j => if fz n s r f i (n + j)%nat then [Gate [j] GX (n + i)%nat] else [])); [reflexivity|].
      intros j Hj. apply in_seq in Hj. rewrite <- EZ by lia. change (bz (logical_z c) i (n + j)) with (Z.odd (nth (n + j) (nth i (zd (logical_z c)) []) 0%Z)).
      destruct (binary_nth _ (n + j) B) as [-> | ->]; cbn [Z.eqb Pos.eqb Z.odd]; [reflexivity|].
      rewrite py_get_seq0 by lia. cbn [lift cbind]. rewrite HA by lia. reflexivity. }
  cbn [cbind].
  rewrite (cfor_ok (seq 0 k) _ (fun i => levs [(n + i)%nat] (fx n s r f i) (zpart n (fx n s r f i)) (seq O n))).
  2:{ intros i Hi. apply in_seq in Hi. destruct (okm_row n k _ i OX ltac:(lia)) as [L B].
      rewrite (py_get_nat _ _ []) by lia. cbn [lift cbind app]. rewrite HA by lia. cbn [lift cbind app]. rewrite (to_str_row n _ L B). cbn [lift cbind app].
      rewrite letters_cmd by assumption. cbn. rewrite app_nil_r || idtac. f_equal. apply levs_ext. intros j Hj. apply in_seq in Hj. unfold zpart. rewrite !brow_zd, !EX by lia. auto. }
  reflexivity.
Qed.
End Code.
