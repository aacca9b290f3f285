(** Circuits of a code whose logical operators were supplied by the caller (C94). *)
From Verif Require Import Py ZMat CodesModel RankSpec CodesSpec BoolLin Rank Gauss Gauss2 CodesProofs CodesProofs2 Logical
  Scalar PauliModel PauliSpec PauliProofs PauliProofs2 CircuitModel CircuitSpec CircuitProofs EncodeProofs CircuitProofs2 CircuitProofs3 CircuitProofs4.
Open Scope nat_scope.

(** a matrix whose standard logical X operators have the block B *)
Definition carry (n s : nat) (B : nat -> nat -> bool) : nat -> nat -> bool := fun j q => B (q - n - s) j.
Lemma fx_carry n k s r B i j : s = n - k -> k <= n -> r <= s -> r <= j < s -> fx n s r (carry n s B) i j = B i j.
Proof.
  intros Es Hk Hr Hj. replace j with (r + (j - r)) by lia. rewrite (fx_mid n k s r Es Hk Hr) by lia. unfold carry. f_equal; lia.
Qed.

Section Enc.
Context {K : StarRing}.
Variables h im : K.
Add Ring KringU : (s_rt K).
Variables n k s r : nat.
Variables f B : nat -> nat -> bool.
Hypothesis Es : s = n - k.
Hypothesis Hk : k <= n.
Hypothesis Hr : r <= s.
Hypothesis U : unitx s r f.
Hypothesis Lx : lowx n s r f.
Hypothesis V : unitz n s r s f.
Hypothesis C : commuting n s f.
Hypothesis EY : forall i, i < s -> ypar n (f i) = false.
Implicit Types psi phi : @state K.
Notation f' := (carry n s B).
Notation exec := (exec h im).
Open Scope K_scope.

Definition encu (b : nat -> bool) : @state K := encs h n f r (ket (cw n k s r f' b)).
Definition encu_events (b : nat -> bool) : list event :=
  levs [] (msg_x s b) (fun _ => false) (seq O n) ++ flat_map (mid_events n s r f') (rev (seq O k)) ++ flat_map (stage_events n f) (seq O r).

Lemma low_support b i y : i < r -> length y = n -> getb y i = true -> ket (K := K) (cw n k s r f' b) y = 0.
Proof.
  intros Hi Hy E. unfold ket. destruct (list_eq_dec bool_dec y (cw n k s r f' b)) as [->|_]; [|reflexivity].
  rewrite getb_cw, (cwf_lo n k s r f' Es Hk Hr) in E by lia. discriminate.
Qed.
Theorem encu_circuit outs b : eqs n (exec outs (encu_events b) (zero_ket n)) (encu b).
Proof.
  unfold encu_events. rewrite exec_app by apply levs_gate. rewrite exec_app by (apply forallb_flat_map; intros; apply mid_gate).
  apply (eqs_trans n _ (exec outs (flat_map (stage_events n f) (seq O r)) (ket (cw n k s r f' b)))).
  - apply exec_eqs; [reflexivity|apply forallb_flat_map; intros; apply stage_gate|].
    apply (eqs_trans n _ (exec outs (flat_map (mid_events n s r f') (rev (seq O k))) (ket (cw1 n s b)))).
    + apply exec_eqs; [reflexivity|apply forallb_flat_map; intros; apply mid_gate|]. apply (stage1 h im n k s r Es Hk Hr).
    + rewrite <- (cw2_first n k s r f' Es Hk Hr), <- cw2_last. apply (stage2 h im n k s r f' Es Hk Hr). lia.
  - apply (stages h im n k s r f Es Hk Hr U); [lia|]. intros i y. apply low_support.
Qed.

(** the generators of the lower block act on the prepared state as signs *)
Lemma prow_low_u b i : r <= i < s ->
  eqs n (prow n (f i) (ket (K := K) (cw n k s r f' b))) (sscale (sgn (xorb (cwf n k s r f' b i) (cwf n k s r f b i))) (ket (cw n k s r f' b))).
Proof.
  intros Hi y Hy. unfold prow, sscale. rewrite pact_ket by (rewrite cw_length; (lia || exact Hy)).
  rewrite (xorv_ext n (f i) (fun _ => false)) by (intros j Hj; apply Lx; assumption). rewrite xorv_false. f_equal. f_equal.
  rewrite (xsum_ext n _ (fun j => f i (n + j)%nat && cwf n k s r f' b j)) by (intros j Hj; rewrite getb_cw by exact Hj; reflexivity).
  rewrite (Logical.xsum3 n k s r Es Hk Hr).
  rewrite (xsum_zero r) by (intros l Hl; rewrite (cwf_lo n k s r f' Es Hk Hr) by exact Hl; apply andb_false_r).
  rewrite (xsum_ext (s - r) _ (fun l => Nat.eqb l (i - r) && cwf n k s r f' b (r + l)%nat)).
  2:{ intros l Hl. rewrite V by lia. f_equal. destruct (Nat.eqb_spec i (r + l)), (Nat.eqb_spec l (i - r)); try reflexivity; lia. }
  rewrite xsum_delta by lia. replace (r + (i - r))%nat with i by lia. rewrite (cwf_mid n k s r f Es Hk Hr) by exact Hi.
  rewrite xorb_false_l. f_equal. apply xsum_ext. intros l Hl. rewrite (cwf_hi n k s r f' Es Hk Hr), andb_comm. f_equal.
  replace i with (r + (i - r))%nat at 2 by lia. rewrite (Logical.fx_mid n k s r Es Hk Hr) by lia. f_equal; lia.
Qed.
Theorem encu_low b i : r <= i < s -> eqs n (prow n (f i) (encu b)) (sscale (sgn (xorb (cwf n k s r f' b i) (cwf n k s r f b i))) (encu b)).
Proof.
  intros Hi. apply (eqs_trans n _ (encs h n f r (prow n (f i) (ket (cw n k s r f' b))))).
  - apply (encs_commute h n k s r f Es Hk Hr); [lia|]. intros j Hj. apply C; lia.
  - apply (eqs_trans n _ (encs h n f r (sscale (sgn (xorb (cwf n k s r f' b i) (cwf n k s r f b i))) (ket (cw n k s r f' b))))).
    + apply (encs_eqs h n), prow_low_u, Hi.
    + apply (encs_scale h n).
Qed.
Theorem encu_high b i : i < r -> eqs n (prow n (f i) (encu b)) (encu b).
Proof. intros Hi. apply (encs_fixed h n k s r f Es Hk Hr C EY); lia. Qed.

Hypothesis H2 : h * h + h * h = 1.
Hypothesis HH : h^* = h.
Hypothesis I2 : im * im = - (1).
Hypothesis IH : im^* = - im.
Lemma encu_inner b b' : inner n (encu b) (encu b') = inner n (ket (cw n k s r f' b)) (ket (cw n k s r f' b')).
Proof.
  set (tail_ev := flat_map (stage_events n f) (seq O r)).
  assert (P : Forall (proper n) tail_ev).
  { pose proof (enc_proper n k s r f Es Hk Hr b) as P. unfold enc_events in P. rewrite !Forall_app in P. apply P. }
  assert (E : forall b, eqs n (exec [] tail_ev (ket (cw n k s r f' b))) (encu b)).
  { intros b0. apply (stages h im n k s r f Es Hk Hr U); [lia|]. intros i y. apply low_support. }
  rewrite <- (inner_ext n _ _ _ _ (E b) (E b')). apply (inner_exec h im H2 HH I2 IH); exact P.
Qed.
Theorem encu_unit b : inner n (encu b) (encu b) = 1.
Proof. rewrite encu_inner, inner_ket by apply cw_length. unfold ket. destruct (list_eq_dec bool_dec (cw n k s r f' b) (cw n k s r f' b)); [reflexivity|congruence]. Qed.
Theorem encu_orth b b' i : i < k -> b i <> b' i -> inner n (encu b) (encu b') = 0.
Proof.
  intros Hi Ne. rewrite encu_inner, inner_ket by apply cw_length. unfold ket. destruct (list_eq_dec bool_dec (cw n k s r f' b) (cw n k s r f' b')) as [E|_]; [|reflexivity].
  exfalso. apply Ne. rewrite <- (cwf_hi n k s r f' Es Hk Hr b i), <- (cwf_hi n k s r f' Es Hk Hr b' i). rewrite <- !getb_cw by lia. rewrite E. reflexivity.
Qed.
End Enc.

Section Code.
Context {K : StarRing}.
Variables h im : K.
Add Ring KringU2 : (s_rt K).
Variables (n k : nat) (c : code).
Hypothesis Ec : cn c = n.
Hypothesis Ek : ck c = k.
Hypothesis OX : okm n k (logical_x c).
Implicit Types psi phi v : @state K.
Notation exec := (exec h im).
Let r := crank c.
Let s := n - k.
Let f := bz (normal_form c).
Let B := bz (logical_x c).

Lemma encoding_events_u st : k <= n -> r <= s -> okm n s (normal_form c) -> zr (stab c) = s -> length st = k -> binary st ->
  encoding_circuit c (seq O n) st = (encu_events n k s r f B (mbit st), Ok tt).
Proof.
  intros Hk Hr OF Zs Ls Bs.
  unfold encoding_circuit. rewrite Ec, Ek, Ls, seq_length, !Nat.eqb_refl. cbn [assert_ lift cbind].
  rewrite (cfor_ok (enumerate st) _ (fun ib => lev [] (Z.eqb (snd ib) 1) false (s + fst ib)%nat)).
  2:{ intros [i b] Hin. rewrite (list_tab st 0%Z), enumerate_tab in Hin. apply in_map_iff in Hin. destruct Hin as (j & E & Hj).
      injection E as -> E. apply in_seq in Hj. cbn [fst snd]. assert (Hb : (b = 0 \/ b = 1)%Z) by (rewrite <- E; apply binary_nth, Bs).
      destruct Hb as [-> | ->]; cbn [Z.eqb orb assert_ lift cbind Pos.eqb lev]; [reflexivity|].
      replace (Z.of_nat n - Z.of_nat k + Z.of_nat i)%Z with (Z.of_nat (s + i)) by (unfold s; lia).
      rewrite py_get_seq0 by (unfold s; lia). reflexivity. }
  cbn [cbind].
  assert (E1 : flat_map (fun ib : nat * Z => lev [] (Z.eqb (snd ib) 1) false (s + fst ib)%nat) (enumerate st) = levs [] (msg_x s (mbit st)) (fun _ => false) (seq O n)).
  { rewrite (list_tab st 0%Z) at 1. rewrite enumerate_tab, flat_map_map. cbn [fst snd]. rewrite Ls.
    rewrite <- (levs_window [] (msg_x s (mbit st)) (fun _ => false) s k n) by (first [unfold s; lia|intros j Hj [A|A]; [split; [unfold msg_x; destruct (Nat.leb_spec s j); [lia|reflexivity]|reflexivity]|unfold s in A; lia]]).
    unfold levs. replace (seq s k) with (seq (s + 0) k) by (f_equal; lia). rewrite seq_shift_add, flat_map_map. apply flat_map_ext_in. intros j Hj. f_equal.
    unfold msg_x, mbit. destruct (Nat.leb_spec s (s + j)); [|lia]. cbn [andb]. replace (s + j - s)%nat with j by lia. reflexivity. }
  rewrite E1. clear E1.
  match goal with |- context [if Nat.ltb (crank c) (numb_stab c) then ?X else ?Y] =>
    assert (E2 : (if Nat.ltb (crank c) (numb_stab c) then X else Y) = (flat_map (mid_events n s r (carry n s B)) (rev (seq O k)), Ok tt)) end.
  { unfold numb_stab. rewrite Zs. fold r s. destruct (Nat.ltb_spec r s) as [L|L].
    - apply cfor_ok. intros i Hi. apply in_rev in Hi. apply in_seq in Hi.
      destruct (okm_row n k _ i OX ltac:(lia)) as [Lrow Brow]. destruct (okm_spec n k _ OX) as (LX & _).
      rewrite (py_get_nat _ _ []) by (rewrite LX; lia). cbn [lift cbind]. rewrite py_get_neg by lia. fold s. cbn [lift cbind app].
      rewrite (window_tab _ 0%Z) by (rewrite Lrow; unfold s in *; lia). rewrite enumerate_tab, cfor_map.
      rewrite (cfor_ok _ _ (fun j => lev [(s + i)%nat] (mid_x n s r (carry n s B) i (r + j)) false (r + j))).
      2:{ intros j Hj. apply in_seq in Hj. unfold mid_x. destruct (Nat.leb_spec r (r + j)), (Nat.ltb_spec (r + j) s); try lia. cbn [andb].
          rewrite (fx_carry n k s r B) by (lia || reflexivity || assumption). unfold B. change (bz (logical_x c) i (r + j)) with (Z.odd (nth (r + j) (nth i (zd (logical_x c)) []) 0%Z)).
          destruct (binary_nth _ (r + j) Brow) as [-> | ->]; cbn [Z.eqb Pos.eqb Z.odd lev]; [reflexivity|].
          rewrite py_get_seq0 by (unfold s in *; lia). reflexivity. }
      f_equal. unfold mid_events. rewrite <- (levs_window _ _ _ r (s - r) n).
      + unfold levs. replace (seq r (s - r)) with (seq (r + 0) (s - r)) by (f_equal; lia). rewrite seq_shift_add, flat_map_map. reflexivity.
      + unfold s in *; lia.
      + intros j Hj A. split; [|reflexivity]. unfold mid_x. destruct (Nat.leb_spec r j), (Nat.ltb_spec j s); try lia; reflexivity.
    - unfold cret. f_equal. symmetry. apply flat_map_nil. intros i _. apply levs_trivial. intros j _. split; [|reflexivity].
      unfold mid_x. destruct (Nat.leb_spec r j), (Nat.ltb_spec j s); try lia; reflexivity. }
  rewrite E2. clear E2. cbn [cbind].
  rewrite (cfor_ok _ _ (stage_events n f)).
  2:{ intros i Hi. apply in_seq in Hi. destruct (okm_row n s _ i OF ltac:(lia)) as [Lrow Brow]. destruct (okm_spec n s _ OF) as (LF & _).
      rewrite py_get_seq0 by (unfold s in *; lia). cbn [lift cbind send]. rewrite (py_get_nat _ _ []) by (rewrite LF; lia). cbn [lift cbind].
      rewrite (to_str_row n _ Lrow Brow). cbn [lift cbind]. rewrite enc_letters_cmd by exact Brow. reflexivity. }
  reflexivity.
Qed.

(** ** logical circuits *)
Hypothesis OZ : okm n k (logical_z c).
Lemma user_x_events i : i < k -> i < 10 ->
  logical_circuit c (seq O n) ["X"%char; digit i] = (levs [] (brow (nth i (zd (logical_x c)) [])) (zpart n (brow (nth i (zd (logical_x c)) []))) (seq O n), Ok tt).
Proof.
  intros Hi H10. destruct (okm_row n k _ i OX Hi) as [L Bi]. destruct (okm_spec n k _ OX) as (LX & _).
  unfold logical_circuit. cbn [length Nat.eqb assert_ lift cbind nth existsb Ascii.eqb Bool.eqb orb app].
  rewrite (py_int_digit n k c) by exact H10. cbn [lift cbind app]. rewrite Ek. destruct (Nat.ltb_spec i k); [|lia]. cbn [assert_ lift cbind app].
  rewrite (py_get_nat _ _ []) by lia. cbn [lift cbind app]. rewrite (to_str_row n _ L Bi). cbn [lift cbind app]. rewrite letters_cmd by (assumption || lia). reflexivity.
Qed.
Lemma user_z_events i : i < k -> i < 10 ->
  logical_circuit c (seq O n) ["Z"%char; digit i] = (levs [] (brow (nth i (zd (logical_z c)) [])) (zpart n (brow (nth i (zd (logical_z c)) []))) (seq O n), Ok tt).
Proof.
  intros Hi H10. destruct (okm_row n k _ i OZ Hi) as [L Bi]. destruct (okm_spec n k _ OZ) as (LX & _).
  unfold logical_circuit. cbn [length Nat.eqb assert_ lift cbind nth existsb Ascii.eqb Bool.eqb orb app].
  rewrite (py_int_digit n k c) by exact H10. cbn [lift cbind app]. rewrite Ek. destruct (Nat.ltb_spec i k); [|lia]. cbn [assert_ lift cbind app].
  rewrite (py_get_nat _ _ []) by lia. cbn [lift cbind app]. rewrite (to_str_row n _ L Bi). cbn [lift cbind app]. rewrite letters_cmd by (assumption || lia). reflexivity.
Qed.
Lemma user_logical i M psi row : (1 <= n)%nat -> i < k -> i < 10 -> (M = logical_x c /\ row = "X"%char \/ M = logical_z c /\ row = "Z"%char) ->
  snd (logical_circuit c (seq O n) [row; digit i]) = Ok tt /\
  exists A : array K, binary_rep_to_pauli_mat (ZM 1 (2 * n) [nth i (zd M) []]) = Ok [MA (2 ^ n) (2 ^ n) A] /\
    matrix_maps n A psi (exec [] (fst (logical_circuit c (seq O n) [row; digit i])) psi).
Proof.
  intros Hn Hi H10 HM.
  assert (E : logical_circuit c (seq O n) [row; digit i] = (levs [] (brow (nth i (zd M) [])) (zpart n (brow (nth i (zd M) []))) (seq O n), Ok tt) /\ okm n k M).
  { destruct HM as [[-> ->]|[-> ->]]; [split; [apply user_x_events|]|split; [apply user_z_events|]]; assumption. }
  destruct E as [E OM]. rewrite E. split; [reflexivity|]. cbn [fst].
  destruct (okm_row n k M i OM Hi) as [L Bi].
  destruct (rowmats (K := K) n [nth i (zd M) []]) as (Ss & ES & F); [exact Hn|constructor; [exact L|constructor]|constructor; [exact Bi|constructor]|].
  destruct Ss as [|[a b A] Ss]; [inversion F|]. inversion F as [|? ? ? ? (R & C & P) F2 E1 E3]. assert (E2 : Ss = []) by (inversion F2; reflexivity). cbn in R, C, P.
  rewrite R, C, E2 in ES.
  exists A. split; [unfold binary_rep_to_pauli_mat; cbn [zc zd]; rewrite CodesProofs.div2_double; exact ES|]. apply (maps_prow n A _ _ _ P). apply eqs_sym. apply (paulis_exec h im n k c).
Qed.
End Code.

(** ** decoding: any family of states on which the supplied operators act as logical X and Z *)
Section Dec.
Context {K : StarRing}.
Variables h im : K.
Add Ring KringU3 : (s_rt K).
Variables (n k : nat) (lx lz : nat -> nat -> bool) (w : (nat -> bool) -> @state K).
Notation exec := (exec h im).
Open Scope K_scope.
Hypothesis WE : forall b b', (forall i, i < k -> b i = b' i) -> w b = w b'.
Hypothesis WX : forall b i, i < k -> eqs n (prow n (lx i) (w b)) (w (flip b i)).
Hypothesis WZ : forall b i y, i < k -> length y = n -> xsum n (fun j => lz i (n + j)%nat && getb y j) <> b i -> w b y = 0.
Definition decu_events : list event :=
  flat_map (fun i => cnots n (fun j => lz i (n + j)%nat) (n + i)%nat) (seq O k) ++
  flat_map (fun i => levs [(n + i)%nat] (lx i) (zpart n (lx i)) (seq O n)) (seq O k).
Lemma decu_gate : forallb gate_only decu_events = true.
Proof. unfold decu_events. rewrite forallb_app, !forallb_flat_map; [reflexivity| |]; intros; [apply levs_gate|apply cnots_gate]. Qed.
Lemma dec_gen outs b m : length m = k -> (forall i, i < k -> getb m i = b i) ->
  eqs (n + k) (exec outs decu_events (tensor n (w b) (repeat false k))) (tensor n (w (fun _ => false)) m).
Proof.
  intros Lm Hm. unfold decu_events. rewrite exec_app by (apply forallb_flat_map; intros; apply cnots_gate).
  set (L := fun i j => lz i (n + j)%nat).
  apply (eqs_trans _ _ (exec outs (flat_map (fun i => levs [(n + i)%nat] (lx i) (zpart n (lx i)) (seq O n)) (seq O k)) (tensor n (w b) m))).
  - apply exec_eqs; [reflexivity|apply forallb_flat_map; intros; apply levs_gate|]. intros y Hy. fold (L 0%nat).
    rewrite (exec_fan h im outs n k L) by lia. unfold tensor.
    assert (EF : firstn n (fan n k L y) = firstn n y).
    { apply bits_eq; [unfold fan; rewrite !firstn_length, tab_length; reflexivity|]. unfold fan. rewrite firstn_length, tab_length. intros j Hj.
      rewrite !getb_firstn by lia. rewrite getb_tab by lia. destruct (Nat.leb_spec n j); [lia|]. apply xorb_false_r. }
    assert (Ls : length (skipn n (fan n k L y)) = k) by (unfold fan; rewrite skipn_length, tab_length; lia).
    assert (Lf : length (firstn n y) = n) by (rewrite firstn_length; lia).
    assert (G : forall i, i < k -> getb (skipn n (fan n k L y)) i = xorb (getb y (n + i)) (xsum n (fun l => L i l && getb y l))).
    { intros i Hi. rewrite getb_skipn. unfold fan. rewrite getb_tab by lia. destruct (Nat.leb_spec n (n + i)), (Nat.ltb_spec (n + i) (n + k)); try lia.
      replace (n + i - n)%nat with i by lia. reflexivity. }
    assert (Z : forall i, i < k -> xsum n (fun l => L i l && getb y l) <> b i -> w b (firstn n y) = 0).
    { intros i Hi N. apply (WZ b i); [exact Hi|exact Lf|].
      intros E. apply N. rewrite <- E. apply xsum_ext; intros l Hl. rewrite getb_firstn by exact Hl. reflexivity. }
    rewrite EF. destruct (list_eq_dec bool_dec (skipn n (fan n k L y)) (repeat false k)) as [E|E], (list_eq_dec bool_dec (skipn n y) m) as [E'|E']; try reflexivity.
    + destruct (bits_neq (skipn n y) m) as (i & Hi & D); [rewrite skipn_length; lia|exact E'|]. rewrite skipn_length in Hi.
      apply (Z i); [lia|]. intros Q. apply D. rewrite getb_skipn, Hm by lia.
      pose proof (G i ltac:(lia)) as Gi. rewrite E in Gi. unfold getb at 1 in Gi. rewrite nth_repeat in Gi. rewrite Q in Gi.
      destruct (getb y (n + i)), (b i); (reflexivity || discriminate).
    + destruct (bits_neq (skipn n (fan n k L y)) (repeat false k)) as (i & Hi & D); [rewrite repeat_length; exact Ls|exact E|]. rewrite Ls in Hi.
      symmetry. apply (Z i); [lia|]. intros Q. apply D. rewrite G by exact Hi. rewrite Q, <- getb_skipn, E', Hm by exact Hi.
      unfold getb. rewrite nth_repeat. apply xorb_nilpotent.
  - set (clr := fun (p i : nat) => Nat.leb p i && b i).
    assert (P : forall p, p <= k -> eqs (n + k) (exec outs (flat_map (fun i => levs [(n + i)%nat] (lx i) (zpart n (lx i)) (seq O n)) (seq O p)) (tensor n (w b) m))
                                     (tensor n (w (clr p)) m)).
    { induction p as [|p IH]; intros Hp.
      { cbn [seq flat_map CircuitSpec.exec]. rewrite (WE (clr O) b) by reflexivity. apply eqs_refl. }
      rewrite seq_S, flat_map_app. cbn [flat_map Nat.add]. rewrite app_nil_r.
      rewrite exec_app by (apply forallb_flat_map; intros; apply levs_gate).
      apply (eqs_trans _ _ (exec outs (levs [(n + p)%nat] (lx p) (zpart n (lx p)) (seq O n)) (tensor n (w (clr p)) m))).
      { apply exec_eqs; [reflexivity|apply levs_gate|apply IH; lia]. }
      rewrite <- Lm at 1. apply (eqs_trans _ _ _ _ (ctl_tensor h im outs n _ _ _ m p ltac:(lia))). rewrite Hm by lia.
      apply tensor_eqs. destruct (b p) eqn:Eb.
      - apply (eqs_trans n _ (w (flip (clr p) p))); [apply WX; lia|].
        intros y _. rewrite (WE _ (clr (S p))); [reflexivity|]. intros j Hj. unfold flip, clr.
        destruct (Nat.eqb_spec p j) as [Ej|Ne].
        + rewrite <- Ej, Eb. destruct (Nat.leb_spec p p), (Nat.leb_spec (S p) p); try lia; reflexivity.
        + rewrite xorb_false_r. destruct (Nat.leb_spec p j), (Nat.leb_spec (S p) j); try lia; reflexivity.
      - intros y _. rewrite (WE _ (clr (S p))); [reflexivity|]. intros j Hj. unfold clr.
        destruct (Nat.leb_spec p j), (Nat.leb_spec (S p) j); try lia; try reflexivity. replace j with p by lia. rewrite Eb. reflexivity. }
    apply (eqs_trans _ _ _ _ (P k (le_n k))). rewrite <- Lm at 1. apply tensor_eqs. intros y _.
    rewrite (WE _ (fun _ => false)); [reflexivity|]. intros j Hj. unfold clr. destruct (Nat.leb_spec k j); [lia|reflexivity].
Qed.
End Dec.

Section DecCode.
Context {K : StarRing}.
Variables h im : K.
Add Ring KringU4 : (s_rt K).
Variables (n k : nat) (c : code).
Hypothesis Ec : cn c = n.
Hypothesis Ek : ck c = k.
Hypothesis OX : okm n k (logical_x c).
Hypothesis OZ : okm n k (logical_z c).
Notation exec := (exec h im).
Notation evs := (decu_events n k (bz (logical_x c)) (bz (logical_z c))).
Lemma decu_body q anc : n <= q -> (forall i, i < k -> py_get anc (Z.of_nat i) = Ok (n + i)%nat) ->
  (run _ <- cfor (seq 0 k) (fun i =>
             run lz <- lift (py_get (zd (logical_z c)) (Z.of_nat i));
             cfor (enumerate (skipn n lz)) (fun jb =>
               let '(j, b) := jb in
               if Z.eqb b 1
               then run q <- lift (py_get (seq 0 q) (Z.of_nat j)); run a <- lift (py_get anc (Z.of_nat i)); send (Gate [q] GX a)
               else cret tt));
   cfor (seq 0 k) (fun i =>
             run lx <- lift (py_get (zd (logical_x c)) (Z.of_nat i));
             run a <- lift (py_get anc (Z.of_nat i));
             run pauli <- lift (binary_rep_to_pauli_str lx);
             cfor (enumerate pauli) (pauli_letter_cmd [a] (seq 0 q)))) = (evs, Ok tt).
Proof.
  intros Hq HA. destruct (okm_spec n k _ OX) as (LX & _). destruct (okm_spec n k _ OZ) as (LZ & _).
  rewrite (cfor_ok (seq 0 k) _ (fun i => cnots n (fun j => bz (logical_z c) i (n + j)%nat) (n + i)%nat)).
  2:{ intros i Hi. apply in_seq in Hi. destruct (okm_row n k _ i OZ ltac:(lia)) as [L B].
      rewrite (py_get_nat _ _ []) by lia. cbn [lift cbind app]. rewrite (skipn_tab _ 0%Z n n) by lia. rewrite enumerate_tab, cfor_map.
      rewrite (cfor_ok _ _ (fun j => if bz (logical_z c) i (n + j)%nat then [Gate [j] GX (n + i)%nat] else [])); [reflexivity|].
      intros j Hj. apply in_seq in Hj. change (bz (logical_z c) i (n + j)) with (Z.odd (nth (n + j) (nth i (zd (logical_z c)) []) 0%Z)).
      destruct (binary_nth _ (n + j) B) as [-> | ->]; cbn [Z.eqb Pos.eqb Z.odd]; [reflexivity|].
      rewrite py_get_seq0 by lia. cbn [lift cbind]. rewrite HA by lia. reflexivity. }
  cbn [cbind].
  rewrite (cfor_ok (seq 0 k) _ (fun i => levs [(n + i)%nat] (bz (logical_x c) i) (zpart n (bz (logical_x c) i)) (seq O n))).
  2:{ intros i Hi. apply in_seq in Hi. destruct (okm_row n k _ i OX ltac:(lia)) as [L B].
      rewrite (py_get_nat _ _ []) by lia. cbn [lift cbind app]. rewrite HA by lia. cbn [lift cbind app]. rewrite (to_str_row n _ L B). cbn [lift cbind app].
      rewrite letters_cmd by assumption. cbn. rewrite app_nil_r || idtac. f_equal. }
  reflexivity.
Qed.
Lemma user_with_ancillas (deal : bool) : decoding_circuit c (n + k) (seq O (n + k)) false deal =
  (evs ++ (if deal then map Measure (seq O n) ++ map Dealloc (seq O n) else []), Ok (if deal then seq n k else seq O (n + k) ++ seq n k)).
Proof.
  unfold decoding_circuit. rewrite Ec, Ek.
  assert (SK : skipn n (seq O (n + k)) = seq n k).
  { rewrite seq_app, skipn_app, seq_length, Nat.sub_diag, skipn_all2 by (rewrite seq_length; lia). reflexivity. }
  assert (FI : firstn n (seq O (n + k)) = seq O n).
  { rewrite seq_app, firstn_app, seq_length, Nat.sub_diag, firstn_all2 by (rewrite seq_length; lia). cbn. apply app_nil_r. }
  cbv beta iota. rewrite cbind_ret, SK, FI.
  rewrite <- (cbind_assoc (cfor _ _) (fun _ => cfor _ _)).
  rewrite (decu_body (n + k) (seq n k)); [|lia|intros i Hi; apply py_get_seq, Hi].
  destruct deal.
  - rewrite cbind_ok, !cfor_send, !cbind_ok. cbn [cret fst snd]. rewrite app_nil_r. reflexivity.
  - rewrite cbind_ok. reflexivity.
Qed.
Lemma user_add_ancillas (deal : bool) : decoding_circuit c n (seq O n) true deal =
  (map Alloc (seq n k) ++ evs ++ (if deal then map Measure (seq O n) else []), Ok (if deal then seq n k else seq O (n + k))).
Proof.
  unfold decoding_circuit. rewrite Ec, Ek.
  cbv beta iota. rewrite cfor_send, cbind_ok. cbn [cret fst snd]. rewrite cbind_ok, app_nil_r.
  rewrite <- (cbind_assoc (cfor _ _) (fun _ => cfor _ _)).
  rewrite (decu_body n (seq n k)); [|lia|intros i Hi; apply py_get_seq, Hi].
  destruct deal.
  - rewrite cbind_ok, !cfor_send, !cbind_ok. cbn [cret fst snd]. rewrite app_nil_r. reflexivity.
  - rewrite cbind_ok. cbn [cret fst snd]. rewrite seq_app. reflexivity.
Qed.
End DecCode.
