(** The circuits of the model as Pauli events; matrices acting on states. *)
From Verif Require Import Py ZMat CodesModel CodesSpec BoolLin Rank Gauss Gauss2 CodesProofs CodesProofs2 Logical
  Scalar PauliModel PauliSpec PauliProofs PauliProofs2 CircuitModel CircuitSpec CircuitProofs EncodeProofs.
Open Scope nat_scope.

(** ** the command monad *)
Lemma cfor_ok {A} (l : list A) (f : A -> circ unit) (g : A -> list event) :
  (forall x, In x l -> f x = (g x, Ok tt)) -> cfor l f = (flat_map g l, Ok tt).
Proof.
  induction l as [|x l IH]; intros H; [reflexivity|]. cbn [cfor flat_map]. rewrite H by (left; reflexivity).
  cbn [cbind]. rewrite IH by (intros; apply H; right; assumption). reflexivity.
Qed.
Lemma cfor_map {A B} (h : A -> B) (l : list A) f : cfor (map h l) f = cfor l (fun x => f (h x)).
Proof. induction l as [|x l IH]; [reflexivity|]. cbn [map cfor]. rewrite IH. reflexivity. Qed.
Lemma combine_seq {A} (f : nat -> A) m a : combine (seq a m) (map f (seq a m)) = map (fun j => (j, f j)) (seq a m).
Proof. revert a; induction m as [|m IH]; intros a; [reflexivity|]. cbn. rewrite IH. reflexivity. Qed.
Lemma enumerate_tab {A} (f : nat -> A) m : enumerate (map f (seq 0 m)) = map (fun j => (j, f j)) (seq 0 m).
Proof. unfold enumerate. rewrite map_length, seq_length. apply combine_seq. Qed.
Lemma list_tab {A} (l : list A) d : l = map (fun j => nth j l d) (seq 0 (length l)).
Proof.
  apply (nth_ext _ _ d d); [rewrite map_length, seq_length; reflexivity|]. intros i Hi.
  rewrite (nth_map_seq (fun j => nth j l d)) by exact Hi. reflexivity.
Qed.
Lemma window_tab {A} (l : list A) d a m : a + m <= length l -> firstn m (skipn a l) = map (fun j => nth (a + j) l d) (seq 0 m).
Proof.
  intros H. rewrite (list_tab (firstn m (skipn a l)) d). rewrite firstn_length_le by (rewrite skipn_length; lia).
  apply map_ext_in. intros j Hj. apply in_seq in Hj. rewrite nth_firstn by lia. apply nth_skipn.
Qed.
Lemma skipn_tab {A} (l : list A) d a m : length l = a + m -> skipn a l = map (fun j => nth (a + j) l d) (seq 0 m).
Proof. intros H. rewrite <- window_tab by lia. rewrite firstn_all2; [reflexivity|rewrite skipn_length; lia]. Qed.
Lemma py_get_nat {A} (l : list A) i d : i < length l -> py_get l (Z.of_nat i) = Ok (nth i l d).
Proof.
  intros H. unfold py_get. destruct (Z.ltb_spec (Z.of_nat i) 0); [lia|]. destruct (Z.ltb_spec (Z.of_nat i) 0); [lia|].
  rewrite Nat2Z.id, (nth_error_nth' l d H). reflexivity.
Qed.
Lemma py_get_seq a q j : j < q -> py_get (seq a q) (Z.of_nat j) = Ok (a + j).
Proof. intros H. rewrite (py_get_nat _ _ 0) by (rewrite seq_length; exact H). rewrite seq_nth by exact H. reflexivity. Qed.
Lemma py_get_seq0 q j : j < q -> py_get (seq 0 q) (Z.of_nat j) = Ok j.
Proof. intros H. rewrite py_get_seq by exact H. reflexivity. Qed.
Lemma py_get_neg q i k : i < k -> k <= q -> py_get (seq 0 q) (Z.of_nat i - Z.of_nat k) = Ok (q - k + i).
Proof.
  intros H Hk. unfold py_get. rewrite seq_length. destruct (Z.ltb_spec (Z.of_nat i - Z.of_nat k) 0); [|lia].
  destruct (Z.ltb_spec (Z.of_nat i - Z.of_nat k + Z.of_nat q) 0); [lia|].
  replace (Z.to_nat (Z.of_nat i - Z.of_nat k + Z.of_nat q)) with (q - k + i) by lia.
  rewrite (nth_error_nth' _ 0) by (rewrite seq_length; lia). rewrite seq_nth by lia. reflexivity.
Qed.
Lemma qubitop_get_seq q j : j < q -> qubitop_get (seq 0 q) j = Ok j.
Proof. intros H. unfold qubitop_get. rewrite (nth_error_nth' _ 0) by (rewrite seq_length; exact H). rewrite seq_nth by exact H. reflexivity. Qed.
Lemma flat_map_ext_in {A B} (f g : A -> list B) l : (forall a, In a l -> f a = g a) -> flat_map f l = flat_map g l.
Proof. induction l as [|a l IH]; intros H; [reflexivity|]. cbn. rewrite H by (left; reflexivity). f_equal. apply IH. intros; apply H; right; assumption. Qed.
Lemma flat_map_nil {A B} (f : A -> list B) l : (forall a, In a l -> f a = []) -> flat_map f l = [].
Proof. induction l as [|a l IH]; intros H; [reflexivity|]. cbn. rewrite H by (left; reflexivity). apply IH. intros; apply H; right; assumption. Qed.
Lemma seq_shift_add a b m : seq (a + b) m = map (fun j => a + j) (seq b m).
Proof. revert b; induction m as [|m IH]; intros b; [reflexivity|]. cbn. rewrite <- IH. do 2 f_equal; lia. Qed.
Lemma flat_map_map {A B C} (g : A -> B) (f : B -> list C) l : flat_map f (map g l) = flat_map (fun x => f (g x)) l.
Proof. induction l as [|a l IH]; [reflexivity|]. cbn. rewrite IH. reflexivity. Qed.

(** ** letters of a row *)
Definition zpart (n : nat) (v : nat -> bool) : nat -> bool := fun j => v (n + j).
Lemma cchar_cases n row j : binary row ->
  (brow row j = true /\ brow row (n + j) = false /\ cchar (nth j row 0%Z) (nth (n + j) row 0%Z) = "X"%char) \/
  (brow row j = true /\ brow row (n + j) = true /\ cchar (nth j row 0%Z) (nth (n + j) row 0%Z) = "Y"%char) \/
  (brow row j = false /\ brow row (n + j) = true /\ cchar (nth j row 0%Z) (nth (n + j) row 0%Z) = "Z"%char) \/
  (brow row j = false /\ brow row (n + j) = false /\ cchar (nth j row 0%Z) (nth (n + j) row 0%Z) = "I"%char).
Proof.
  intros B. unfold brow. destruct (binary_nth row j B) as [-> | ->], (binary_nth row (n + j) B) as [-> | ->]; cbn; tauto.
Qed.
Lemma letters_cmd cs q n row : binary row -> n <= q ->
  cfor (enumerate (str_of n row)) (pauli_letter_cmd cs (seq 0 q)) = (levs cs (brow row) (zpart n (brow row)) (seq 0 n), Ok tt).
Proof.
  intros B Hq. unfold str_of. rewrite enumerate_tab, cfor_map. apply cfor_ok. intros j Hj. apply in_seq in Hj.
  unfold pauli_letter_cmd, zpart. destruct (cchar_cases n row j B) as [(E1 & E2 & ->)|[(E1 & E2 & ->)|[(E1 & E2 & ->)|(E1 & E2 & ->)]]];
    rewrite E1, E2; cbn; rewrite ?py_get_seq0, ?qubitop_get_seq by lia; reflexivity.
Qed.
Lemma enc_letters_cmd n row i : binary row ->
  cfor (enumerate (str_of n row)) (enc_letter (seq 0 n) i i) =
  (levs [i] (fun j => negb (Nat.eqb j i) && brow row j) (fun j => negb (Nat.eqb j i) && brow row (n + j)) (seq 0 n), Ok tt).
Proof.
  intros B. unfold str_of. rewrite enumerate_tab, cfor_map. apply cfor_ok. intros j Hj. apply in_seq in Hj.
  unfold enc_letter. destruct (Nat.eqb j i); [reflexivity|]. cbn [negb andb].
  destruct (cchar_cases n row j B) as [(E1 & E2 & ->)|[(E1 & E2 & ->)|[(E1 & E2 & ->)|(E1 & E2 & ->)]]];
    rewrite E1, E2; cbn; rewrite ?py_get_seq0, ?qubitop_get_seq by lia; reflexivity.
Qed.
Lemma apply_letters_cmd n row : binary row ->
  cfor (enumerate (str_of n row)) (fun jp => let '(j, p) := jp in
    if Ascii.eqb p "X" then run q <- lift (py_get (seq 0 n) (Z.of_nat j)); send (Gate [] GX q)
    else if Ascii.eqb p "Z" then run q <- lift (py_get (seq 0 n) (Z.of_nat j)); send (Gate [] GZ q)
    else if Ascii.eqb p "Y" then run q <- lift (qubitop_get (seq 0 n) j); send (Gate [] GY q)
    else cret tt) =
  (flat_map (fun j => match brow row j, brow row (n + j) with true, true => [Gate [] GY j] | x, z => lev [] x z j end) (seq 0 n), Ok tt).
Proof.
  intros B. unfold str_of. rewrite enumerate_tab, cfor_map. apply cfor_ok. intros j Hj. apply in_seq in Hj.
  destruct (cchar_cases n row j B) as [(E1 & E2 & ->)|[(E1 & E2 & ->)|[(E1 & E2 & ->)|(E1 & E2 & ->)]]];
    rewrite E1, E2; cbn; rewrite ?py_get_seq0, ?qubitop_get_seq by lia; reflexivity.
Qed.

(** ** matrices acting on states *)
Lemma bits_of_length n i : length (bits_of n i) = n.
Proof. induction n as [|n IH]; [reflexivity|]. cbn. rewrite IH. reflexivity. Qed.
Lemma getb_bits_of n i l : l < n -> getb (bits_of n i) l = Nat.testbit i (n - 1 - l).
Proof.
  revert l; induction n as [|n IH]; intros l Hl; [lia|]. destruct l as [|l]; cbn [bits_of]; unfold getb; cbn [nth].
  - f_equal. lia.
  - fold (getb (bits_of n i) l). rewrite IH by lia. f_equal. lia.
Qed.
Fixpoint idx (y : list bool) : nat := match y with [] => 0 | b :: r => (if b then 2 ^ length r else 0) + idx r end.
Lemma idx_lt y : idx y < 2 ^ length y.
Proof. induction y as [|b y IH]; cbn [idx length]; [simpl; lia|]. rewrite Nat.pow_succ_r'. destruct b; lia. Qed.
Lemma testbit_idx y : forall l, l < length y -> Nat.testbit (idx y) (length y - 1 - l) = getb y l.
Proof.
  induction y as [|b y IH]; intros l Hl; [simpl in Hl; lia|]. cbn [idx length] in *. pose proof (idx_lt y) as B.
  destruct l as [|l]; unfold getb; cbn [nth].
  - replace (S (length y) - 1 - 0) with (length y) by lia. rewrite Nat.testbit_odd, Nat.shiftr_div_pow2.
    destruct b.
    + replace ((2 ^ length y + idx y) / 2 ^ length y) with 1; [reflexivity|].
      apply (Nat.div_unique _ _ 1 (idx y)); [exact B|lia].
    + rewrite Nat.add_0_l, Nat.div_small by exact B. reflexivity.
  - fold (getb y l). rewrite <- IH by lia. replace (S (length y) - 1 - S l) with (length y - 1 - l) by lia.
    destruct b; [|reflexivity]. set (p := length y - 1 - l). assert (Hp : p < length y) by (unfold p; lia).
    rewrite !Nat.testbit_odd, !Nat.shiftr_div_pow2.
    replace (2 ^ length y + idx y) with (idx y + 2 ^ (length y - p) * 2 ^ p).
    2:{ rewrite <- Nat.pow_add_r. replace (length y - p + p) with (length y) by lia. lia. }
    rewrite Nat.div_add by (apply Nat.pow_nonzero; lia). rewrite Nat.odd_add.
    replace (length y - p) with (S (length y - p - 1)) by lia. rewrite Nat.pow_succ_r', Nat.odd_mul. cbn [Nat.odd]. 
    replace (Nat.odd 2) with false by reflexivity. rewrite andb_false_l. apply xorb_false_r.
Qed.
Lemma bits_of_idx y : bits_of (length y) (idx y) = y.
Proof.
  apply bits_eq; [apply bits_of_length|]. rewrite bits_of_length. intros j Hj. rewrite getb_bits_of by exact Hj. apply testbit_idx, Hj.
Qed.
Lemma testbit_high i m n : i < 2 ^ n -> n <= m -> Nat.testbit i m = false.
Proof.
  intros Hi Hm. rewrite Nat.testbit_odd, Nat.shiftr_div_pow2, Nat.div_small; [reflexivity|].
  apply (Nat.lt_le_trans _ _ _ Hi). apply Nat.pow_le_mono_r; lia.
Qed.
Lemma idx_bits_of n i : i < 2 ^ n -> idx (bits_of n i) = i.
Proof.
  intros Hi. apply Nat.bits_inj. intros m. pose proof (idx_lt (bits_of n i)) as B. rewrite bits_of_length in B.
  destruct (Nat.lt_ge_cases m n) as [L|L].
  - pose proof (testbit_idx (bits_of n i) (n - 1 - m)) as T. rewrite bits_of_length in T.
    replace (n - 1 - (n - 1 - m)) with m in T by lia. rewrite T by lia. rewrite getb_bits_of by lia. f_equal; lia.
  - rewrite !(testbit_high _ m n) by assumption. reflexivity.
Qed.

Section Act.
Context {K : StarRing}.
Add Ring KringA : (s_rt K).
Open Scope K_scope.
Implicit Types psi phi v : @state K.

Lemma pm_act n x z psi i : i < 2 ^ n ->
  bsum (2 ^ n) (fun l => pm n x z i l * psi (bits_of n l)) = pact n x z psi (bits_of n i).
Proof.
  intros Hi. set (y := bits_of n i). assert (Ly : length y = n) by apply bits_of_length.
  set (l0 := idx (xorv n x y)).
  assert (E0 : bits_of n l0 = xorv n x y). { unfold l0. rewrite <- (bits_of_idx (xorv n x y)) at 2. rewrite xorv_length, Ly. reflexivity. }
  assert (B0 : l0 < 2 ^ n). { unfold l0. rewrite <- Ly at 2. rewrite <- (xorv_length n x y). apply idx_lt. }
  rewrite (bsum_ext _ _ (fun l => if Nat.eqb l l0 then pact n x z psi y else 0)).
  - rewrite (bsum_delta (2 ^ n) l0 (fun _ => pact n x z psi y)) by exact B0. reflexivity.
  - intros l Hl. rewrite pm_entry. destruct (forallb _ _) eqn:E.
    + assert (El : l = l0).
      { rewrite <- (idx_bits_of n l Hl). unfold l0. f_equal. apply bits_eq; [rewrite xorv_length, bits_of_length; auto|]. rewrite bits_of_length. intros j Hj.
        rewrite forallb_forall in E. specialize (E j ltac:(apply in_seq; lia)). apply Bool.eqb_prop in E.
        rewrite getb_bits_of by exact Hj. rewrite getb_xorv_in by lia. unfold y. rewrite getb_bits_of by exact Hj. rewrite E.
        destruct (Nat.testbit l (n - 1 - j)), (x j); reflexivity. }
      subst l. rewrite Nat.eqb_refl. rewrite E0. unfold pact. 
      rewrite (xsum_ext n (fun l => z l && Nat.testbit l0 (n - 1 - l)) (fun j => z j && xorb (getb y j) (x j))); [ring|].
      intros j Hj. rewrite <- getb_bits_of by exact Hj. rewrite E0, getb_xorv_in by lia. reflexivity.
    + destruct (Nat.eqb_spec l l0) as [->|_]; [|ring]. exfalso. apply not_true_iff_false in E. apply E. apply forallb_forall. intros j Hj.
      apply in_seq in Hj. rewrite <- !getb_bits_of by lia. rewrite E0, getb_xorv_in by lia. fold y. destruct (getb y j), (x j); reflexivity.
Qed.
(** P = pm row on all entries *)
Definition is_pauli (n : nat) (A : array K) (row : list Z) : Prop := eqm (2 ^ n) (2 ^ n) A (pm n (xp row) (zp n row)).
Lemma maps_prow n A row psi phi : is_pauli n A row -> (matrix_maps n A psi phi <-> eqs n (prow n (brow row) psi) phi).
Proof.
  intros HA. assert (E : forall i, i < 2 ^ n -> bsum (2 ^ n) (fun l => A i l * psi (bits_of n l)) = prow n (brow row) psi (bits_of n i)).
  { intros i Hi. rewrite (bsum_ext _ _ (fun l => pm n (xp row) (zp n row) i l * psi (bits_of n l))) by (intros l Hl; rewrite HA by assumption; reflexivity).
    apply pm_act, Hi. }
  split; intros H.
  - intros y Hy. assert (B : idx y < 2 ^ n) by (rewrite <- Hy; apply idx_lt). specialize (H _ B). rewrite (E _ B) in H.
    rewrite <- Hy, bits_of_idx in H. rewrite Hy in H. exact H.
  - intros i Hi. rewrite E by exact Hi. apply H, bits_of_length.
Qed.
Lemma fixes_prow n A row psi : is_pauli n A row -> (matrix_fixes n A psi <-> eqs n (prow n (brow row) psi) psi).
Proof. apply (maps_prow n A row psi psi). Qed.
End Act.
