(** Decoding, syndrome measurement and stabilizer application (C17-C20). *)
From Verif Require Import Py ZMat CodesModel RankSpec CodesSpec BoolLin Rank Gauss Gauss2 CodesProofs CodesProofs2 Logical
  Scalar PauliModel PauliSpec PauliProofs PauliProofs2 CircuitModel CircuitSpec CircuitProofs EncodeProofs CircuitProofs2 CircuitProofs3.
Open Scope nat_scope.

Section Dec.
Context {K : StarRing}.
Variables h im : K.
Add Ring KringD : (s_rt K).
Variables (g : gens) (n k : nat) (c : code).
Hypothesis HI : init g n k None = Ok c.
Hypothesis HV : valid_generators n k (zd (stab c)).
Hypothesis HC : qubit_constants h im.
Implicit Types psi phi v : @state K.
Notation exec := (exec h im).
Let r := crank c.
Let s := n - k.
Let f := bz (normal_form c).
Notation encode := (encode h im n c).
Notation dec_events := (dec_events n k c).
Open Scope K_scope.

Lemma dec_enc outs b m : length m = k -> (forall i, i < k -> getb m i = b i) ->
  eqs (n + k) (exec outs dec_events (tensor n (enc h n k s r f b) (repeat false k))) (tensor n (enc h n k s r f (fun _ => false)) m).
Proof.
  intros Lm Hm. destruct (struct_f g n k c HI HV) as (Hk & Hr & OF & U & Lx & V & Cm & Zs). destruct HC as (C1 & C2 & C3 & C4).
  unfold CircuitProofs3.dec_events. rewrite exec_app by (apply forallb_flat_map; intros; apply cnots_gate). fold r s f.
  set (L := fun i j => fz n s r f i (n + j)%nat).
  apply (eqs_trans _ _ (exec outs (flat_map (fun i => levs [(n + i)%nat] (fx n s r f i) (zpart n (fx n s r f i)) (seq O n)) (seq O k)) (tensor n (enc h n k s r f b) m))).
  - apply exec_eqs; [reflexivity|apply forallb_flat_map; intros; apply levs_gate|]. intros y Hy. fold (L 0%nat).
    rewrite (exec_fan h im outs n k L) by lia. unfold tensor.
    assert (EF : firstn n (fan n k L y) = firstn n y).
    { apply bits_eq; [unfold fan; rewrite !firstn_length, tab_length; reflexivity|]. unfold fan. rewrite firstn_length, tab_length. intros j Hj.
      rewrite !getb_firstn by lia. rewrite getb_tab by lia. destruct (Nat.leb_spec n j); [lia|]. apply xorb_false_r. }
    assert (Ls : length (skipn n (fan n k L y)) = k) by (unfold fan; rewrite skipn_length, tab_length; lia).
    assert (Lf : length (firstn n y) = n) by (rewrite firstn_length; lia).
    assert (G : forall i, i < k -> getb (skipn n (fan n k L y)) i = xorb (getb y (n + i)) (xsum n (fun l => L i l && getb y l))).
    { intros i Hi. rewrite getb_skipn. unfold fan. rewrite getb_tab by lia. destruct (Nat.leb_spec n (n + i)), (Nat.ltb_spec (n + i) (n + k)); try lia.
      replace (n + i - n)%nat with i by lia. reflexivity. }
    assert (Z : forall i, i < k -> xsum n (fun l => L i l && getb y l) <> b i -> enc h n k s r f b (firstn n y) = 0).
    { intros i Hi N. apply (enc_support h n k s r f) with (i := i); try (assumption || reflexivity).
      intros E. apply N. rewrite <- E. apply xsum_ext; intros l Hl. rewrite getb_firstn by exact Hl. reflexivity. }
    rewrite EF. destruct (list_eq_dec bool_dec (skipn n (fan n k L y)) (repeat false k)) as [E|E], (list_eq_dec bool_dec (skipn n y) m) as [E'|E']; try reflexivity.
    + destruct (bits_neq (skipn n y) m) as (i & Hi & D); [rewrite skipn_length; lia|exact E'|]. rewrite skipn_length in Hi.
      apply (Z i); [lia|]. intros Q. apply D. rewrite getb_skipn, Hm by lia.
      pose proof (G i ltac:(lia)) as Gi. rewrite E in Gi. unfold getb at 1 in Gi. rewrite nth_repeat in Gi. rewrite Q in Gi.
      destruct (getb y (n + i)), (b i); (reflexivity || discriminate).
    + destruct (bits_neq (skipn n (fan n k L y)) (repeat false k)) as (i & Hi & D); [rewrite repeat_length; exact Ls|exact E|]. rewrite Ls in Hi.
      symmetry. apply (Z i); [lia|]. intros Q. apply D. rewrite G by exact Hi. rewrite Q, <- getb_skipn, E', Hm by exact Hi.
      unfold getb. rewrite nth_repeat. apply xorb_nilpotent.
  - set (clr := fun (p i : nat) => Nat.leb p i && b i).
    assert (P : forall p, p <= k -> eqs (n + k) (exec outs (flat_map (fun i => levs [(n + i)%nat] (fx n s r f i) (zpart n (fx n s r f i)) (seq O n)) (seq O p)) (tensor n (enc h n k s r f b) m))
                                     (tensor n (enc h n k s r f (clr p)) m)).
    { induction p as [|p IH]; intros Hp; [apply eqs_refl|]. rewrite seq_S, flat_map_app. cbn [flat_map Nat.add]. rewrite app_nil_r.
      rewrite exec_app by (apply forallb_flat_map; intros; apply levs_gate).
      apply (eqs_trans _ _ (exec outs (levs [(n + p)%nat] (fx n s r f p) (zpart n (fx n s r f p)) (seq O n)) (tensor n (enc h n k s r f (clr p)) m))).
      { apply exec_eqs; [reflexivity|apply levs_gate|apply IH; lia]. }
      rewrite <- Lm at 1. apply (eqs_trans _ _ _ _ (ctl_tensor h im outs n _ _ _ m p ltac:(lia))). rewrite Hm by lia.
      apply tensor_eqs. destruct (b p) eqn:Eb.
      - apply (eqs_trans n _ (enc h n k s r f (flip (clr p) p))); [apply (enc_fx h n k s r f); (assumption || reflexivity || lia)|].
        intros y _. rewrite (enc_ext h n k s r f) with (b' := clr (S p)); try (assumption || reflexivity). intros j Hj. unfold flip, clr.
        destruct (Nat.eqb_spec p j) as [Ej|Ne].
        + rewrite <- Ej, Eb. destruct (Nat.leb_spec p p), (Nat.leb_spec (S p) p); try lia; reflexivity.
        + rewrite xorb_false_r. destruct (Nat.leb_spec p j), (Nat.leb_spec (S p) j); try lia; reflexivity.
      - intros y _. rewrite (enc_ext h n k s r f) with (b' := clr (S p)); try (assumption || reflexivity). intros j Hj. unfold clr.
        destruct (Nat.leb_spec p j), (Nat.leb_spec (S p) j); try lia; try reflexivity. replace j with p by lia. rewrite Eb. reflexivity. }
    apply (eqs_trans _ _ _ _ (P k (le_n k))). rewrite <- Lm at 1. apply tensor_eqs. intros y _.
    rewrite (enc_ext h n k s r f) with (b' := fun _ => false); try (assumption || reflexivity). intros j Hj. unfold clr. destruct (Nat.leb_spec k j); [lia|reflexivity].
Qed.

Lemma dec_encode outs st : length st = k -> binary st ->
  eqs (n + k) (exec outs dec_events (tensor n (encode st) (repeat false k))) (tensor n (encode (repeat 0%Z k)) (message st)).
Proof.
  intros L B. 
  assert (R : eqs (n + k) (tensor n (encode st) (repeat false k)) (tensor n (enc h n k s r f (mbit st)) (repeat false k))).
  { rewrite <- (repeat_length false k) at 1. apply tensor_eqs. apply (encode_enc h im g n k c HI HV); assumption. }
  apply (eqs_trans _ _ (exec outs dec_events (tensor n (enc h n k s r f (mbit st)) (repeat false k)))).
  { apply exec_eqs; [reflexivity|apply dec_gate|exact R]. }
  apply (eqs_trans _ _ (tensor n (enc h n k s r f (fun _ => false)) (message st))).
  { apply dec_enc; [unfold message; rewrite map_length; exact L|]. intros i _. apply getb_message. }
  assert (Lm : length (message st) = k) by (unfold message; rewrite map_length; exact L).
  rewrite <- Lm at 1. apply tensor_eqs. apply eqs_sym.
  apply (eqs_trans n _ (enc h n k s r f (mbit (repeat 0%Z k)))).
  - apply (encode_enc h im g n k c HI HV); [apply repeat_length|]. apply Forall_forall. intros x Hx. apply repeat_spec in Hx. auto.
  - intros y _. destruct (struct_f g n k c HI HV) as (Hk & Hr & _). rewrite (enc_ext h n k s r f) with (b' := fun _ => false); try (assumption || reflexivity).
    intros j _. unfold mbit. rewrite nth_repeat. reflexivity.
Qed.

(** allocating k fresh qubits *)
Lemma alloc_tensor outs psi m : eqs (n + m) (exec outs (map Alloc (seq n m)) psi) (tensor n psi (repeat false m)).
Proof.
  induction m as [|m IH].
  - intros y Hy. cbn. unfold tensor. rewrite Nat.add_0_r in Hy. rewrite skipn_all2, firstn_all2 by lia. destruct (list_eq_dec bool_dec [] []); [reflexivity|congruence].
  - rewrite seq_S, map_app. cbn [map].
    assert (A : forall l psi, exec outs (map Alloc l ++ [Alloc (n + m)%nat]) psi = add_qubit (n + m) (exec outs (map Alloc l) psi)).
    { induction l as [|a l IHl]; intros p; [reflexivity|]. cbn. apply IHl. }
    rewrite A. intros y Hy. unfold add_qubit. rewrite IH by (rewrite firstn_length; lia). unfold tensor.
    destruct (getb y (n + m)) eqn:E.
    + destruct (list_eq_dec bool_dec (skipn n y) (repeat false (S m))) as [Q|_]; [|reflexivity]. exfalso.
      rewrite <- getb_skipn, Q in E. unfold getb in E. rewrite nth_repeat in E. discriminate.
    + rewrite firstn_firstn, Nat.min_l by lia.
      destruct (list_eq_dec bool_dec (skipn n (firstn (n + m) y)) (repeat false m)) as [Q|Q], (list_eq_dec bool_dec (skipn n y) (repeat false (S m))) as [Q'|Q']; try reflexivity; exfalso.
      * apply Q'. apply bits_eq; [rewrite skipn_length, repeat_length; lia|]. rewrite skipn_length. intros j Hj. unfold getb at 2. rewrite nth_repeat.
        rewrite getb_skipn. destruct (Nat.eq_dec j m) as [->|Ne]; [exact E|].
        assert (X : getb (skipn n (firstn (n + m) y)) j = false) by (rewrite Q; unfold getb; apply nth_repeat).
        rewrite getb_skipn in X. rewrite getb_firstn in X by lia. exact X.
      * apply Q. apply bits_eq; [rewrite skipn_length, firstn_length, repeat_length; lia|]. rewrite skipn_length, firstn_length. intros j Hj. unfold getb at 2. rewrite nth_repeat.
        rewrite getb_skipn, getb_firstn by lia. rewrite <- getb_skipn, Q'. unfold getb. apply nth_repeat.
Qed.

(** measuring data qubits *)
Lemma measure_tensor evs : forall outs psi m, Forall (fun e => match e with Measure q => q < n | Dealloc _ => True | _ => False end) evs ->
  exists phi, (forall y, phi y = exec outs evs psi y) /\ eqs (n + length m) (exec outs evs (tensor n psi m)) (tensor n phi m).
Proof.
  induction evs as [|e evs IH]; intros outs psi m F; [exists psi; split; [reflexivity|apply eqs_refl]|].
  apply Forall_cons_iff in F. destruct F as [Pe F]. destruct e; try contradiction; cbn [CircuitSpec.exec].
  - destruct (IH (tl outs) (project q (hd false outs) psi) m F) as (phi & E1 & E2). exists phi. split; [exact E1|].
    assert (X : forall evs outs p p', Forall (fun e => match e with Measure q => q < n | Dealloc _ => True | _ => False end) evs ->
       eqs (n + length m) p p' -> eqs (n + length m) (exec outs evs p) (exec outs evs p')).
    { clear. induction evs as [|e evs IH]; intros outs p p' F H; [exact H|]. apply Forall_cons_iff in F. destruct F as [Pe F]. destruct e; try contradiction; cbn [CircuitSpec.exec].
      - apply IH; [exact F|]. intros y Hy. unfold project. rewrite H by exact Hy. reflexivity.
      - apply IH; assumption. }
    apply (eqs_trans _ _ (exec (tl outs) evs (tensor n (project q (hd false outs) psi) m))); [|exact E2].
    apply X; [exact F|]. intros y Hy. unfold project, tensor. rewrite getb_firstn by exact Pe.
    destruct (Bool.eqb (getb y q) (hd false outs)), (list_eq_dec bool_dec (skipn n y) m); reflexivity.
  - apply IH, F.
Qed.

Lemma cbind_ok {A B} l (a : A) (F : A -> circ B) : cbind (l, Ok a) F = (l ++ fst (F a), snd (F a)).
Proof. cbn [cbind]. destruct (F a). reflexivity. Qed.
Lemma cbind_ret {A B} (a : A) (F : A -> circ B) : cbind (cret a) F = F a.
Proof. unfold cret. rewrite cbind_ok. destruct (F a). reflexivity. Qed.
Lemma cfor_send {A} (l : list A) (F : A -> event) : cfor l (fun q => send (F q)) = (map F l, Ok tt).
Proof. rewrite (cfor_ok l _ (fun q => [F q])) by reflexivity. f_equal. Qed.
Lemma cbind_assoc {A B D} (x : circ A) (F : A -> circ B) (G : B -> circ D) : cbind (cbind x F) G = cbind x (fun a => cbind (F a) G).
Proof.
  destruct x as [l [a|e]]; [|reflexivity]. unfold cbind. destruct (F a) as [l' [b|e]]; [|reflexivity].
  destruct (G b). rewrite app_assoc. reflexivity.
Qed.

(** the commands of the four variants *)
Lemma decoding_with_ancillas (deal : bool) : decoding_circuit c (n + k) (seq O (n + k)) false deal =
  (dec_events ++ (if deal then map Measure (seq O n) ++ map Dealloc (seq O n) else []), Ok (if deal then seq n k else seq O (n + k) ++ seq n k)).
Proof.
  destruct (code_dims g n k c HI) as [Ec Ek]. destruct (struct_f g n k c HI HV) as (Hk & _). unfold decoding_circuit. rewrite Ec, Ek.
  assert (SK : skipn n (seq O (n + k)) = seq n k).
  { rewrite seq_app, skipn_app, seq_length, Nat.sub_diag, skipn_all2 by (rewrite seq_length; lia). reflexivity. }
  assert (FI : firstn n (seq O (n + k)) = seq O n).
  { rewrite seq_app, firstn_app, seq_length, Nat.sub_diag, firstn_all2 by (rewrite seq_length; lia). cbn. apply app_nil_r. }
  cbv beta iota. rewrite cbind_ret, SK, FI.
  rewrite <- (cbind_assoc (cfor _ _) (fun _ => cfor _ _)).
  rewrite (dec_body g n k c HI HV (n + k) (seq n k)); [|lia|intros i Hi; apply py_get_seq, Hi].
  destruct deal.
  - rewrite cbind_ok, !cfor_send, !cbind_ok. cbn [cret fst snd]. rewrite app_nil_r. reflexivity.
  - rewrite cbind_ok. reflexivity.
Qed.
Lemma decoding_add_ancillas (deal : bool) : decoding_circuit c n (seq O n) true deal =
  (map Alloc (seq n k) ++ dec_events ++ (if deal then map Measure (seq O n) else []), Ok (if deal then seq n k else seq O (n + k))).
Proof.
  destruct (code_dims g n k c HI) as [Ec Ek]. destruct (struct_f g n k c HI HV) as (Hk & _). unfold decoding_circuit. rewrite Ec, Ek.
  cbv beta iota. rewrite cfor_send, cbind_ok. cbn [cret fst snd]. rewrite cbind_ok, app_nil_r.
  rewrite <- (cbind_assoc (cfor _ _) (fun _ => cfor _ _)).
  rewrite (dec_body g n k c HI HV n (seq n k)); [|lia|intros i Hi; apply py_get_seq, Hi].
  destruct deal.
  - rewrite cbind_ok, !cfor_send, !cbind_ok. cbn [cret fst snd]. rewrite app_nil_r. reflexivity.
  - rewrite cbind_ok. cbn [cret fst snd]. rewrite seq_app. reflexivity.
Qed.

Lemma exec_alloc_app outs l evs : forall psi, exec outs (map Alloc l ++ evs) psi = exec outs evs (exec outs (map Alloc l) psi).
Proof. induction l as [|a l IH]; intros psi; [reflexivity|]. cbn. apply IH. Qed.

(** C17 for basis messages *)
Theorem decode_ok st : length st = k -> binary st ->
  eqs (n + k) (exec [] (fst (decoding_circuit c (n + k) (seq O (n + k)) false false)) (tensor n (encode st) (repeat false k)))
              (tensor n (encode (repeat 0%Z k)) (message st)) /\
  eqs (n + k) (exec [] (fst (decoding_circuit c n (seq O n) true false)) (encode st))
              (tensor n (encode (repeat 0%Z k)) (message st)).
Proof.
  intros L B. rewrite decoding_with_ancillas, decoding_add_ancillas. cbn [fst]. rewrite !app_nil_r. split; [apply dec_encode; assumption|].
  rewrite exec_alloc_app. apply (eqs_trans _ _ (exec [] dec_events (tensor n (encode st) (repeat false k)))); [|apply dec_encode; assumption].
  apply exec_eqs; [reflexivity|apply dec_gate|apply alloc_tensor].
Qed.
Lemma superpose_eqs {A} q (l : list (K * A)) F G : (forall p, In p l -> eqs q (F (snd p)) (G (snd p))) -> eqs q (superpose l F) (superpose l G).
Proof. intros H y Hy. apply superpose_ext. intros p Hp. apply H; assumption. Qed.
(** superpositions, both ways of providing the ancillas *)
Theorem decode_superposition (l : list (K * list Z)) : (forall p, In p l -> length (snd p) = k /\ binary (snd p)) ->
  eqs (n + k) (exec [] (fst (decoding_circuit c (n + k) (seq O (n + k)) false false)) (superpose l (fun st => tensor n (encode st) (repeat false k))))
              (superpose l (fun st => tensor n (encode (repeat 0%Z k)) (message st))) /\
  eqs (n + k) (exec [] (fst (decoding_circuit c n (seq O n) true false)) (superpose l encode))
              (superpose l (fun st => tensor n (encode (repeat 0%Z k)) (message st))).
Proof.
  intros H. split; intros y Hy; rewrite exec_superpose; apply superpose_eqs with (q := (n + k)%nat); try exact Hy; intros p Hp; destruct (H p Hp) as [L B]; apply (decode_ok _ L B).
Qed.
(** measuring the data qubits afterwards leaves the message alone *)
Theorem decode_measure outs : exists phi1 phi2,
  forall l, (forall p, In p l -> length (snd p) = k /\ binary (snd p)) ->
  eqs (n + k) (exec outs (fst (decoding_circuit c (n + k) (seq O (n + k)) false true)) (superpose l (fun st => tensor n (encode st) (repeat false k))))
              (superpose l (fun st => tensor n phi1 (message st))) /\
  eqs (n + k) (exec outs (fst (decoding_circuit c n (seq O n) true true)) (superpose l encode))
              (superpose l (fun st => tensor n phi2 (message st))).
Proof.
  set (t1 := map Measure (seq O n) ++ map Dealloc (seq O n)). set (t2 := map Measure (seq O n)).
  exists (exec outs t1 (encode (repeat 0%Z k))), (exec outs t2 (encode (repeat 0%Z k))). intros l H.
  rewrite decoding_with_ancillas, decoding_add_ancillas. cbn [fst]. fold t1 t2.
  assert (F2 : Forall (fun e => match e with Measure q => q < n | Dealloc _ => True | _ => False end) t2).
  { apply Forall_map, Forall_forall. intros q Hq. apply in_seq in Hq. lia. }
  assert (F1 : Forall (fun e => match e with Measure q => q < n | Dealloc _ => True | _ => False end) t1).
  { apply Forall_app. split; [exact F2|]. apply Forall_map, Forall_forall. auto. }
  assert (X : forall q evs outs p p', Forall (fun e => match e with Measure q => q < n | Dealloc _ => True | _ => False end) evs ->
       eqs q p p' -> eqs q (exec outs evs p) (exec outs evs p')).
  { clear. induction evs as [|e evs IH]; intros outs p p' F H; [exact H|]. apply Forall_cons_iff in F. destruct F as [Pe F]. destruct e; try contradiction; cbn [CircuitSpec.exec].
    - apply IH; [exact F|]. intros y Hy. unfold project. rewrite H by exact Hy. reflexivity.
    - apply IH; assumption. }
  assert (T : forall t st, Forall (fun e => match e with Measure q => q < n | Dealloc _ => True | _ => False end) t -> length st = k ->
     eqs (n + k) (exec outs t (tensor n (encode (repeat 0%Z k)) (message st))) (tensor n (exec outs t (encode (repeat 0%Z k))) (message st))).
  { intros t st Ft L. destruct (measure_tensor t outs (encode (repeat 0%Z k)) (message st) Ft) as (phi & E1 & E2).
    assert (Lm : length (message st) = k) by (unfold message; rewrite map_length; exact L). rewrite Lm in E2.
    apply (eqs_trans _ _ _ _ E2). intros y _. unfold tensor. rewrite E1. reflexivity. }
  split; intros y Hy; rewrite exec_superpose; apply superpose_eqs with (q := (n + k)%nat); try exact Hy; intros p Hp; destruct (H p Hp) as [L B].
  - rewrite exec_app by apply dec_gate. apply (eqs_trans _ _ (exec outs t1 (tensor n (encode (repeat 0%Z k)) (message (snd p))))); [|apply T; assumption].
    apply X; [exact F1|]. apply dec_encode; assumption.
  - rewrite exec_alloc_app, exec_app by apply dec_gate. apply (eqs_trans _ _ (exec outs t2 (tensor n (encode (repeat 0%Z k)) (message (snd p))))); [|apply T; assumption].
    apply X; [exact F2|]. apply (eqs_trans _ _ (exec outs dec_events (tensor n (encode (snd p)) (repeat false k)))); [|apply dec_encode; assumption].
    apply exec_eqs; [reflexivity|apply dec_gate|apply alloc_tensor].
Qed.
End Dec.
