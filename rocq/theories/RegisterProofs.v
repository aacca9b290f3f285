(** Circuits on any register of any engine. *)
From Verif Require Import Py ZMat CodesModel Scalar CircuitModel CircuitSpec CircuitProofs CircuitProofs2 CircuitProofs4 RegisterSpec.
Open Scope nat_scope.

(** ** renaming *)
(** x is y with qubits renamed by f, and y only uses qubits below m *)
Definition named {A B} (f : nat -> nat) (m : nat) (g : B -> A) (x : circ A) (y : circ B) : Prop :=
  fst x = map (rename f) (fst y) /\ Forall (fun e => Forall (fun q => q < m) (qubits_of e) /\ forall q, e <> Alloc q) (fst y) /\
  snd x = on_result g (snd y) .

Section Named.
Variables (f : nat -> nat) (m : nat).
Lemma named_bind {A B A' B'} (g : B -> A) (g' : B' -> A') (x : circ A) (y : circ B) F G :
  named f m g x y -> (forall b, snd y = Ok b -> named f m g' (F (g b)) (G b)) -> named f m g' (cbind x F) (cbind y G).
Proof.
  intros (E1 & P & E2) H. destruct x as [lx rx], y as [ly ry]. cbn [fst snd] in *. subst.
  destruct ry as [b|e]; cbn [on_result cbind]; [|repeat split; assumption].
  specialize (H b eq_refl). destruct H as (E1 & P2 & E2). destruct (F (g b)) as [l1 r1], (G b) as [l2 r2]. cbn [fst snd] in *. subst.
  split; [symmetry; apply map_app|]. split; [apply Forall_app; auto|reflexivity].
Qed.
Lemma named_lift {A B} (g : B -> A) (x : res A) (y : res B) : x = on_result g y -> named f m g (lift x) (lift y).
Proof. intros E. repeat split; [constructor|exact E]. Qed.
Lemma named_ret {A B} (g : B -> A) b : named f m g (cret (g b)) (cret b).
Proof. repeat split; constructor. Qed.
Lemma named_same {A} (x : res A) : named f m (fun a => a) (lift x) (lift x).
Proof. apply named_lift. destruct x; reflexivity. Qed.
Lemma named_tt : named f m (fun a : unit => a) (cret tt) (cret tt).
Proof. repeat split; constructor. Qed.
Lemma named_raise {A B} (g : B -> A) e : named f m g (craise e) (craise e).
Proof. repeat split; constructor. Qed.
Lemma named_gate cs g t : Forall (fun q => q < m) cs -> t < m -> named f m (fun a : unit => a) (send (Gate (map f cs) g (f t))) (send (Gate cs g t)).
Proof.
  intros C T. repeat split. constructor; [|constructor]. split; [|intros q; discriminate]. cbn [qubits_of]. apply Forall_app. auto.
Qed.
Lemma named_for {A} (l : list A) F G : (forall a, In a l -> named f m (fun u : unit => u) (F a) (G a)) ->
  named f m (fun u : unit => u) (cfor l F) (cfor l G).
Proof.
  induction l as [|a l IH]; intros H; [apply named_tt|]. cbn [cfor]. apply (named_bind (fun u : unit => u)); [apply H; left; reflexivity|].
  intros b _. apply IH. intros a' I. apply H. right; exact I.
Qed.
Lemma named_for_map {A} (l : list A) (h : A -> A) F G : (forall a, In a l -> named f m (fun u : unit => u) (F (h a)) (G a)) ->
  named f m (fun u : unit => u) (cfor (map h l) F) (cfor l G).
Proof. intros H. rewrite cfor_map. apply named_for. exact H. Qed.
End Named.

Lemma get_renamed (register : list nat) i : py_get register i = on_result (at_register register) (py_get (seq 0 (length register)) i).
Proof.
  unfold py_get. rewrite seq_length. set (j := if (i <? 0)%Z then _ else _). destruct (j <? 0)%Z; [reflexivity|]. set (p := Z.to_nat j).
  destruct (Nat.ltb_spec p (length register)) as [L|L].
  - rewrite (nth_error_nth' register 0 L), (nth_error_nth' (seq 0 (length register)) 0) by (rewrite seq_length; exact L). rewrite seq_nth by exact L. reflexivity.
  - rewrite (proj2 (nth_error_None register p) L), (proj2 (nth_error_None (seq 0 (length register)) p)) by (rewrite seq_length; exact L). reflexivity.
Qed.
Lemma op_renamed (register : list nat) i : qubitop_get register i = on_result (at_register register) (qubitop_get (seq 0 (length register)) i).
Proof.
  unfold qubitop_get. destruct (Nat.ltb_spec i (length register)) as [L|L].
  - rewrite (nth_error_nth' register 0 L), (nth_error_nth' (seq 0 (length register)) 0) by (rewrite seq_length; exact L). rewrite seq_nth by exact L. reflexivity.
  - rewrite (proj2 (nth_error_None register i) L), (proj2 (nth_error_None (seq 0 (length register)) i)) by (rewrite seq_length; exact L). reflexivity.
Qed.
Lemma get_bound m i q : py_get (seq 0 m) i = Ok q -> q < m.
Proof.
  unfold py_get. set (j := if (i <? 0)%Z then _ else _). destruct (j <? 0)%Z; [discriminate|].
  destruct (nth_error (seq 0 m) (Z.to_nat j)) as [x|] eqn:E; [|discriminate]. intros H. injection H as <-. apply nth_error_In in E. apply in_seq in E. lia.
Qed.
Lemma op_bound m i q : qubitop_get (seq 0 m) i = Ok q -> q < m.
Proof.
  unfold qubitop_get. destruct (nth_error (seq 0 m) i) as [x|] eqn:E; [|discriminate]. intros H. injection H as <-. apply nth_error_In in E. apply in_seq in E. lia.
Qed.

Section Methods.
Variables (f : nat -> nat) (m M : nat) (register : list nat).
Hypothesis Hm : length register = m.
Hypothesis HM : m <= M.
Hypothesis Hf : forall i, i < m -> f i = at_register register i.
Notation "x ~~ y" := (named f M (fun u : unit => u) x y) (at level 70).

Lemma get_bind {B} i (F G : nat -> circ B) (g : B -> B) : (forall q, q < m -> named f M g (F (f q)) (G q)) ->
  named f M g (cbind (lift (py_get register i)) F) (cbind (lift (py_get (seq 0 m) i)) G).
Proof.
  intros H. apply (named_bind f M f).
  - apply named_lift. rewrite get_renamed, Hm. destruct (py_get (seq 0 m) i) as [q|e] eqn:E; [|reflexivity]. cbn. rewrite Hf by exact (get_bound m i q E). reflexivity.
  - intros q E. apply H. exact (get_bound m i q E).
Qed.
Lemma op_bind {B} i (F G : nat -> circ B) (g : B -> B) : (forall q, q < m -> named f M g (F (f q)) (G q)) ->
  named f M g (cbind (lift (qubitop_get register i)) F) (cbind (lift (qubitop_get (seq 0 m) i)) G).
Proof.
  intros H. apply (named_bind f M f).
  - apply named_lift. rewrite op_renamed, Hm. destruct (qubitop_get (seq 0 m) i) as [q|e] eqn:E; [|reflexivity]. cbn. rewrite Hf by exact (op_bound m i q E). reflexivity.
  - intros q E. apply H. exact (op_bound m i q E).
Qed.
Lemma same_bind {A B} (x : res A) (F G : A -> circ B) (g : B -> B) : (forall a, x = Ok a -> named f M g (F a) (G a)) ->
  named f M g (cbind (lift x) F) (cbind (lift x) G).
Proof. intros H. apply (named_bind f M (fun a => a)); [apply named_same|exact H]. Qed.
Lemma then_bind {B} (x y : circ unit) (F G : unit -> circ B) (g : B -> B) : x ~~ y -> (forall a, named f M g (F a) (G a)) -> named f M g (cbind x F) (cbind y G).
Proof. intros H1 H2. apply (named_bind f M (fun a => a)); [exact H1|]. intros b _. apply H2. Qed.

Lemma letter_named cs jp : Forall (fun q => q < M) cs -> pauli_letter_cmd (map f cs) register jp ~~ pauli_letter_cmd cs (seq 0 m) jp.
Proof.
  intros C. destruct jp as [j p]. unfold pauli_letter_cmd.
  destruct (Ascii.eqb p "X"); [apply get_bind; intros q Hq; apply named_gate; [exact C|lia]|].
  destruct (Ascii.eqb p "Y"); [apply op_bind; intros q Hq; apply named_gate; [exact C|lia]|].
  destruct (Ascii.eqb p "Z"); [apply get_bind; intros q Hq; apply named_gate; [exact C|lia]|]. apply named_tt.
Qed.
Lemma enc_letter_named ctl i jp : ctl < m -> enc_letter register (f ctl) i jp ~~ enc_letter (seq 0 m) ctl i jp.
Proof.
  intros C. destruct jp as [j p]. unfold enc_letter. destruct (Nat.eqb j i); [apply named_tt|].
  assert (C' : Forall (fun q => q < M) [ctl]) by (constructor; [lia|constructor]).
  change [f ctl] with (map f [ctl]).
  destruct (Ascii.eqb p "X"); [apply get_bind; intros q Hq; apply named_gate; [exact C'|lia]|].
  destruct (Ascii.eqb p "Y"); [apply op_bind; intros q Hq; apply named_gate; [exact C'|lia]|].
  destruct (Ascii.eqb p "Z"); [apply get_bind; intros q Hq; apply named_gate; [exact C'|lia]|]. apply named_tt.
Qed.

Theorem encoding_named c st : encoding_circuit c register st ~~ encoding_circuit c (seq 0 m) st.
Proof.
  unfold encoding_circuit. apply same_bind. intros _ _. rewrite seq_length, Hm. apply same_bind. intros _ _.
  apply then_bind.
  { apply named_for. intros [i b] _. apply same_bind. intros _ _. destruct (Z.eqb b 1); [|apply named_tt].
    apply get_bind. intros q Hq. apply (named_gate f M []); [constructor|lia]. }
  intros _. apply then_bind.
  { destruct (Nat.ltb (crank c) (numb_stab c)); [|apply named_tt]. apply named_for. intros i _. apply same_bind. intros row _.
    apply get_bind. intros ctl Hc. apply named_for. intros [j b] _. destruct (Z.eqb b 1); [|apply named_tt].
    apply get_bind. intros q Hq. apply (named_gate f M [ctl]); [constructor; [lia|constructor]|lia]. }
  intros _. apply named_for. intros i _. apply get_bind. intros qi Hq. apply then_bind.
  { apply (named_gate f M []); [constructor|lia]. }
  intros _. apply same_bind. intros row _. apply same_bind. intros p _. apply named_for. intros jp _. apply enc_letter_named. exact Hq.
Qed.
Theorem logical_named c op : logical_circuit c register op ~~ logical_circuit c (seq 0 m) op.
Proof.
  unfold logical_circuit. apply same_bind. intros _ _. apply same_bind. intros _ _. apply same_bind. intros i _. apply same_bind. intros _ _.
  apply (named_bind f M (fun a => a)).
  { destruct (Ascii.eqb _ "X"); [apply named_same|]. destruct (Ascii.eqb _ "Z"); [apply named_same|].
    apply (named_bind f M (fun a => a)); [apply named_same|]. intros lz _. apply (named_bind f M (fun a => a)); [apply named_same|]. intros lx _.
    exact (named_ret f M (fun a => a) _). }
  intros row _. apply same_bind. intros p _. apply named_for. intros jp _. apply (letter_named []). constructor.
Qed.
Theorem apply_named arg : apply_stabilizer_circuit register arg ~~ apply_stabilizer_circuit (seq 0 m) arg.
Proof.
  unfold apply_stabilizer_circuit. apply same_bind. intros p _. apply named_for. intros [j ch] _.
  destruct (Ascii.eqb ch "X"); [apply get_bind; intros q Hq; apply (named_gate f M []); [constructor|lia]|].
  destruct (Ascii.eqb ch "Z"); [apply get_bind; intros q Hq; apply (named_gate f M []); [constructor|lia]|].
  destruct (Ascii.eqb ch "Y"); [apply op_bind; intros q Hq; apply (named_gate f M []); [constructor|lia]|]. apply named_tt.
Qed.
End Methods.

(** ** decoding and syndrome measurement: ancillas *)
Lemma get_map (f : nat -> nat) (l : list nat) i : py_get (map f l) i = on_result f (py_get l i).
Proof.
  unfold py_get. rewrite map_length. set (j := if (i <? 0)%Z then _ else _). destruct (j <? 0)%Z; [reflexivity|]. rewrite nth_error_map.
  destruct (nth_error l (Z.to_nat j)); reflexivity.
Qed.
Lemma get_in (l : list nat) i q : py_get l i = Ok q -> In q l.
Proof.
  unfold py_get. set (j := if (i <? 0)%Z then _ else _). destruct (j <? 0)%Z; [discriminate|].
  destruct (nth_error l (Z.to_nat j)) as [x|] eqn:E; [|discriminate]. intros H. injection H as <-. exact (nth_error_In _ _ E).
Qed.
Lemma register_map (f : nat -> nat) register : (forall i, i < length register -> f i = at_register register i) -> map f (seq 0 (length register)) = register.
Proof.
  intros H. rewrite (list_tab register 0) at 2. apply map_ext_in. intros i Hi. apply in_seq in Hi. apply H. lia.
Qed.

(** decoding_circuit after the ancillas are there *)
Definition decode_rest (c : code) (register anc : list nat) (add_ancilla_bits deallocate_nqubits : bool) : circ (list nat) :=
  run _ <- cfor (seq 0 (ck c)) (fun i =>
             run lz <- lift (py_get (zd (logical_z c)) (Z.of_nat i));
             cfor (enumerate (skipn (cn c) lz)) (fun jb =>
               let '(j, b) := jb in
               if Z.eqb b 1
               then run q <- lift (py_get register (Z.of_nat j)); run a <- lift (py_get anc (Z.of_nat i)); send (Gate [q] GX a)
               else cret tt));
  run _ <- cfor (seq 0 (ck c)) (fun i =>
             run lx <- lift (py_get (zd (logical_x c)) (Z.of_nat i));
             run a <- lift (py_get anc (Z.of_nat i));
             run pauli <- lift (binary_rep_to_pauli_str lx);
             cfor (enumerate pauli) (pauli_letter_cmd [a] register));
  if deallocate_nqubits
  then if add_ancilla_bits
       then run _ <- cfor register (fun q => send (Measure q)); cret anc
       else run _ <- cfor (firstn (cn c) register) (fun q => send (Measure q));
            run _ <- cfor (firstn (cn c) register) (fun q => send (Dealloc q));
            cret (skipn (cn c) register)
  else cret (register ++ anc).
Lemma decoding_added c active register d :
  decoding_circuit c active register true d =
  (map Alloc (seq active (ck c)) ++ fst (decode_rest c register (seq active (ck c)) true d), snd (decode_rest c register (seq active (ck c)) true d)).
Proof. unfold decoding_circuit. rewrite cfor_send, cbind_assoc, cbind_ok, cbind_ret. reflexivity. Qed.
Lemma decoding_own c active register d : decoding_circuit c active register false d = decode_rest c register (skipn (cn c) register) false d.
Proof. unfold decoding_circuit. rewrite cbind_ret. reflexivity. Qed.

Section Ancillas.
Variables (f : nat -> nat) (m M : nat) (register : list nat).
Hypothesis Hm : length register = m.
Hypothesis HM : m <= M.
Hypothesis Hf : forall i, i < m -> f i = at_register register i.

Lemma named_for_qubits (F : nat -> event) l : (F = Measure \/ F = Dealloc) -> Forall (fun q => q < M) l ->
  named f M (fun u : unit => u) (cfor (map f l) (fun q => send (F q))) (cfor l (fun q => send (F q))).
Proof.
  intros HF HL. apply named_for_map. intros q Hq. rewrite Forall_forall in HL. specialize (HL q Hq).
  destruct HF as [-> | ->]; (repeat split; constructor; [|constructor]; split; [repeat constructor; exact HL|intros; discriminate]).
Qed.
Lemma decode_rest_named c anc a d : Forall (fun q => q < M) anc ->
  named f M (map f) (decode_rest c register (map f anc) a d) (decode_rest c (seq 0 m) anc a d).
Proof.
  intros HA. assert (HR : register = map f (seq 0 m)) by (rewrite <- Hm in *; symmetry; apply register_map; exact Hf).
  assert (HS : Forall (fun q => q < M) (seq 0 m)) by (apply Forall_forall; intros q Hq; apply in_seq in Hq; lia).
  assert (GA : forall i {B} (F G : nat -> circ B) (g : B -> B), (forall q, q < M -> named f M g (F (f q)) (G q)) ->
     named f M g (cbind (lift (py_get (map f anc) i)) F) (cbind (lift (py_get anc i)) G)).
  { intros i B F G g H. apply (named_bind f M f).
    - apply named_lift. apply get_map.
    - intros q E. apply H. rewrite Forall_forall in HA. apply HA. exact (get_in _ _ _ E). }
  unfold decode_rest. apply (then_bind f M).
  { apply named_for. intros i _. apply same_bind. intros lz _. apply named_for. intros [j b] _. destruct (Z.eqb b 1); [|apply named_tt].
    apply (get_bind f m M register Hm Hf). intros q Hq. apply GA. intros t Ht. apply (named_gate f M [q]); [constructor; [lia|constructor]|exact Ht]. }
  intros _. apply (then_bind f M).
  { apply named_for. intros i _. apply same_bind. intros lx _. apply GA. intros t Ht. apply same_bind. intros p _. apply named_for. intros jp _.
    apply (letter_named f m M register Hm HM Hf [t]). constructor; [exact Ht|constructor]. }
  intros _. destruct d; [destruct a|].
  - apply (then_bind f M); [rewrite HR; apply named_for_qubits; auto|]. intros _. exact (named_ret f M (map f) anc).
  - rewrite HR, firstn_map, skipn_map.
    assert (HS' : Forall (fun q => q < M) (firstn (cn c) (seq 0 m))) by (apply Forall_forall; intros q Hq; rewrite Forall_forall in HS; apply HS; rewrite <- (firstn_skipn (cn c) (seq 0 m)); apply in_or_app; left; exact Hq).
    apply (then_bind f M); [apply named_for_qubits; auto|]. intros _. apply (then_bind f M); [apply named_for_qubits; auto|]. intros _. exact (named_ret f M (map f) _).
  - rewrite HR at 1. rewrite <- map_app. exact (named_ret f M (map f) _).
Qed.

(** single_syndrome_measurement after the ancilla is there *)
Definition syndrome_rest (c : code) (active : nat) (register : list nat) (q : nat) (stabilizer : stabarg) : circ nat :=
  run pauli <- lift (match stabilizer with
                     | AsArray row => binary_rep_to_pauli_str row
                     | AsList row => Ok (repeat "?"%char (length row))
                     | AsString p => Ok p
                     end);
  run _ <- send (Gate [] GH q);
  run _ <- cfor (enumerate pauli) (fun jp =>
    let '(j, p) := jp in
    if Ascii.eqb p "X" then run t <- lift (py_get register (Z.of_nat j)); send (Gate [q] GX t)
    else if Ascii.eqb p "Y" then run t <- lift (qubitop_get register j); send (Gate [q] GmiY t)
    else if Ascii.eqb p "Z" then run t <- lift (py_get register (Z.of_nat j)); send (Gate [q] GZ t)
    else if Ascii.eqb p "I" then cret tt
    else craise RuntimeError);
  run _ <- send (Gate [] GH q);
  run _ <- send (Measure q);
  run _ <- (if Nat.eqb active (cn c) then send (Dealloc q) else cret tt);
  cret q.
Lemma syndrome_rest_named c active q arg : q < M ->
  named f M f (syndrome_rest c active register (f q) arg) (syndrome_rest c active (seq 0 m) q arg).
Proof.
  intros Hq. assert (C : Forall (fun q => q < M) [q]) by (constructor; [exact Hq|constructor]).
  assert (H1 : named f M (fun u : unit => u) (send (Gate [] GH (f q))) (send (Gate [] GH q))) by (apply (named_gate f M []); [constructor|exact Hq]).
  unfold syndrome_rest. apply same_bind. intros p _. apply (then_bind f M); [exact H1|]. intros _. apply (then_bind f M).
  { apply named_for. intros [j ch] _. change [f q] with (map f [q]).
    destruct (Ascii.eqb ch "X"); [apply (get_bind f m M register Hm Hf); intros t Ht; apply named_gate; [exact C|lia]|].
    destruct (Ascii.eqb ch "Y"); [apply (op_bind f m M register Hm Hf); intros t Ht; apply named_gate; [exact C|lia]|].
    destruct (Ascii.eqb ch "Z"); [apply (get_bind f m M register Hm Hf); intros t Ht; apply named_gate; [exact C|lia]|].
    destruct (Ascii.eqb ch "I"); [apply named_tt|apply named_raise]. }
  intros _. apply (then_bind f M); [exact H1|]. intros _.
  assert (HE : forall F, F = Measure \/ F = Dealloc -> named f M (fun u : unit => u) (send (F (f q))) (send (F q))).
  { intros F HF. destruct HF as [-> | ->]; (repeat split; constructor; [|constructor]; split; [repeat constructor; exact Hq|intros; discriminate]). }
  apply (then_bind f M); [apply HE; auto|]. intros _. apply (then_bind f M).
  { destruct (Nat.eqb active (cn c)); [apply HE; auto|apply named_tt]. }
  intros _. exact (named_ret f M f q).
Qed.
End Ancillas.

(** ** what renamed commands do *)
Section Sem.
Context {K : StarRing}.
Variables h im : K.
Notation exec := (exec h im).
Implicit Types psi phi : @state K.
Open Scope K_scope.

Definition simple (m : nat) (e : event) : Prop := Forall (fun q => (q < m)%nat) (qubits_of e) /\ forall q, e <> Alloc q.
Lemma exec_eqs_simple q evs : forall outs psi phi, Forall (fun e => forall t, e <> Alloc t) evs -> eqs q psi phi -> eqs q (exec outs evs psi) (exec outs evs phi).
Proof.
  induction evs as [|e evs IH]; intros outs psi phi F E; [exact E|]. inversion F as [|? ? N F']; subst.
  destruct e as [cs g t|t|t|t]; cbn [CircuitSpec.exec].
  - apply IH; [exact F'|]. apply apply_gate_eqs, E.
  - exfalso. exact (N t eq_refl).
  - apply IH; [exact F'|]. intros y Hy. unfold project. rewrite (E y Hy). reflexivity.
  - apply IH; assumption.
Qed.

Section Reg.
Variables (N : nat) (register : list nat).
Hypothesis HR : a_register N register.
Notation m := (length register).
Lemma reg_lt i : (i < m)%nat -> (at_register register i < N)%nat.
Proof. intros L. destruct HR as [_ F]. rewrite Forall_forall in F. apply F. unfold at_register. apply nth_In, L. Qed.
End Reg.
Lemma write_length register : forall x y, length (write register x y) = length y.
Proof.
  induction register as [|q r IH]; intros x y; [reflexivity|]. destruct x as [|b x]; [reflexivity|]. unfold write. cbn [combine fold_left fst snd].
  change (length (write r x (setb y q b)) = length y). rewrite IH. apply setb_length.
Qed.
Lemma write_out register : forall x y j, (j < length y)%nat -> ~ In j register -> getb (write register x y) j = getb y j.
Proof.
  induction register as [|q r IH]; intros x y j L NI; [reflexivity|]. destruct x as [|b x]; [reflexivity|]. unfold write. cbn [combine fold_left fst snd].
  change (getb (write r x (setb y q b)) j = getb y j). rewrite IH; [|rewrite setb_length; exact L|intros I; apply NI; right; exact I].
  rewrite getb_setb by exact L. destruct (Nat.eqb_spec j q) as [->|]; [|reflexivity]. exfalso. apply NI. left; reflexivity.
Qed.
Lemma write_in register : forall x y i, NoDup register -> Forall (fun q => (q < length y)%nat) register -> (i < length register)%nat -> length x = length register ->
  getb (write register x y) (at_register register i) = getb x i.
Proof.
  induction register as [|q r IH]; intros x y i ND F L LX; [cbn in L; lia|]. destruct x as [|b x]; [discriminate|]. cbn [length] in *.
  inversion ND as [|? ? NI ND']; subst. inversion F as [|? ? Q F']; subst.
  unfold write. cbn [combine fold_left fst snd]. fold (write r x (setb y q b)). destruct i as [|i].
  - change (at_register (q :: r) 0) with q. change (getb (b :: x) 0) with b.
    change (getb (write r x (setb y q b)) q = b). rewrite write_out; [|rewrite setb_length; exact Q|exact NI].
    rewrite getb_setb by exact Q. rewrite Nat.eqb_refl. reflexivity.
  - change (at_register (q :: r) (S i)) with (at_register r i). change (getb (b :: x) (S i)) with (getb x i).
    change (getb (write r x (setb y q b)) (at_register r i) = getb x i). apply IH; [exact ND'| |lia|lia].
    rewrite setb_length. exact F'.
Qed.
Lemma read_length register y : length (read register y) = length register.
Proof. apply map_length. Qed.
Lemma getb_read register y i : (i < length register)%nat -> getb (read register y) i = getb y (at_register register i).
Proof.
  intros L. unfold read, getb at 1. rewrite (nth_indep _ false (getb y 0)) by (rewrite map_length; exact L). rewrite map_nth. reflexivity.
Qed.

Section Reg2.
Variables (N : nat) (register : list nat).
Hypothesis HR : a_register N register.
Notation m := (length register).
Notation at_ := (at_register register).
Lemma reg_split j : (exists i, (i < m)%nat /\ j = at_ i) \/ ~ In j register.
Proof.
  destruct (in_dec Nat.eq_dec j register) as [I|I]; [left|right; exact I]. destruct (In_nth _ _ 0%nat I) as (i & L & E). exists i. split; [exact L|symmetry; exact E].
Qed.
Lemma at_inj i j : (i < m)%nat -> (j < m)%nat -> at_ i = at_ j -> i = j.
Proof. destruct HR as [ND _]. intros. apply (proj1 (NoDup_nth register 0%nat) ND); assumption. Qed.
Lemma bounds (y : list bool) : length y = N -> Forall (fun q => (q < length y)%nat) register.
Proof. intros ->. exact (proj2 HR). Qed.
Lemma getb_write x y i : length y = N -> (i < m)%nat -> length x = m -> getb (write register x y) (at_ i) = getb x i.
Proof. intros Ly L Lx. apply write_in; [exact (proj1 HR)|apply bounds, Ly|exact L|exact Lx]. Qed.
Lemma read_write x y : length y = N -> length x = m -> read register (write register x y) = x.
Proof.
  intros Ly Lx. apply bits_eq; rewrite read_length; [symmetry; exact Lx|]. intros i Hi. rewrite getb_read by exact Hi. apply getb_write; assumption.
Qed.
Lemma write_setb x y t b : length y = N -> (t < m)%nat -> length x = m -> setb (write register x y) (at_ t) b = write register (setb x t b) y.
Proof.
  intros Ly Ht Lx. apply bits_eq; rewrite setb_length, !write_length; [reflexivity|]. intros j Hj. rewrite getb_setb by (rewrite write_length; exact Hj).
  destruct (reg_split j) as [(i & Hi & ->)|NI].
  - rewrite !getb_write by (try rewrite setb_length; assumption). rewrite getb_setb by lia.
    destruct (Nat.eqb_spec i t) as [->|D]; [rewrite Nat.eqb_refl; reflexivity|]. destruct (Nat.eqb_spec (at_ i) (at_ t)) as [E|]; [|reflexivity]. exfalso. apply D, at_inj; assumption.
  - rewrite !write_out by assumption. destruct (Nat.eqb_spec j (at_ t)) as [->|]; [|reflexivity]. exfalso. apply NI. unfold at_register. apply nth_In, Ht.
Qed.
Lemma write_read y : length y = N -> write register (read register y) y = y.
Proof.
  intros Ly. apply bits_eq; rewrite write_length; [reflexivity|]. intros j Hj. destruct (reg_split j) as [(i & Hi & ->)|NI].
  - rewrite getb_write by (rewrite ?read_length; auto). apply getb_read, Hi.
  - apply write_out; assumption.
Qed.
Lemma ctl_write x y cs : length y = N -> length x = m -> Forall (fun q => (q < m)%nat) cs -> forallb (getb (write register x y)) (map at_ cs) = forallb (getb x) cs.
Proof.
  intros Ly Lx F. induction F as [|q cs Hq F IH]; [reflexivity|]. cbn [map forallb]. rewrite IH, getb_write by assumption. reflexivity.
Qed.
Variable f : nat -> nat.
Hypothesis Hf : forall i, (i < m)%nat -> f i = at_ i.
Lemma map_f cs : Forall (fun q => (q < m)%nat) cs -> map f cs = map at_ cs.
Proof. intros F. apply map_ext_in. intros q Hq. rewrite Forall_forall in F. apply Hf, F, Hq. Qed.
Theorem exec_renamed evs : forall outs psi y, length y = N -> Forall (simple m) evs ->
  exec outs (map (rename f) evs) psi y = exec outs evs (given_others register y psi) (read register y).
Proof.
  induction evs as [|e evs IH]; intros outs psi y Ly F.
  - cbn. unfold given_others. rewrite write_read by exact Ly. reflexivity.
  - destruct (Forall_inv F) as [Q NA]. pose proof (Forall_inv_tail F) as F'.
    assert (NA' : Forall (fun e => forall t, e <> Alloc t) evs) by (apply (Forall_impl _ (fun e (H : simple m e) => proj2 H)), F').
    destruct e as [cs g t|t|t|t]; cbn [map rename CircuitSpec.exec]; cbn [qubits_of] in Q.
    + apply Forall_app in Q. destruct Q as [QC QT]. pose proof (Forall_inv QT) as HT. cbv beta in HT. rewrite IH by assumption. rewrite map_f by exact QC. rewrite Hf by exact HT.
      apply exec_eqs_simple with (q := m); [exact NA'| |apply read_length]. intros x Lx. unfold given_others, apply_gate.
      rewrite ctl_write, getb_write, !write_setb by assumption. reflexivity.
    + exfalso. exact (NA t eq_refl).
    + pose proof (Forall_inv Q) as HT. cbv beta in HT. rewrite IH by assumption. rewrite Hf by exact HT.
      apply exec_eqs_simple with (q := m); [exact NA'| |apply read_length]. intros x Lx. unfold given_others, project. rewrite getb_write by assumption. reflexivity.
    + apply IH; assumption.
Qed.
End Reg2.
End Sem.
