(** The methods on any register. *)
From Verif Require Import Py ZMat CodesModel Scalar CodesSpec CircuitModel CircuitSpec CircuitProofs CircuitProofs2 CircuitProofs3 CircuitProofs4 RegisterSpec RegisterProofs.
Open Scope nat_scope.

Lemma named_inside {A B} f m register (g : B -> A) x y : (forall i, i < m -> In (f i) register) -> named f m g x y ->
  forall e, In e (fst x) -> incl (qubits_of e) register.
Proof.
  intros HF (E & P & _) e I q Hq. rewrite E in I. apply in_map_iff in I. destruct I as (e' & <- & I'). rewrite Forall_forall in P. destruct (P e' I') as [Q _].
  assert (QQ : qubits_of (rename f e') = map f (qubits_of e')) by (destruct e'; cbn; rewrite ?map_app; reflexivity).
  rewrite QQ in Hq. apply in_map_iff in Hq. destruct Hq as (i & <- & Hi). apply HF. rewrite Forall_forall in Q. exact (Q i Hi).
Qed.
Lemma at_In register i : i < length register -> In (at_register register i) register.
Proof. intros L. apply nth_In, L. Qed.

Lemma map_seq (f : nat -> nat) a b k : (forall i, i < k -> f (a + i) = b + i) -> map f (seq a k) = seq b k.
Proof.
  induction k as [|k IH]; intros H; [reflexivity|]. rewrite !seq_S, map_app. cbn [map]. rewrite IH by (intros i Hi; apply H; lia). rewrite H by lia. reflexivity.
Qed.

Section Acts.
Context {K : StarRing}.
Variables h im : K.
Add Ring KringReg : (s_rt K).
Notation exec := (exec h im).
Implicit Types psi phi : @state K.

Lemma named_acts {A B} N register (g : B -> A) x y : a_register N register -> named (at_register register) (length register) g x y ->
  forall outs psi b, length b = N -> exec outs (fst x) psi b = exec outs (fst y) (given_others register b psi) (read register b).
Proof.
  intros HR (E & P & _) outs psi b Lb. rewrite E. apply (exec_renamed h im N register HR (at_register register) (fun i _ => eq_refl)); [exact Lb|exact P].
Qed.
Lemma result_same {A} f m (x y : circ A) : named f m (fun a => a) x y -> snd x = snd y.
Proof. intros (_ & _ & ->). destruct (snd y); reflexivity. Qed.

(** ** allocated ancillas *)
Lemma a_register_more N k register : a_register N register -> a_register (N + k) (register ++ seq N k).
Proof.
  intros [ND F]. split.
  - induction register as [|q r IH]; [apply seq_NoDup|]. inversion ND as [|? ? NI ND']; subst. inversion F as [|? ? Q F']; subst. cbn [app].
    constructor; [|apply IH; assumption]. intros I. apply in_app_or in I. destruct I as [I|I]; [exact (NI I)|]. apply in_seq in I. lia.
  - apply Forall_app. split; [apply (Forall_impl _ (fun q (H : q < N) => Nat.lt_lt_add_r _ _ k H)), F|]. apply Forall_forall. intros q Hq. apply in_seq in Hq. lia.
Qed.
Lemma getb_app a b j : j < length a -> getb (a ++ b) j = getb a j. Proof. intros L. unfold getb. apply app_nth1, L. Qed.
Lemma at_app1 register l i : i < length register -> at_register (register ++ l) i = at_register register i.
Proof. intros L. unfold at_register. apply app_nth1, L. Qed.
Lemma at_app2 register N k i : i < k -> at_register (register ++ seq N k) (length register + i) = N + i.
Proof. intros L. unfold at_register. rewrite app_nth2 by lia. replace (length register + i - length register) with i by lia. apply seq_nth, L. Qed.
Lemma given_tensor N k register y psi : a_register N register -> length y = N + k ->
  eqs (length register + k) (given_others (register ++ seq N k) y (tensor N psi (repeat false k)))
      (tensor (length register) (given_others register (firstn N y) psi) (repeat false k)).
Proof.
  intros HR Ly x Lx. pose proof (a_register_more N k register HR) as HR2. unfold given_others, tensor.
  assert (Lf : length (firstn N y) = N) by (rewrite firstn_length; lia).
  assert (L2 : length (register ++ seq N k) = length register + k) by (rewrite app_length, seq_length; reflexivity).
  assert (E1 : skipn N (write (register ++ seq N k) x y) = skipn (length register) x).
  { apply bits_eq; rewrite !skipn_length, write_length; [lia|]. intros j Hj. rewrite !getb_skipn.
    rewrite <- (at_app2 register N k j) by lia. rewrite (getb_write (N + k) _ HR2) by lia. reflexivity. }
  assert (E2 : firstn N (write (register ++ seq N k) x y) = write register (firstn (length register) x) (firstn N y)).
  { apply bits_eq; rewrite firstn_length, !write_length; [lia|]. intros j Hj. assert (j < N) by lia. rewrite getb_firstn by lia.
    destruct (reg_split register j) as [(i & Hi & ->)|NI].
    - rewrite <- (at_app1 register (seq N k) i Hi) at 1. rewrite (getb_write (N + k) _ HR2) by lia.
      rewrite (getb_write N _ HR) by (try rewrite firstn_length; lia). rewrite getb_firstn by lia. reflexivity.
    - rewrite write_out; [|lia|intros I; apply in_app_or in I; destruct I as [I|I]; [exact (NI I)|apply in_seq in I; lia]].
      rewrite write_out by (rewrite ?Lf; assumption). rewrite getb_firstn by lia. reflexivity. }
  rewrite E1, E2. reflexivity.
Qed.
Lemma alloc_acts (c : code) N k register evs outs psi y : a_register N register -> length y = N + k -> Forall (simple (length register + k)) evs ->
  exec outs (map Alloc (seq N k) ++ map (rename (at_register (register ++ seq N k))) evs) psi y =
  exec outs (map Alloc (seq (length register) k) ++ evs) (given_others register (firstn N y) psi) (read (register ++ seq N k) y).
Proof.
  intros HR Ly F. pose proof (a_register_more N k register HR) as HR2.
  assert (L2 : length (register ++ seq N k) = length register + k) by (rewrite app_length, seq_length; reflexivity).
  assert (NA : Forall (fun e => forall t, e <> Alloc t) evs) by (refine (Forall_impl _ _ F); intros e H; exact (proj2 H)).
  rewrite !(exec_alloc_app h im). rewrite (exec_renamed h im (N + k) (register ++ seq N k) HR2 (at_register (register ++ seq N k)) (fun i _ => eq_refl)) by (rewrite ?L2; assumption).
  apply (exec_eqs_simple h im (length register + k)); [exact NA| |rewrite read_length; exact L2].
  apply (eqs_trans (length register + k) _ (given_others (register ++ seq N k) y (tensor N psi (repeat false k)))).
  - intros x Lx. unfold given_others. apply (alloc_tensor h im N N c outs psi k). rewrite write_length. exact Ly.
  - apply (eqs_trans (length register + k) _ _ _ (given_tensor N k register y psi HR Ly)). apply eqs_sym. apply (alloc_tensor h im (length register) k c outs _ k).
Qed.
End Acts.

(** ** the methods *)
Section Methods.
Context {K : StarRing}.
Variables h im : K.
Notation exec := (exec h im).
Variables (N : nat) (register : list nat).
Hypothesis HR : a_register N register.
Notation m := (length register).
Notation at_ := (at_register register).

Definition acts {A} (g : A -> A) (x y : circ A) : Prop :=
  snd x = on_result g (snd y) /\ (forall e, In e (fst x) -> incl (qubits_of e) register) /\
  forall outs (psi : @state K) b, length b = N -> exec outs (fst x) psi b = exec outs (fst y) (given_others register b psi) (read register b).
Lemma named_all {A} (g : A -> A) x y : named at_ m g x y -> acts g x y.
Proof.
  intros H. split; [exact (proj2 (proj2 H))|]. split; [apply (named_inside at_ m register g x y); [apply at_In|exact H]|]. exact (named_acts h im N register g x y HR H).
Qed.
Lemma encoding_acts c st : acts (fun u => u) (encoding_circuit c register st) (encoding_circuit c (seq 0 m) st).
Proof. apply named_all, encoding_named; auto. Qed.
Lemma logical_acts c op : acts (fun u => u) (logical_circuit c register op) (logical_circuit c (seq 0 m) op).
Proof. apply named_all, logical_named; auto. Qed.
Lemma apply_acts arg : acts (fun u => u) (apply_stabilizer_circuit register arg) (apply_stabilizer_circuit (seq 0 m) arg).
Proof. apply named_all, apply_named; auto. Qed.
Lemma decoding_own_acts c active active' d : acts (map at_) (decoding_circuit c active register false d) (decoding_circuit c active' (seq 0 m) false d).
Proof.
  apply named_all. rewrite !decoding_own.
  replace (skipn (cn c) register) with (map at_ (skipn (cn c) (seq 0 m))) by (rewrite <- skipn_map, register_map by reflexivity; reflexivity).
  apply decode_rest_named; auto. apply Forall_forall. intros q Hq. assert (I : In q (seq 0 m)) by (rewrite <- (firstn_skipn (cn c) (seq 0 m)); apply in_or_app; right; exact Hq).
  apply in_seq in I. lia.
Qed.
Lemma decoding_added_acts c d :
  let x := decoding_circuit c N register true d in let y := decoding_circuit c m (seq 0 m) true d in let wide := register ++ seq N (ck c) in
  snd x = on_result (map (at_register wide)) (snd y) /\ (forall e, In e (fst x) -> incl (qubits_of e) wide) /\
  forall outs (psi : @state K) b, length b = N + ck c ->
    exec outs (fst x) psi b = exec outs (fst y) (given_others register (firstn N b) psi) (read wide b).
Proof.
  cbv zeta. rewrite !decoding_added. cbn [fst snd].
  assert (NM : named (at_register (register ++ seq N (ck c))) (m + ck c) (map (at_register (register ++ seq N (ck c))))
    (decode_rest c register (seq N (ck c)) true d) (decode_rest c (seq 0 m) (seq m (ck c)) true d)).
  { replace (seq N (ck c)) with (map (at_register (register ++ seq N (ck c))) (seq m (ck c))) at 3.
    - apply decode_rest_named; [reflexivity|lia|intros i Hi; apply at_app1, Hi|]. apply Forall_forall. intros q Hq. apply in_seq in Hq. lia.
    - apply map_seq. intros i Hi. apply at_app2, Hi. }
  assert (IN : forall i, i < m + ck c -> In (at_register (register ++ seq N (ck c)) i) (register ++ seq N (ck c))).
  { intros i Hi. apply nth_In. rewrite app_length, seq_length. exact Hi. }
  split; [exact (proj2 (proj2 NM))|]. split.
  - intros e I. apply in_app_or in I. destruct I as [I|I]; [|exact (named_inside _ _ _ _ _ _ IN NM e I)].
    apply in_map_iff in I. destruct I as (q & <- & Hq). intros q' [->|[]]. apply in_or_app. right. exact Hq.
  - intros outs psi b Lb. destruct NM as (E & P & _). rewrite E. apply (alloc_acts h im c); assumption.
Qed.

(** the syndrome measurement, for a register of all N qubits *)
Lemma syndrome_own c active arg : active = cn c + 1 -> single_syndrome_measurement c active register arg =
  cbind (lift (py_get register (-1))) (fun q => syndrome_rest c active register q arg).
Proof.
  intros ->. unfold single_syndrome_measurement. replace (Nat.eqb (cn c + 1) (cn c)) with false by (symmetry; apply Nat.eqb_neq; lia). rewrite Nat.eqb_refl. cbn [orb]. rewrite cbind_ret.
  unfold syndrome_rest. replace (Nat.eqb (cn c + 1) (cn c)) with false by (symmetry; apply Nat.eqb_neq; lia). reflexivity.
Qed.
Lemma syndrome_new c arg (reg : list nat) : single_syndrome_measurement c (cn c) reg arg =
  (Alloc (cn c) :: fst (syndrome_rest c (cn c) reg (cn c) arg), snd (syndrome_rest c (cn c) reg (cn c) arg)).
Proof.
  unfold single_syndrome_measurement. rewrite Nat.eqb_refl. cbn [orb]. rewrite cbind_ret, cbind_assoc. unfold send at 1. rewrite cbind_ok, cbind_ret.
  unfold syndrome_rest. rewrite Nat.eqb_refl. reflexivity.
Qed.
End Methods.
Section Syndrome.
Context {K : StarRing}.
Variables h im : K.
Notation exec := (exec h im).
Variables (c : code) (register : list nat) (arg : stabarg).
Lemma syndrome_own_acts : a_register (cn c + 1) register -> length register = cn c + 1 ->
  acts h im (cn c + 1) register (at_register register)
    (single_syndrome_measurement c (cn c + 1) register arg) (single_syndrome_measurement c (cn c + 1) (seq 0 (cn c + 1)) arg).
Proof.
  intros HR L. apply (named_all h im (cn c + 1) register HR). rewrite !syndrome_own by reflexivity. rewrite <- L.
  apply get_bind; [reflexivity|reflexivity|]. intros q Hq. apply syndrome_rest_named; auto.
Qed.
Lemma syndrome_new_acts : a_register (cn c) register -> length register = cn c ->
  let x := single_syndrome_measurement c (cn c) register arg in let y := single_syndrome_measurement c (cn c) (seq 0 (cn c)) arg in
  let wide := register ++ [cn c] in
  snd x = on_result (at_register wide) (snd y) /\ (forall e, In e (fst x) -> incl (qubits_of e) wide) /\
  forall outs (psi : @state K) b, length b = cn c + 1 ->
    exec outs (fst x) psi b = exec outs (fst y) (given_others register (firstn (cn c) b) psi) (read wide b).
Proof.
  intros HR L. cbv zeta. rewrite !syndrome_new. cbn [fst snd]. set (n := cn c) in *.
  assert (W : register ++ [n] = register ++ seq n 1) by reflexivity.
  assert (NM : named (at_register (register ++ [n])) (n + 1) (at_register (register ++ [n])) (syndrome_rest c n register n arg) (syndrome_rest c n (seq 0 n) n arg)).
  { replace n with (at_register (register ++ [n]) n) at 5.
    - apply syndrome_rest_named; [exact L|lia|intros i Hi; apply at_app1; lia|lia].
    - unfold at_register. rewrite app_nth2 by lia. replace (n - length register) with 0 by lia. reflexivity. }
  assert (IN : forall i, i < n + 1 -> In (at_register (register ++ [n]) i) (register ++ [n])).
  { intros i Hi. apply nth_In. rewrite app_length. cbn. lia. }
  split; [exact (proj2 (proj2 NM))|]. split.
  - intros e [<-|I]; [|exact (named_inside _ _ _ _ _ _ IN NM e I)]. intros q' [<-|[]]. apply in_or_app. right. left. reflexivity.
  - intros outs psi b Lb. destruct NM as (E & P & _). rewrite E, W.
    change (exec outs (Alloc n :: ?l) psi b) with (exec outs (map Alloc (seq n 1) ++ l) psi b).
    pose proof (alloc_acts h im c n 1 register (fst (syndrome_rest c n (seq 0 n) n arg)) outs psi b HR Lb) as Q. rewrite L in Q. exact (Q P).
Qed.
End Syndrome.

(** ** a register in |0...0> *)
Section Prepare.
Context {K : StarRing}.
Variables h im : K.
Add Ring KringPrep : (s_rt K).
Open Scope K_scope.
Lemma prepares N register c st (psi : @state K) y : a_register N register -> length y = N ->
  (forall y, length y = N -> read register y <> repeat false (length register) -> psi y = 0) ->
  exec h im [] (fst (encoding_circuit c register st)) psi y =
  encode h im (length register) c st (read register y) * psi (write register (repeat false (length register)) y).
Proof.
  intros HR Ly Z. destruct (encoding_acts h im N register HR c st) as (_ & _ & E). rewrite E by exact Ly. unfold encode.
  set (a := psi (write register (repeat false (length register)) y)). set (evs := fst (encoding_circuit c (seq 0 (length register)) st)).
  assert (NA : Forall (fun e => forall t, e <> Alloc t) evs).
  { destruct (encoding_named (at_register register) (length register) (length register) register eq_refl (le_n _) (fun i _ => eq_refl) c st) as (_ & P & _).
    refine (Forall_impl _ _ P). intros e H. exact (proj2 H). }
  rewrite (exec_eqs_simple h im (length register) evs [] _ (fun x => a * zero_ket (length register) x + (fun _ => 0) x)); [|exact NA| |apply read_length].
  - rewrite (exec_lin h im evs [] (zero_ket (length register)) (fun _ => 0) _ a) by reflexivity. rewrite (exec_zero h im evs [] (fun _ => 0)) by reflexivity. ring.
  - intros x Lx. unfold given_others, zero_ket, ket. destruct (list_eq_dec bool_dec x (repeat false (length register))) as [->|D]; [fold a; ring|].
    rewrite Z; [ring|rewrite write_length; exact Ly|]. rewrite (read_write N register HR) by assumption. exact D.
Qed.
End Prepare.

Section Wrong.
Context {K : StarRing}.
Variables h im : K.
Add Ring KringWrong : (s_rt K).
Open Scope K_scope.
Lemma wrong_outcome : h * h + h * h = 1 ->
  exec h im [true] [Gate [] GH 1%nat; Gate [1%nat] GZ 0%nat; Gate [] GH 1%nat; Measure 1%nat] (ket [false; true; false]) [false; true; false] = 1.
Proof.
  intros H. cbn [exec tl hd]. unfold project, apply_gate, getb, setb, ket. cbn [length seq map forallb nth Nat.eqb Bool.eqb andb gate_entry getb].
  repeat (destruct (list_eq_dec bool_dec _ _) as [E|E]; [try discriminate E; clear E|try (exfalso; apply E; reflexivity); clear E]).
  transitivity (h * h + h * h); [ring|exact H].
Qed.
End Wrong.
