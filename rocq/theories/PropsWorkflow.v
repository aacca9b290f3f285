(** The programs of PyQCodes/README.md: encode, apply logical operators, decode (C107),
    and the recovery loop (C106).  Specification: WorkflowSpec.v, CircuitSpec.v.
    Model: CircuitModel.v, CodesModel.v. *)
From Verif Require Import Py ZMat CodesModel RankSpec CodesSpec BoolLin Rank Gauss Gauss2 CodesProofs CodesProofs2 Logical PropsCodes Scalar PauliModel PauliSpec PauliProofs PropsPauli
  CircuitModel CircuitSpec CircuitProofs EncodeProofs CircuitProofs2 CircuitProofs3 CircuitProofs5 PropsCircuits QecProofs TextbookSpec WorkflowSpec WorkflowProofs.
From Coq Require Import Lia Bool.
Open Scope nat_scope.
Section Ring.
Context {K : StarRing}.
Add Ring KringPW : (s_rt K).
Lemma mul_zero (z : K) : smul z s0 = s0. Proof. ring. Qed.
Lemma unit_norm (z : K) : smul (sconj z) z = smul z (sconj z). Proof. ring. Qed.
Lemma add_zero (z : K) : sadd z s0 = z. Proof. ring. Qed.
Lemma bare_case (h im : K) : eqs 2 (run_bare h im [("Z"%char, 0); ("X"%char, 0); ("Y"%char, 1)] (ket [false; false])) (sscale im (ket [true; true])).
Proof.
  intros [|a [|b [|]]] Hy; try discriminate. unfold run_bare, letter_on. cbn [Ascii.eqb Bool.eqb]. unfold apply_gate, sscale, ket. cbn [forallb].
  destruct a, b; cbn; ring.
Qed.
Lemma unit_mul (z : K) : smul s1 z = z. Proof. ring. Qed.
End Ring.

(** ** C106: [encode h im n c st] is the state encoding_circuit prepares for st, E the
    matrix of the error and w the register it leaves.  The loop ends in z w, with a z of
    modulus 1 that is the same for all messages: it never changes the state. *)
Theorem C106_loop_partial (K : StarRing) (h im : K) g n k c err : qubit_constants h im ->
  init g n k None = Ok c -> valid_generators n k (zd (stab c)) -> even_ys n (zd (stab c)) ->
  length err = 2 * n -> binary err ->
  exists E : array K, binary_rep_to_pauli_mat (ZM 1 (2 * n) [err]) = Ok [MA (2 ^ n) (2 ^ n) E] /\
  exists z : K, smul z (sconj z) = s1 /\
  forall (l : list (K * list Z)) w outs, (forall x, In x l -> length (snd x) = k /\ binary (snd x)) ->
  matrix_maps n E (superpose l (encode h im n c)) w -> length outs = length (zd (normal_form c)) ->
  let seen := shown (zd (normal_form c)) err in
  eqs n (readme_loop h im n c (zd (normal_form c)) outs w)
        (if list_eq_dec bool_dec (firstn (length seen) outs) seen then sscale z w else fun _ => s0).
Proof.
  intros HC HI HV HE Le Be. assert (Hn : 1 <= n) by (destruct HV as (A & B & _); lia).
  destruct (single_mat (K := K) n err Hn Le Be) as (E & EE & PE). exists E. split; [exact EE|].
  exists (loop_phase im n (zd (normal_form c)) err). split; [exact (loop_phase_unit h im HC n (zd (normal_form c)) err)|]. intros l w outs Hl M Lo.
  apply (maps_prow n E err) in M; [|exact PE].
  apply (loop_effect h im HC n c (zd (normal_form c)) err (superpose l (encode h im n c))); try assumption.
  - apply (code_dims g n k c HI).
  - exact (normal_rows g n k c HI HV).
  - intros r Hr. apply (encoded_fixed h im g n k c l r); assumption.
Qed.
(** so whenever the loop reports an error, the register it leaves is orthogonal to the
    encoded message *)
Theorem C106_orthogonal_partial (K : StarRing) (h im : K) g n k c err (l : list (K * list Z)) outs : qubit_constants h im ->
  init g n k None = Ok c -> valid_generators n k (zd (stab c)) -> even_ys n (zd (stab c)) ->
  length err = 2 * n -> binary err -> (forall x, In x l -> length (snd x) = k /\ binary (snd x)) ->
  length outs = length (zd (normal_form c)) -> In true (shown (zd (normal_form c)) err) ->
  exists E : array K, binary_rep_to_pauli_mat (ZM 1 (2 * n) [err]) = Ok [MA (2 ^ n) (2 ^ n) E] /\
  forall w, matrix_maps n E (superpose l (encode h im n c)) w ->
  inner n (superpose l (encode h im n c)) (readme_loop h im n c (zd (normal_form c)) outs w) = s0.
Proof.
  intros HC HI HV HE Le Be Hl Lo D. destruct (C106_loop_partial K h im g n k c err HC HI HV HE Le Be) as (E & EE & z & _ & L).
  assert (Hn : 1 <= n) by (destruct HV as (A & B & _); lia).
  exists E. split; [exact EE|]. intros w M. specialize (L l w outs Hl M Lo). cbv zeta in L.
  destruct (single_mat (K := K) n err Hn Le Be) as (E' & EE' & PE). rewrite EE in EE'. injection EE' as <-. apply (maps_prow n E err) in M; [|exact PE].
  pose proof (detected_orthogonal h im HC n (zd (normal_form c)) err _ _ Hn (normal_rows g n k c HI HV) Le Be (fun r Hr => encoded_fixed h im g n k c l r HI HV HE HC Hl Hr) M D) as O.
  rewrite (inner_ext n _ _ _ _ (eqs_refl n _) L). destruct (list_eq_dec bool_dec _ _).
  - rewrite inner_scale_r, O. apply mul_zero.
  - apply inner_zero_r.
Qed.

(** The README's own code and error: the rows XXI and XIX, message 0, an X on the first
    qubit.  Both measurements report 0 and the loop ends, on a unit vector orthogonal to
    the encoded state.  With ZZI and IZZ, which do see the error, the loop applies the
    row that saw it and ends on a unit vector orthogonal to the encoded state as well. *)
Definition readme_code := [str "XXI"; str "XIX"].
Definition bitflip_code := [str "ZZI"; str "IZZ"].
Lemma superpose_one (K : StarRing) n (F : list Z -> @state K) st : eqs n (superpose [(s1, st)] F) (F st).
Proof. intros y _. unfold superpose. cbn [fold_right fst snd]. rewrite unit_mul. apply add_zero. Qed.
Lemma stuck g n c err outs evs : init g n 1 None = Ok c -> valid_generators n 1 (zd (stab c)) -> even_ys n (zd (stab c)) ->
  length err = 2 * n -> binary err -> levs [] (brow err) (zpart n (brow err)) (seq 0 n) = evs ->
  length outs = length (zd (normal_form c)) -> firstn (length (shown (zd (normal_form c)) err)) outs = shown (zd (normal_form c)) err ->
  In true (shown (zd (normal_form c) ++ [nth 0 (zd (logical_z c)) []]) err) ->
  forall (K : StarRing) (h im : K), qubit_constants h im ->
  let enc := encode h im n c [0%Z] in
  let last := readme_loop h im n c (zd (normal_form c)) outs (exec h im [] evs enc) in
  inner n enc enc = s1 /\ inner n last last = s1 /\ inner n enc last = s0.
Proof.
  intros HI HV HE Le Be Ev Lo Sh D K h im HC enc last. assert (Hn : 1 <= n) by (destruct HV as (A & B & _); lia).
  assert (B0 : binary [0%Z]) by (constructor; [left; reflexivity|constructor]).
  destruct (C15_encoding K h im g n 1 c [0%Z] HC HI HV HE eq_refl B0) as (_ & N & _). fold enc in N.
  assert (Hl : forall x : K * list Z, In x [(s1, [0%Z])] -> length (snd x) = 1 /\ binary (snd x)) by (intros x [<-|[]]; split; [reflexivity|exact B0]).
  assert (Fx : forall r, In r (zd (normal_form c)) -> eqs n (prow n (brow r) enc) enc).
  { intros r Hr. pose proof (encoded_fixed h im g n 1 c [(s1, [0%Z])] r HI HV HE HC Hl Hr) as F. pose proof (superpose_one K n (encode h im n c) [0%Z]) as S1. fold enc in S1.
    intros y Hy. rewrite <- (prow_eqs n (brow r) _ _ S1 y Hy), (F y Hy), (S1 y Hy). reflexivity. }
  pose proof (levs_prow h im n err enc) as M. rewrite Ev in M. set (hit := exec h im [] evs enc) in *. apply eqs_sym in M.
  pose proof (loop_effect h im HC n c (zd (normal_form c)) err enc Hn (proj1 (code_dims g n 1 c HI)) (normal_rows g n 1 c HI HV) Le Be Fx outs hit M Lo) as L. fold last in L.
  destruct (list_eq_dec bool_dec _ _) as [_|X]; [|contradiction]. set (z := loop_phase im n (zd (normal_form c)) err) in *.
  assert (U : smul z (sconj z) = s1) by exact (loop_phase_unit h im HC n (zd (normal_form c)) err).
  split; [exact N|]. split.
  - rewrite (inner_ext n _ _ _ _ L L), inner_scale. rewrite <- (inner_ext n _ _ _ _ M M), (prow_unitary h im HC n err), N, unit_norm, U. apply unit_mul.
  - rewrite (inner_ext n _ _ _ _ (eqs_refl n enc) L), inner_scale_r. 
    assert (LZ : eqs n (prow n (brow (nth 0 (zd (logical_z c)) [])) enc) enc).
    { pose proof (logical_z_ok h im g n 1 c HI HV 0 [0%Z] ltac:(lia) ltac:(lia) eq_refl B0) as O. rewrite (logical_z_events g n 1 c HI HV) in O by lia. cbn [fst] in O. fold enc in O.
      intros y Hy. rewrite <- (levs_prow h im n _ enc y Hy), (O y Hy). unfold sscale. cbn. apply unit_mul. }
    assert (RZ : length (nth 0 (zd (logical_z c)) []) = 2 * n /\ binary (nth 0 (zd (logical_z c)) [])).
    { destruct (logical_f g n 1 c HI HV) as (_ & OZ & _). apply (okm_row n 1); [exact OZ|lia]. }
    rewrite (detected_orthogonal h im HC n (zd (normal_form c) ++ [nth 0 (zd (logical_z c)) []]) err enc hit); try assumption; [apply mul_zero| |].
    + intros r Hr. apply in_app_iff in Hr. destruct Hr as [Hr|[<-|[]]]; [exact (normal_rows g n 1 c HI HV r Hr)|exact RZ].
    + intros r Hr. apply in_app_iff in Hr. destruct Hr as [Hr|[<-|[]]]; [exact (Fx r Hr)|exact LZ].
Qed.
Theorem C106_refuted : forall gens_used outs, (gens_used, outs) = (readme_code, [false; false]) \/ (gens_used, outs) = (bitflip_code, [true; false]) \/ (gens_used, outs) = (bitflip_code, [true; true]) ->
  exists c, init (Strings gens_used) 3 1 None = Ok c /\ valid_generators 3 1 (zd (stab c)) /\ even_ys 3 (zd (stab c)) /\
  forall (K : StarRing) (h im : K), qubit_constants h im ->
  let enc := encode h im 3 c [0%Z] in
  let last := readme_loop h im 3 c (zd (normal_form c)) outs (exec h im [] [Gate [] GX 0] enc) in
  inner 3 enc enc = s1 /\ inner 3 last last = s1 /\ inner 3 enc last = s0.
Proof.
  assert (R : forall g0 outs c, init (Strings g0) 3 1 None = Ok c -> valid_generators 3 1 (zd (stab c)) -> even_ys 3 (zd (stab c)) ->
    length outs = length (zd (normal_form c)) -> firstn (length (shown (zd (normal_form c)) [1;0;0;0;0;0]%Z)) outs = shown (zd (normal_form c)) [1;0;0;0;0;0]%Z ->
    In true (shown (zd (normal_form c) ++ [nth 0 (zd (logical_z c)) []]) [1;0;0;0;0;0]%Z) ->
    exists c, init (Strings g0) 3 1 None = Ok c /\ valid_generators 3 1 (zd (stab c)) /\ even_ys 3 (zd (stab c)) /\
    forall (K : StarRing) (h im : K), qubit_constants h im ->
    let enc := encode h im 3 c [0%Z] in
    let last := readme_loop h im 3 c (zd (normal_form c)) outs (exec h im [] [Gate [] GX 0] enc) in
    inner 3 enc enc = s1 /\ inner 3 last last = s1 /\ inner 3 enc last = s0).
  { intros g0 outs c HI HV HE Lo Sh D. exists c. split; [exact HI|]. split; [exact HV|]. split; [exact HE|].
    apply (stuck (Strings g0) 3 c [1;0;0;0;0;0]%Z outs); try assumption; [reflexivity|repeat (constructor; [auto|]); constructor|reflexivity]. }
  intros g0 outs [E|[E|E]]; injection E as -> ->; (eapply R; [compute_it|valid|repeat constructor|reflexivity|reflexivity|]).
  - right. right. left. reflexivity.
  - left. reflexivity.
  - left. reflexivity.
Qed.
Print Assumptions C106_loop_partial.
Print Assumptions C106_orthogonal_partial.
Print Assumptions C106_refuted.
Example C106_case : exists c, init (Strings five_qubit) 5 1 None = Ok c /\ valid_generators 5 1 (zd (stab c)) /\ even_ys 5 (zd (stab c)) /\
  shown (zd (normal_form c)) [0; 0; 1; 0; 0; 0; 0; 0; 0; 0]%Z = [false; true] /\ firstn 2 [false; true; true; false] = [false; true].
Proof. eexists. split; [compute_it|]. split; [valid|]. split; [repeat constructor|]. split; compute_it. Qed.

(** ** C107: [cmds] are the logical operators in the order of the calls, ("Y", 1) for the
    call with 'Y1'.  Decoding leaves the message with the same Paulis applied to its bare
    qubits, as textbook matrices, times -i for every Y. *)
Definition logical_ops k (cmds : list (ascii * nat)) : Prop := forall p i, In (p, i) cmds -> (p = "X" \/ p = "Y" \/ p = "Z")%char /\ i < k /\ i < 10.
Theorem C107_workflow (K : StarRing) (h im : K) g n k c cmds (l : list (K * list Z)) : qubit_constants h im ->
  init g n k None = Ok c -> valid_generators n k (zd (stab c)) -> logical_ops k cmds ->
  (forall x, In x l -> length (snd x) = k /\ binary (snd x)) ->
  let after := run_logical h im n c cmds (superpose l (encode h im n c)) in
  let answer := sscale (minus_i_per_y im cmds) (run_bare h im cmds (superpose l (fun st => ket (message st)))) in
  eqs (n + k) (exec h im [] (fst (decoding_circuit c (n + k) (seq 0 (n + k)) false false)) (beside n after (ket (repeat false k))))
              (beside n (encode h im n c (repeat 0%Z k)) answer) /\
  eqs (n + k) (exec h im [] (fst (decoding_circuit c n (seq 0 n) true false)) after)
              (beside n (encode h im n c (repeat 0%Z k)) answer).
Proof. intros HC HI HV G Hl. exact (workflow h im HC g n k c HI HV cmds l G Hl). Qed.
(** with deallocate_nqubits the data qubits are measured: whatever the outcomes, their
    state does not depend on the message or on the operators *)
Theorem C107_measured (K : StarRing) (h im : K) g n k c outs : qubit_constants h im ->
  init g n k None = Ok c -> valid_generators n k (zd (stab c)) ->
  exists phi1 phi2, forall cmds (l : list (K * list Z)), logical_ops k cmds ->
  (forall x, In x l -> length (snd x) = k /\ binary (snd x)) ->
  let after := run_logical h im n c cmds (superpose l (encode h im n c)) in
  let answer := sscale (minus_i_per_y im cmds) (run_bare h im cmds (superpose l (fun st => ket (message st)))) in
  eqs (n + k) (exec h im outs (fst (decoding_circuit c (n + k) (seq 0 (n + k)) false true)) (beside n after (ket (repeat false k)))) (beside n phi1 answer) /\
  eqs (n + k) (exec h im outs (fst (decoding_circuit c n (seq 0 n) true true)) after) (beside n phi2 answer).
Proof. intros HC HI HV. exact (workflow_measured h im HC g n k c HI HV outs). Qed.
Print Assumptions C107_workflow.
Print Assumptions C107_measured.
(** the [[4,2]] code, and Z0 then X0 then Y1 on two message qubits: |00>
    becomes i |11> *)
Example C107_case : exists c, init (Strings four2) 4 2 None = Ok c /\ valid_generators 4 2 (zd (stab c)) /\
  logical_ops 2 [("Z"%char, 0); ("X"%char, 0); ("Y"%char, 1)] /\
  forall (K : StarRing) (h im : K), eqs 2 (run_bare h im [("Z"%char, 0); ("X"%char, 0); ("Y"%char, 1)] (ket [false; false])) (sscale im (ket [true; true])).
Proof.
  eexists. split; [compute_it|]. split; [valid|]. split.
  - intros p i [E|[E|[E|[]]]]; injection E as <- <-; repeat split; auto; lia.
  - intros K h im y Hy. apply bare_case, Hy.
Qed.
