(** Measuring a generator on an arbitrary state (C112), correcting arbitrary errors
    (C113), and measuring the given generators on encoded states (C114).
    Specification: MeasureSpec.v, CircuitSpec.v, QecSpec.v, WorkflowSpec.v, EncodedSpec.v. *)
From Verif Require Import Py ZMat CodesModel RankSpec CodesSpec CodesProofs CodesProofs2 Rank Gauss2 PropsCodes Scalar PauliModel PauliSpec PauliProofs2 PropsPauli
  CircuitModel CircuitSpec CircuitProofs EncodeProofs CircuitProofs2 CircuitProofs3 CircuitProofs5 PropsCircuits QecSpec QecProofs WorkflowSpec WorkflowProofs EncodedSpec EncodedProofs PropsEncoded SameCodeSpec SameCodeProofs PropsSameCode MeasureSpec MeasureProofs.
From Coq Require Import Reals Lia Bool.
Open Scope nat_scope.


(** ** C112: on every state v, with the operator A of the row, outcome b leaves
    (v + (-1)^b A v)/2, on a fresh ancilla or (flipped by its value a) on the caller's *)
Theorem C112_projection_partial (K : StarRing) (h im : K) n c row arg : qubit_constants h im -> 1 <= n -> cn c = n -> length row = 2 * n -> binary row ->
  arg = AsArray row \/ (exists p, arg = AsString p /\ binary_rep_to_pauli_str row = Ok p) ->
  exists A : array K, binary_rep_to_pauli_mat (ZM 1 (2 * n) [row]) = Ok [MA (2 ^ n) (2 ^ n) A] /\
  forall v w a b, matrix_maps n A v w ->
    snd (single_syndrome_measurement c (n + 1) (seq 0 (n + 1)) arg) = Ok n /\
    eqs (n + 1) (exec h im [b] (fst (single_syndrome_measurement c (n + 1) (seq 0 (n + 1)) arg)) (tensor n v [a])) (tensor n (projected h (xorb a b) v w) [b]) /\
    snd (single_syndrome_measurement c n (seq 0 n) arg) = Ok n /\
    eqs (n + 1) (exec h im [b] (fst (single_syndrome_measurement c n (seq 0 n) arg)) v) (tensor n (projected h b v w) [b]).
Proof.
  intros HC Hn Ec L B Ha. destruct (single_mat (K := K) n row Hn L B) as (A & EA & PA). exists A. split; [exact EA|]. intros v w a b M.
  apply (projective h im n c row arg A v w a b); try assumption.
Qed.
Section Fresh.
Context (K : StarRing) (h im : K) (n : nat) (c : code) (row : list Z) (arg : stabarg).
Add Ring KringPM : (s_rt K).
Hypothesis HC : qubit_constants h im.
Hypotheses (Hn : 1 <= n) (Ec : cn c = n) (L : length row = 2 * n) (B : binary row).
Hypothesis Ha : arg = AsArray row \/ (exists p, arg = AsString p /\ binary_rep_to_pauli_str row = Ok p).
(** the branch of outcome b *)
Let branch b v := exec h im [b] (fst (single_syndrome_measurement c n (seq 0 n) arg)) v.
Lemma fresh_branch A v w b : binary_rep_to_pauli_mat (ZM 1 (2 * n) [row]) = Ok [MA (2 ^ n) (2 ^ n) A] -> matrix_maps n A v w ->
  eqs n (prow n (brow row) v) w /\ eqs (n + 1) (branch b v) (tensor n (projected h b v w) [b]) /\ eqs n (projected h b v w) (projected h b v (prow n (brow row) v)).
Proof.
  intros EA M. destruct (single_mat (K := K) n row Hn L B) as (A' & EA' & PA). rewrite EA in EA'. injection EA' as <-.
  assert (W : eqs n (prow n (brow row) v) w) by (apply (maps_prow n A row v w PA), M). split; [exact W|]. split.
  - exact (proj2 (proj2 (proj2 (projective h im n c row arg A v w false b Hn Ec L B Ha PA M)))).
  - intros y Hy. unfold projected. rewrite (W y Hy). reflexivity.
Qed.
Lemma even_xsum : Nat.even (y_count n row) = true -> BoolLin.xsum n (fun j => brow row j && brow row (n + j))%bool = false.
Proof. intros E. rewrite <- Nat.negb_odd, (y_count_xsum n row B), negb_true_iff in E. exact E. Qed.
Lemma odd_xsum : Nat.odd (y_count n row) = true -> BoolLin.xsum n (fun j => brow row j && brow row (n + j))%bool = true.
Proof. intros E. rewrite (y_count_xsum n row B) in E. exact E. Qed.
Lemma branch_norm A v w b : binary_rep_to_pauli_mat (ZM 1 (2 * n) [row]) = Ok [MA (2 ^ n) (2 ^ n) A] -> matrix_maps n A v w ->
  inner (n + 1) (branch b v) (branch b v) = inner n (projected h b v (prow n (brow row) v)) (projected h b v (prow n (brow row) v)).
Proof.
  intros EA M. destruct (fresh_branch A v w b EA M) as (W & X & P). rewrite (inner_ext (n + 1) _ _ _ _ X X), inner_tensor. apply inner_ext; exact P.
Qed.
End Fresh.
(** an outcome never occurs exactly on the eigenstates of the other sign *)
Theorem C112_certain_partial (K : StarRing) (h im : K) n c row arg : qubit_constants h im -> 1 <= n -> cn c = n -> length row = 2 * n -> binary row ->
  arg = AsArray row \/ (exists p, arg = AsString p /\ binary_rep_to_pauli_str row = Ok p) ->
  exists A : array K, binary_rep_to_pauli_mat (ZM 1 (2 * n) [row]) = Ok [MA (2 ^ n) (2 ^ n) A] /\
  forall v b, eqs (n + 1) (exec h im [b] (fst (single_syndrome_measurement c n (seq 0 n) arg)) v) (fun _ => s0) <-> matrix_maps n A v (sscale (sgn (negb b)) v).
Proof.
  intros HC Hn Ec L B Ha. destruct (single_mat (K := K) n row Hn L B) as (A & EA & PA). exists A. split; [exact EA|]. intros v b.
  pose proof (proj2 (maps_prow n A row v (prow n (brow row) v) PA) (eqs_refl n _)) as M.
  destruct (fresh_branch K h im n c row arg Hn Ec L B Ha A v _ b EA M) as (_ & X & _).
  assert (Z : eqs (n + 1) (exec h im [b] (fst (single_syndrome_measurement c n (seq 0 n) arg)) v) (fun _ => s0) <-> eqs n (projected h b v (prow n (brow row) v)) (fun _ => s0)).
  { split; intros H.
    - intros y Hy. assert (Hy' : length (y ++ [b]) = n + 1) by (rewrite app_length; cbn; lia). specialize (X _ Hy'). rewrite (tensor_last n) in X by exact Hy. rewrite eqb_reflx in X. rewrite <- X. apply H, Hy'.
    - intros y Hy. rewrite (X y Hy). unfold tensor. destruct (list_eq_dec _ _ _); [|reflexivity]. apply H. rewrite firstn_length. lia. }
  rewrite Z, (maps_prow n A row _ _ PA). clear Z X. split; intros H y Hy; specialize (H y Hy).
  - apply (project_zero h im HC b). exact H.
  - apply (project_zero h im HC b). exact H.
Qed.
(** a row with an even number of Ys: the probability of outcome b is (<v|v> + (-1)^b <v|A v>)/2 *)
Theorem C112_probability_partial (K : StarRing) (h im : K) n c row arg : qubit_constants h im -> 1 <= n -> cn c = n -> length row = 2 * n -> binary row ->
  arg = AsArray row \/ (exists p, arg = AsString p /\ binary_rep_to_pauli_str row = Ok p) -> Nat.even (y_count n row) = true ->
  exists A : array K, binary_rep_to_pauli_mat (ZM 1 (2 * n) [row]) = Ok [MA (2 ^ n) (2 ^ n) A] /\
  forall v w b, matrix_maps n A v w ->
    let branch := exec h im [b] (fst (single_syndrome_measurement c n (seq 0 n) arg)) v in
    inner (n + 1) branch branch = smul (smul h h) (sadd (inner n v v) (smul (sgn b) (inner n v w))).
Proof.
  intros HC Hn Ec L B Ha E. destruct (single_mat (K := K) n row Hn L B) as (A & EA & PA). exists A. split; [exact EA|]. intros v w b M branch.
  unfold branch. rewrite (branch_norm K h im n c row arg Hn Ec L B Ha A v w b EA M), (probability h im HC) by (apply even_xsum; assumption).
  destruct (fresh_branch K h im n c row arg Hn Ec L B Ha A v w b EA M) as (W & _ & _). rewrite (inner_ext n v _ v w (eqs_refl n v) W). reflexivity.
Qed.
(** ... and measuring again, on a new ancilla, gives the same outcome and changes nothing *)
Theorem C112_repeat_partial (K : StarRing) (h im : K) n c row arg : qubit_constants h im -> 1 <= n -> cn c = n -> length row = 2 * n -> binary row ->
  arg = AsArray row \/ (exists p, arg = AsString p /\ binary_rep_to_pauli_str row = Ok p) -> Nat.even (y_count n row) = true ->
  forall v b b', let once := drop_ancilla b (exec h im [b] (fst (single_syndrome_measurement c n (seq 0 n) arg)) v) in
    eqs (n + 1) (exec h im [b'] (fst (single_syndrome_measurement c n (seq 0 n) arg)) once) (if Bool.eqb b' b then tensor n once [b] else fun _ => s0).
Proof.
  intros HC Hn Ec L B Ha E v b b' once. destruct (single_mat (K := K) n row Hn L B) as (A & EA & PA).
  pose proof (proj2 (maps_prow n A row v (prow n (brow row) v) PA) (eqs_refl n _)) as M.
  destruct (fresh_branch K h im n c row arg Hn Ec L B Ha A v _ b EA M) as (_ & X & _).
  assert (O : eqs n once (projected h b v (prow n (brow row) v))) by (apply (eqs_trans _ _ _ _ (drop_eqs n _ _ b X)), drop_tensor).
  assert (EV : matrix_maps n A once (sscale (sgn b) once)).
  { apply (maps_prow n A row _ _ PA). apply (eqs_trans _ _ _ _ (prow_eqs n (brow row) _ _ O)). apply (eqs_trans _ _ _ _ (repeatable h n row b v (even_xsum n row B E))).
    intros y Hy. unfold sscale. rewrite (O y Hy). reflexivity. }
  destruct (C18_syndrome K h im n c row arg once false b b' HC Hn Ec L B Ha) as (A' & EA' & S). rewrite EA in EA'. injection EA' as <-.
  pose proof (proj2 (proj2 (proj2 (S EV)))) as R. destruct (Bool.eqb b' b) eqn:Eb; [apply eqb_prop in Eb; subst b'|]; exact R.
Qed.
(** a state fixed by an operator that anticommutes with the measured one: both outcomes have probability 1/2 *)
Theorem C112_coin_partial (K : StarRing) (h im : K) n c row arg s : qubit_constants h im -> 1 <= n -> cn c = n -> length row = 2 * n -> binary row ->
  arg = AsArray row \/ (exists p, arg = AsString p /\ binary_rep_to_pauli_str row = Ok p) -> Nat.even (y_count n row) = true ->
  length s = 2 * n -> binary s -> inner_prod row s = 1%Z ->
  exists S : array K, binary_rep_to_pauli_mat (ZM 1 (2 * n) [s]) = Ok [MA (2 ^ n) (2 ^ n) S] /\
  forall v b, matrix_fixes n S v ->
    let branch := exec h im [b] (fst (single_syndrome_measurement c n (seq 0 n) arg)) v in
    inner (n + 1) branch branch = smul (smul h h) (inner n v v).
Proof.
  intros HC Hn Ec L B Ha E Ls Bs I. destruct (single_mat (K := K) n s Hn Ls Bs) as (S & ES & PS). exists S. split; [exact ES|]. intros v b F branch.
  apply (fixes_prow n S s v PS) in F. destruct (single_mat (K := K) n row Hn L B) as (A & EA & PA).
  pose proof (proj2 (maps_prow n A row v (prow n (brow row) v) PA) (eqs_refl n _)) as M.
  unfold branch. rewrite (branch_norm K h im n c row arg Hn Ec L B Ha A v _ b EA M), (probability h im HC) by (apply even_xsum; assumption).
  rewrite (anticommuting h im HC n row s v); [apply coin_ring| |exact F].
  rewrite (inner_prod_ip n) in I by assumption. destruct (BoolLin.ip n (brow row) (brow s)); [reflexivity|discriminate].
Qed.
(** a row with an odd number of Ys: both outcomes have probability 1/2 on every state,
    so also when the measurement is repeated *)
Theorem C112_odd_partial (K : StarRing) (h im : K) n c row arg : qubit_constants h im -> 1 <= n -> cn c = n -> length row = 2 * n -> binary row ->
  arg = AsArray row \/ (exists p, arg = AsString p /\ binary_rep_to_pauli_str row = Ok p) -> Nat.odd (y_count n row) = true ->
  forall v b, let branch := exec h im [b] (fst (single_syndrome_measurement c n (seq 0 n) arg)) v in
    inner (n + 1) branch branch = smul (smul h h) (inner n v v).
Proof.
  intros HC Hn Ec L B Ha E v b branch. destruct (single_mat (K := K) n row Hn L B) as (A & EA & PA).
  pose proof (proj2 (maps_prow n A row v (prow n (brow row) v) PA) (eqs_refl n _)) as M.
  unfold branch. rewrite (branch_norm K h im n c row arg Hn Ec L B Ha A v _ b EA M). apply (odd_coin h im HC), odd_xsum; assumption.
Qed.
(** YI on |00>: every outcome of the second measurement has probability 1/2 after every outcome of the first *)
Theorem C112_refuted : exists c, init (Strings [str "YI"]) 2 1 None = Ok c /\ valid_generators 2 1 (zd (stab c)) /\
  forall (K : StarRing) (h im : K), qubit_constants h im -> forall b b',
  let meas := fst (single_syndrome_measurement c 2 (seq 0 2) (AsString (str "YI"))) in
  let first := exec h im [b] meas (zero_ket 2) in
  let second := exec h im [b'] meas (drop_ancilla b first) in
  inner (2 + 1) first first = smul h h /\ inner (2 + 1) second second = smul (smul h h) (smul h h).
Proof.
  destruct (init (Strings [str "YI"]) 2 1 None) as [c|e] eqn:HI; [|vm_compute in HI; discriminate]. exists c. split; [reflexivity|].
  assert (Ec : Ok c = init (Strings [str "YI"]) 2 1 None) by (symmetry; exact HI).
  assert (HV : valid_generators 2 1 (zd (stab c))) by (vm_compute in Ec; injection Ec as ->; valid). split; [exact HV|].
  intros K h im HC b b' meas first second. pose proof (proj1 (code_dims _ 2 1 c HI)) as En.
  assert (BY : binary [1; 0; 1; 0]%Z) by (repeat (constructor; [auto|]); constructor).
  assert (AY : AsString (str "YI") = AsArray [1; 0; 1; 0]%Z \/ (exists p, AsString (str "YI") = AsString p /\ binary_rep_to_pauli_str [1; 0; 1; 0]%Z = Ok p)) by (right; eexists; split; reflexivity).
  pose proof (C112_odd_partial K h im 2 c [1; 0; 1; 0]%Z (AsString (str "YI")) HC ltac:(lia) En eq_refl BY AY eq_refl) as O.
  assert (N0 : inner 2 (zero_ket 2) (zero_ket 2) = (s1 : K)) by (unfold zero_ket; rewrite inner_ket by reflexivity; apply ket_self).
  assert (N1 : inner (2 + 1) first first = smul h h) by (unfold first, meas; rewrite (O (zero_ket 2) b), N0; apply mul_one_r).
  split; [exact N1|]. unfold second, meas. rewrite (O (drop_ancilla b first) b'). f_equal. rewrite <- N1. symmetry.
  destruct (single_mat (K := K) 2 [1; 0; 1; 0]%Z ltac:(lia) eq_refl BY) as (A & EA & PA).
  pose proof (proj2 (maps_prow 2 A [1; 0; 1; 0]%Z (zero_ket 2) (prow 2 (brow [1; 0; 1; 0]%Z) (zero_ket 2)) PA) (eqs_refl 2 _)) as M.
  destruct (fresh_branch K h im 2 c [1; 0; 1; 0]%Z (AsString (str "YI")) ltac:(lia) En eq_refl BY AY A _ _ b EA M) as (_ & X & _).
  fold meas in X. fold first in X. rewrite (inner_ext (2 + 1) _ _ _ _ X X), inner_tensor. symmetry. apply inner_ext; apply (eqs_trans _ _ _ _ (drop_eqs 2 _ _ b X)), drop_tensor.
Qed.
Print Assumptions C112_projection_partial.
Print Assumptions C112_certain_partial.
Print Assumptions C112_probability_partial.
Print Assumptions C112_repeat_partial.
Print Assumptions C112_coin_partial.
Print Assumptions C112_odd_partial.
Print Assumptions C112_refuted.
(** XX on |00>, which is not an eigenstate of it but fixed by ZI, which anticommutes with XX *)
Example C112_case : exists c, init (Strings [str "XX"]) 2 1 None = Ok c /\ cn c = 2 /\ Nat.even (y_count 2 [1; 1; 0; 0]%Z) = true /\ inner_prod [1; 1; 0; 0]%Z [0; 0; 1; 0]%Z = 1%Z /\
  exists A S : array GI, binary_rep_to_pauli_mat (ZM 1 4 [[1; 1; 0; 0]%Z]) = Ok [MA 4 4 A] /\ matrix_maps 2 A (zero_ket 2) (ket [true; true]) /\
  binary_rep_to_pauli_mat (ZM 1 4 [[0; 0; 1; 0]%Z]) = Ok [MA 4 4 S] /\ matrix_fixes 2 S (zero_ket 2).
Proof.
  eexists. split; [compute_it|]. split; [reflexivity|]. split; [reflexivity|]. split; [reflexivity|]. eexists. eexists. split; [reflexivity|]. split; [|split; [reflexivity|]];
  intros i Hi; do 4 (destruct i as [|i]; [reflexivity|]); cbn in Hi; lia.
Qed.

(** ** C113: err is any combination of terms, each a product of arbitrary 2x2 matrices on at
    most t qubits.  After a round of measurements with outcomes outs, either these outcomes
    never occur or some correction on at most t qubits has these readings, and every such
    correction restores the message up to one factor, the same for all messages *)
Theorem C113_any_error (K : StarRing) (h im : K) g n k c t (err : list (K * list (nat * (bool -> bool -> K)))) outs a : qubit_constants h im ->
  init g n k None = Ok c -> valid_generators n k (zd (stab c)) -> even_ys n (zd (stab c)) ->
  distance_at_least n (zd (normal_form c)) (2 * t + 1) ->
  (forall p, In p err -> Forall (fun q => q < n) (touched (snd p)) /\ length (touched (snd p)) <= t) ->
  length outs = length (zd (normal_form c)) ->
  let message_ok l := forall p : K * list Z, In p l -> length (snd p) = k /\ binary (snd p) in
  let encoded l := superpose l (encode h im n c) in
  let measured l := measure_syndromes h im n c (zd (normal_form c)) outs (tensor n (superpose err (fun ops => noise ops (encoded l))) [a]) in
  ((exists corr, length corr = 2 * n /\ binary corr /\ weight n corr <= t /\ readings n (zd (normal_form c)) corr a = outs) \/
   (forall l, message_ok l -> eqs (n + 1) (measured l) (fun _ => s0))) /\
  (forall l, message_ok l -> eqs (n + 1) (measured l) (tensor n (drop_ancilla (last outs a) (measured l)) [last outs a])) /\
  forall corr, length corr = 2 * n -> binary corr -> weight n corr <= t -> readings n (zd (normal_form c)) corr a = outs ->
  exists z : K, forall l, message_ok l ->
  let corrected := exec h im [] (fst (apply_stabilizer_circuit (seq 0 n) (AsArray corr))) (drop_ancilla (last outs a) (measured l)) in
  eqs n corrected (sscale z (encoded l)) /\
  eqs (n + k) (exec h im [] (fst (decoding_circuit c n (seq 0 n) true false)) corrected)
    (sscale z (superpose l (fun st => tensor n (encode h im n c (repeat 0%Z k)) (message st)))).
Proof. intros HC HI HV HE D He Lo. exact (any_error h im HC g n k c t HI HV HE err outs a D He Lo). Qed.
Print Assumptions C113_any_error.
(** the five-qubit code and an error that mixes an arbitrary matrix on qubit 0 with one on qubit 3 *)
Example C113_case : exists c, init (Strings five_qubit) 5 1 None = Ok c /\ valid_generators 5 1 (zd (stab c)) /\ even_ys 5 (zd (stab c)) /\
  distance_at_least 5 (zd (normal_form c)) (2 * 1 + 1) /\
  forall (x y : CC) (M N : bool -> bool -> CC) p, In p [(x, [(0, M); (0, N)]); (y, [(3, N)])] -> Forall (fun q => q < 5) (touched (snd p)) /\ length (touched (snd p)) <= 1.
Proof.
  eexists. split; [compute_it|]. split; [valid|]. split; [repeat constructor|]. split; [apply distanceb_ok; compute_it|].
  intros x y M N p [<- | [<- | []]]; (split; [repeat constructor|]; cbn; lia).
Qed.

(** ** C114: measuring a generator that is a combination cs of the rows of normal_form:
    the outcome is certain on every encoded superposition, and may be 1 *)
Lemma span_maps (K : StarRing) (h im : K) g n k c row cs : qubit_constants h im ->
  init g n k None = Ok c -> valid_generators n k (zd (stab c)) -> even_ys n (zd (stab c)) ->
  length row = 2 * n -> binary row -> length cs = n - k -> (forall j, j < 2 * n -> (2 | nth j row 0 - lcomb cs (zd (normal_form c)) j)%Z) ->
  forall l, (forall p, In p l -> length (snd p) = k /\ binary (snd p)) ->
  eqs n (prow n (brow row) (superpose l (encode h im n c))) (sscale (sgn (Z.odd (cross_sign n cs (zd (normal_form c))))) (superpose l (encode h im n c))).
Proof.
  intros HC HI HV HE L B Lc S l Hl y Hy. assert (Hn : 1 <= n) by (destruct HV as (X & Y & _); lia). rewrite prow_superpose.
  rewrite (superpose_ext l _ (fun st => sscale (sgn (Z.odd (cross_sign n cs (zd (normal_form c))))) (encode h im n c st))); [apply superpose_scaled|].
  intros p Hp. destruct (Hl p Hp) as [Lp Bp]. destruct (C105_sign_partial K h im g n k c row cs (snd p) HC HI HV HE Lp Bp L B Lc S) as (A & EA & M).
  destruct (single_mat (K := K) n row Hn L B) as (A' & EA' & PA). rewrite EA in EA'. injection EA' as <-. rewrite pm1_sgn in M. apply (maps_prow n A row _ _ PA) in M. apply M, Hy.
Qed.
Theorem C114_certain_partial (K : StarRing) (h im : K) g n k c row cs : qubit_constants h im ->
  init g n k None = Ok c -> valid_generators n k (zd (stab c)) -> even_ys n (zd (stab c)) ->
  length row = 2 * n -> binary row -> length cs = n - k -> (forall j, j < 2 * n -> (2 | nth j row 0 - lcomb cs (zd (normal_form c)) j)%Z) ->
  forall l b, (forall p, In p l -> length (snd p) = k /\ binary (snd p)) ->
  eqs (n + 1) (exec h im [b] (fst (single_syndrome_measurement c n (seq 0 n) (AsArray row))) (superpose l (encode h im n c)))
    (if Bool.eqb b (Z.odd (cross_sign n cs (zd (normal_form c)))) then tensor n (superpose l (encode h im n c)) [b] else fun _ => s0).
Proof.
  intros HC HI HV HE L B Lc S l b Hl. assert (Hn : 1 <= n) by (destruct HV as (X & Y & _); lia). set (e := Z.odd _).
  destruct (C18_syndrome K h im n c row (AsArray row) (superpose l (encode h im n c)) false e b HC Hn (proj1 (code_dims g n k c HI)) L B (or_introl eq_refl)) as (A & EA & X).
  apply X. destruct (single_mat (K := K) n row Hn L B) as (A' & EA' & PA). rewrite EA in EA'. injection EA' as <-. apply (maps_prow n A row _ _ PA). apply (span_maps K h im g n k c row cs); assumption.
Qed.
(** a generator that anticommutes with a row of normal_form: both outcomes have probability
    1/2 on every encoded superposition *)
Theorem C114_coin_partial (K : StarRing) (h im : K) g n k c r s : qubit_constants h im ->
  init g n k None = Ok c -> valid_generators n k (zd (stab c)) -> even_ys n (zd (stab c)) ->
  In r (zd (stab c)) -> In s (zd (normal_form c)) -> inner_prod r s = 1%Z ->
  forall l b, (forall p, In p l -> length (snd p) = k /\ binary (snd p)) ->
  let psi := superpose l (encode h im n c) in
  let branch := exec h im [b] (fst (single_syndrome_measurement c n (seq 0 n) (AsArray r))) psi in
  inner (n + 1) branch branch = smul (smul h h) (inner n psi psi).
Proof.
  intros HC HI HV HE Hr Hs I l b Hl psi branch. assert (Hn : 1 <= n) by (destruct HV as (X & Y & _); lia).
  destruct (normal_rows g n k c HI HV s Hs) as [Ls Bs]. destruct (given_row n k _ r HV Hr) as [Lr Br].
  assert (Er : Nat.even (y_count n r) = true) by (unfold even_ys in HE; rewrite Forall_forall in HE; apply HE, Hr).
  destruct (C112_coin_partial K h im n c r (AsArray r) s HC Hn (proj1 (code_dims g n k c HI)) Lr Br (or_introl eq_refl) Er Ls Bs I) as (S & ES & X).
  apply X. destruct (single_mat (K := K) n s Hn Ls Bs) as (S' & ES' & PS). rewrite ES in ES'. injection ES' as <-. apply (fixes_prow n S s psi PS). apply (encoded_fixed h im g n k c l s); assumption.
Qed.
(** All the given generators report 0 on all the encoded states exactly when the circuit
    prepares the code of the matrix that encode_krauss_operators returns (C111). *)
Theorem C114_exactly_partial eigh (h im : CC) g n k c : eigh_ok eigh -> qubit_constants h im ->
  init g n k None = Ok c -> valid_generators n k (zd (stab c)) -> even_ys n (zd (stab c)) ->
  exists E, encode_krauss_operators eigh c = Ok (MA (2 ^ n) (2 ^ k) E) /\
  ((forall r st, In r (zd (stab c)) -> length st = k -> binary st ->
      eqs (n + 1) (exec h im [true] (fst (single_syndrome_measurement c n (seq 0 n) (AsArray r))) (encode h im n c st)) (fun _ => s0)) <->
   (forall psi, encoded_by n k (encode h im n c) psi <-> in_columns n (2 ^ k) E psi)).
Proof.
  intros EO HC HI HV HE. destruct (C111_exactly_partial eigh h im g n k c EO HC HI HV HE) as (E & EE & X). exists E. split; [exact EE|]. rewrite X. clear X.
  assert (Hn : 1 <= n) by (destruct HV as (P & Q & _); lia).
  split; intros H r st Hr Ls Bs; specialize (H r st Hr Ls Bs); destruct (given_row n k _ r HV Hr) as [Lr Br];
    destruct (C112_certain_partial CC h im n c r (AsArray r) HC Hn (proj1 (code_dims g n k c HI)) Lr Br (or_introl eq_refl)) as (A & EA & X);
    destruct (single_mat (K := CC) n r Hn Lr Br) as (A' & EA' & PA); rewrite EA in EA'; injection EA' as <-.
  - exists A. split; [exact EA|]. apply X in H. apply (maps_prow n A r _ _ PA) in H. apply (fixes_prow n A r _ PA). intros y Hy. rewrite (H y Hy). apply scale_one.
  - apply X. destruct H as (A' & EA' & F). rewrite EA in EA'. injection EA' as <-. apply (fixes_prow n A r _ PA) in F. apply (maps_prow n A r _ _ PA). intros y Hy. rewrite (F y Hy). symmetry. apply scale_one.
Qed.
(** The five-qubit code: the third generator, XIXZZ, reports 1 with certainty on every
    encoded superposition; the first, XZZXI, reports 0 *)
Theorem C114_refuted : exists c, init (Strings five_qubit) 5 1 None = Ok c /\ valid_generators 5 1 (zd (stab c)) /\ even_ys 5 (zd (stab c)) /\
  forall (K : StarRing) (h im : K), qubit_constants h im -> forall l b, (forall p : K * list Z, In p l -> length (snd p) = 1 /\ binary (snd p)) ->
  let outcome p := exec h im [b] (fst (single_syndrome_measurement c 5 (seq 0 5) (AsString p))) (superpose l (encode h im 5 c)) in
  eqs (5 + 1) (outcome (str "XIXZZ")) (if b then tensor 5 (superpose l (encode h im 5 c)) [true] else fun _ => s0) /\
  eqs (5 + 1) (outcome (str "XZZXI")) (if b then fun _ => s0 else tensor 5 (superpose l (encode h im 5 c)) [false]).
Proof.
  destruct (init (Strings five_qubit) 5 1 None) as [c|e] eqn:HI; [|vm_compute in HI; discriminate]. exists c. split; [reflexivity|].
  assert (Ec : Ok c = init (Strings five_qubit) 5 1 None) by (symmetry; exact HI).
  assert (HV : valid_generators 5 1 (zd (stab c))) by (vm_compute in Ec; injection Ec as ->; valid).
  assert (HE : even_ys 5 (zd (stab c))) by (vm_compute in Ec; injection Ec as ->; repeat (constructor; [reflexivity|]); constructor).
  assert (EN : zd (normal_form c) = [[1; 0; 0; 0; 1; 1; 1; 0; 1; 1]; [0; 1; 0; 0; 1; 0; 0; 1; 1; 0]; [0; 0; 1; 0; 1; 1; 1; 0; 0; 0]; [0; 0; 0; 1; 1; 1; 0; 1; 1; 1]]%Z) by (vm_compute in Ec; injection Ec as ->; reflexivity).
  split; [exact HV|]. split; [exact HE|]. intros K h im HC l b Hl outcome.
  assert (G : forall p row cs, binary_rep_to_pauli_str row = Ok p -> length row = 2 * 5 -> binary row -> length cs = 4 ->
    (forall j, j < 2 * 5 -> (2 | nth j row 0 - lcomb cs (zd (normal_form c)) j)%Z) ->
    eqs (5 + 1) (outcome p) (if Bool.eqb b (Z.odd (cross_sign 5 cs (zd (normal_form c)))) then tensor 5 (superpose l (encode h im 5 c)) [b] else fun _ => s0)).
  { intros p row cs Ep L B Lc S. pose proof (proj1 (code_dims _ 5 1 c HI)) as En.
    destruct (C18_syndrome K h im 5 c row (AsString p) (superpose l (encode h im 5 c)) false (Z.odd (cross_sign 5 cs (zd (normal_form c)))) b HC ltac:(lia) En L B (or_intror (ex_intro _ p (conj eq_refl Ep)))) as (A & EA & X).
    apply X. destruct (single_mat (K := K) 5 row ltac:(lia) L B) as (A' & EA' & PA). rewrite EA in EA'. injection EA' as <-. apply (maps_prow 5 A row _ _ PA). apply (span_maps K h im _ 5 1 c row cs HC HI HV HE L B Lc S l Hl). }
  rewrite EN in G. split.
  - pose proof (G (str "XIXZZ") [1; 0; 1; 0; 0; 0; 0; 0; 1; 1]%Z [1; 0; 1; 0]%Z) as X. destruct b; apply X; try reflexivity; try (repeat (constructor; [auto|]); constructor);
      (intros j Hj; do 10 (destruct j as [|j]; [first [exists 0%Z; reflexivity | exists (-1)%Z; reflexivity]|]); lia).
  - pose proof (G (str "XZZXI") [1; 0; 0; 1; 0; 0; 1; 1; 0; 0]%Z [1; 0; 0; 1]%Z) as X. destruct b; apply X; try reflexivity; try (repeat (constructor; [auto|]); constructor);
      (intros j Hj; do 10 (destruct j as [|j]; [first [exists 0%Z; reflexivity | exists (-1)%Z; reflexivity]|]); lia).
Qed.
(** The Steane code: the first generator given is a fair coin on every encoded state *)
Theorem C114_steane_refuted : exists c r, init (Rows (rows_of steane)) 7 1 None = Ok c /\ valid_generators 7 1 (zd (stab c)) /\ even_ys 7 (zd (stab c)) /\ In r (zd (stab c)) /\
  forall (K : StarRing) (h im : K), qubit_constants h im -> forall l b, (forall p : K * list Z, In p l -> length (snd p) = 1 /\ binary (snd p)) ->
  let psi := superpose l (encode h im 7 c) in
  let branch := exec h im [b] (fst (single_syndrome_measurement c 7 (seq 0 7) (AsArray r))) psi in
  inner (7 + 1) branch branch = smul (smul h h) (inner 7 psi psi).
Proof.
  destruct (init (Rows (rows_of steane)) 7 1 None) as [c|e] eqn:HI; [|vm_compute in HI; discriminate].
  assert (Ec : Ok c = init (Rows (rows_of steane)) 7 1 None) by (symmetry; exact HI).
  assert (HV : valid_generators 7 1 (zd (stab c))) by (vm_compute in Ec; injection Ec as ->; valid).
  assert (HE : even_ys 7 (zd (stab c))) by (vm_compute in Ec; injection Ec as ->; repeat (constructor; [reflexivity|]); constructor).
  assert (X : In (nth 0 (zd (stab c)) []) (zd (stab c)) /\ In (nth 5 (zd (normal_form c)) []) (zd (normal_form c)) /\ inner_prod (nth 0 (zd (stab c)) []) (nth 5 (zd (normal_form c)) []) = 1%Z).
  { split; [apply nth_In; destruct HV as (P & _); exact P|]. split; [apply nth_In|]; vm_compute in Ec; injection Ec as ->; [cbn; lia|reflexivity]. }
  exists c, (nth 0 (zd (stab c)) []). destruct X as (Hr & Hs & Hip). split; [reflexivity|]. split; [exact HV|]. split; [exact HE|]. split; [exact Hr|].
  intros K h im HC l b Hl. exact (C114_coin_partial K h im _ 7 1 c _ _ HC HI HV HE Hr Hs Hip l b Hl).
Qed.
Print Assumptions C114_certain_partial.
Print Assumptions C114_coin_partial.
Print Assumptions C114_exactly_partial.
Print Assumptions C114_refuted.
Print Assumptions C114_steane_refuted.
(** the hypotheses of the coin theorem for the Steane code, and a code for which the
    condition of the exact theorem holds *)
Example C114_case : (exists c r s, init (Rows (rows_of steane)) 7 1 None = Ok c /\ valid_generators 7 1 (zd (stab c)) /\ even_ys 7 (zd (stab c)) /\ In r (zd (stab c)) /\ In s (zd (normal_form c)) /\ inner_prod r s = 1%Z) /\
  exists c, init (Strings [str "ZZI"; str "IZZ"]) 3 1 None = Ok c /\ valid_generators 3 1 (zd (stab c)) /\ even_ys 3 (zd (stab c)) /\
    (forall r s, In r (zd (stab c)) -> In s (zd (stab c)) -> Z.even (zx_dot 3 r s) = true).
Proof.
  split.
  - eexists. exists (nth 0 (rows_of steane) []). eexists. split; [compute_it|]. split; [valid|]. split; [repeat (constructor; [reflexivity|]); constructor|]. split; [left; reflexivity|]. split; [do 5 right; left; reflexivity|reflexivity].
  - eexists. split; [compute_it|]. split; [valid|]. split; [repeat (constructor; [reflexivity|]); constructor|]. intros r s [<- | [<- | []]] [<- | [<- | []]]; reflexivity.
Qed.
