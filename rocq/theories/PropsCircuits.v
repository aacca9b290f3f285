(** Properties of the circuits (C15-C20, C25, C26, C71).
    Specification: CircuitSpec.v (what the commands do to a state), CodesSpec.v,
    PauliSpec.v.  Model: CircuitModel.v.  [K] is any commutative ring with
    conjugation in which 1 <> -1; [h] and [im] satisfy the equations of 1/sqrt(2)
    and i.  The qubits of a register are numbered from 0. *)
From Verif Require Import Py ZMat CodesModel RankSpec CodesSpec CodesProofs ConcatProofs PropsCodes Scalar PauliModel PauliSpec PropsPauli
  CircuitModel CircuitSpec CircuitProofs3 CircuitProofs4 CircuitProofs5.
From Coq Require Import Reals Lra Lia Bool.
Open Scope nat_scope.

Ltac compute_it := vm_compute; reflexivity.

Definition even_ys (n : nat) (rows : list (list Z)) : Prop := Forall (fun r => Nat.even (y_count n r) = true) rows.

(** the complex numbers have such constants *)
Example constants : qubit_constants (K := CC) ((/ sqrt 2)%R, 0%R) (0%R, 1%R).
Proof.
  assert (E : (/ sqrt 2 * / sqrt 2 = / 2)%R).
  { rewrite <- Rinv_mult. rewrite sqrt_sqrt by lra. reflexivity. }
  split; [|split; [|split]]; cbn; unfold CC_add, CC_mul, CC_opp, CC_conj; cbn [fst snd]; f_equal; try ring.
  rewrite E. lra.
Qed.

(** ** C15 *)
Theorem C15_encoding (K : StarRing) (h im : K) g n k c st : qubit_constants h im ->
  init g n k None = Ok c -> valid_generators n k (zd (stab c)) -> even_ys n (zd (stab c)) ->
  length st = k -> binary st ->
  snd (encoding_circuit c (seq 0 n) st) = Ok tt /\
  inner n (encode h im n c st) (encode h im n c st) = s1 /\
  (exists Ss, binary_rep_to_pauli_mat (normal_form c) = Ok Ss /\ length Ss = n - k /\
     forall S, In S Ss -> matrix_fixes n (me S) (encode h im n c st)) /\
  (forall st', length st' = k -> binary st' -> st' <> st -> inner n (encode h im n c st) (encode h im n c st') = s0).
Proof. intros HC HI HV HE L B. exact (encoding_ok h im g n k c HI HV HE HC st L B). Qed.
Print Assumptions C15_encoding.
Example C15_case : exists c, init (Strings five_qubit) 5 1 None = Ok c /\ valid_generators 5 1 (zd (stab c)) /\
  forallb (fun r => Nat.even (y_count 5 r)) (zd (stab c)) = true /\ length (fst (encoding_circuit c (seq 0 5) [1%Z])) = 17.
Proof. eexists; split; [compute_it|]. split; [valid|]. split; compute_it. Qed.

(** ** C16 *)
Theorem C16_logical_x (K : StarRing) (h im : K) g n k c i st : init g n k None = Ok c -> valid_generators n k (zd (stab c)) ->
  i < k -> i < 10 -> length st = k -> binary st ->
  eqs n (exec h im [] (fst (logical_circuit c (seq 0 n) ["X"%char; digit i])) (encode h im n c st)) (encode h im n c (flip_bit i st)).
Proof. intros HI HV. exact (logical_x_ok h im g n k c HI HV i st). Qed.
Theorem C16_logical_z (K : StarRing) (h im : K) g n k c i st : init g n k None = Ok c -> valid_generators n k (zd (stab c)) ->
  i < k -> i < 10 -> length st = k -> binary st ->
  eqs n (exec h im [] (fst (logical_circuit c (seq 0 n) ["Z"%char; digit i])) (encode h im n c st))
        (sscale (sgn (Z.eqb (nth i st 0%Z) 1)) (encode h im n c st)).
Proof. intros HI HV. exact (logical_z_ok h im g n k c HI HV i st). Qed.
Theorem C16_logical_y (K : StarRing) (h im : K) g n k c i (psi : @state K) : init g n k None = Ok c -> valid_generators n k (zd (stab c)) ->
  i < k -> i < 10 ->
  let go p psi := exec h im [] (fst (logical_circuit c (seq 0 n) [p; digit i])) psi in
  eqs n (go "Y"%char psi) (go "X"%char (go "Z"%char psi)).
Proof. intros HI HV. exact (logical_y_ok h im g n k c HI HV i psi). Qed.
Print Assumptions C16_logical_x.
Print Assumptions C16_logical_z.
Print Assumptions C16_logical_y.
Example C16_case : exists c, init (Strings four2) 4 2 None = Ok c /\ valid_generators 4 2 (zd (stab c)) /\
  logical_circuit c (seq 0 4) ["X"%char; digit 1] = ([Gate [] GX 1; Gate [] GX 3], Ok tt).
Proof. eexists; split; [compute_it|]. split; [valid|compute_it]. Qed.

(** ** C17: both ways of supplying the ancillas, on any superposition of messages *)
Theorem C17_decoding (K : StarRing) (h im : K) g n k c (l : list (K * list Z)) : qubit_constants h im ->
  init g n k None = Ok c -> valid_generators n k (zd (stab c)) ->
  (forall p, In p l -> length (snd p) = k /\ binary (snd p)) ->
  let result := superpose l (fun st => tensor n (encode h im n c (repeat 0%Z k)) (message st)) in
  eqs (n + k) (exec h im [] (fst (decoding_circuit c (n + k) (seq 0 (n + k)) false false))
                 (superpose l (fun st => tensor n (encode h im n c st) (repeat false k)))) result /\
  eqs (n + k) (exec h im [] (fst (decoding_circuit c n (seq 0 n) true false)) (superpose l (encode h im n c))) result.
Proof. intros HC HI HV. exact (decode_superposition h im g n k c HI HV HC l). Qed.
(** with deallocate_nqubits the data qubits are measured; whatever the outcomes, the
    data qubits end in a state that does not depend on the message *)
Theorem C17_decoding_measured (K : StarRing) (h im : K) g n k c outs : qubit_constants h im ->
  init g n k None = Ok c -> valid_generators n k (zd (stab c)) ->
  exists phi1 phi2, forall l : list (K * list Z), (forall p, In p l -> length (snd p) = k /\ binary (snd p)) ->
  eqs (n + k) (exec h im outs (fst (decoding_circuit c (n + k) (seq 0 (n + k)) false true))
                 (superpose l (fun st => tensor n (encode h im n c st) (repeat false k))))
              (superpose l (fun st => tensor n phi1 (message st))) /\
  eqs (n + k) (exec h im outs (fst (decoding_circuit c n (seq 0 n) true true)) (superpose l (encode h im n c)))
              (superpose l (fun st => tensor n phi2 (message st))).
Proof. intros HC HI HV. exact (decode_measure h im g n k c HI HV HC outs). Qed.
Print Assumptions C17_decoding.
Print Assumptions C17_decoding_measured.
Example C17_case : exists c, init (Strings four2) 4 2 None = Ok c /\ valid_generators 4 2 (zd (stab c)) /\
  snd (decoding_circuit c 4 (seq 0 4) true false) = Ok (seq 0 6) /\ snd (decoding_circuit c 6 (seq 0 6) false true) = Ok [4; 5].
Proof. eexists; split; [compute_it|]. split; [valid|]. split; compute_it. Qed.

(** ** C18, C19: [b] is the outcome of the measurement, [a] the ancilla's value, (-1)^e the eigenvalue *)
Theorem C18_syndrome (K : StarRing) (h im : K) n c row arg (v : @state K) a e b : qubit_constants h im -> 1 <= n -> cn c = n ->
  length row = 2 * n -> binary row ->
  arg = AsArray row \/ (exists p, arg = AsString p /\ binary_rep_to_pauli_str row = Ok p) ->
  exists A : array K, binary_rep_to_pauli_mat (ZM 1 (2 * n) [row]) = Ok [MA (2 ^ n) (2 ^ n) A] /\
   (matrix_maps n A v (sscale (sgn e) v) ->
    snd (single_syndrome_measurement c (n + 1) (seq 0 (n + 1)) arg) = Ok n /\
    eqs (n + 1) (exec h im [b] (fst (single_syndrome_measurement c (n + 1) (seq 0 (n + 1)) arg)) (tensor n v [a]))
                (if Bool.eqb b (xorb a e) then tensor n v [b] else fun _ => s0) /\
    snd (single_syndrome_measurement c n (seq 0 n) arg) = Ok n /\
    eqs (n + 1) (exec h im [b] (fst (single_syndrome_measurement c n (seq 0 n) arg)) v)
                (if Bool.eqb b e then tensor n v [b] else fun _ => s0)).
Proof. exact (syndrome_prop h im n c row arg v a e b). Qed.
Theorem C18_error_syndrome (K : StarRing) (h im : K) n c row err arg (v w : @state K) b : qubit_constants h im -> 1 <= n -> cn c = n ->
  length row = 2 * n -> binary row -> length err = 2 * n -> binary err ->
  arg = AsArray row \/ (exists p, arg = AsString p /\ binary_rep_to_pauli_str row = Ok p) ->
  exists A E : array K, binary_rep_to_pauli_mat (ZM 2 (2 * n) [row; err]) = Ok [MA (2 ^ n) (2 ^ n) A; MA (2 ^ n) (2 ^ n) E] /\
   (matrix_fixes n A v -> matrix_maps n E v w ->
    eqs (n + 1) (exec h im [b] (fst (single_syndrome_measurement c n (seq 0 n) arg)) w)
                (if Bool.eqb b (Z.eqb (inner_prod row err) 1) then tensor n w [b] else fun _ => s0)).
Proof. exact (syndrome_error h im n c row err arg v w b). Qed.
Theorem C19_no_reset (K : StarRing) (h im : K) n c row arg (v : @state K) e b : qubit_constants h im -> 1 <= n -> cn c = n ->
  length row = 2 * n -> binary row ->
  arg = AsArray row \/ (exists p, arg = AsString p /\ binary_rep_to_pauli_str row = Ok p) ->
  exists A : array K, binary_rep_to_pauli_mat (ZM 1 (2 * n) [row]) = Ok [MA (2 ^ n) (2 ^ n) A] /\
   (matrix_maps n A v (sscale (sgn e) v) ->
    eqs (n + 1) (exec h im [b] (fst (single_syndrome_measurement c (n + 1) (seq 0 (n + 1)) arg)) (tensor n v [true]))
                (if Bool.eqb b (negb e) then tensor n v [b] else fun _ => s0)).
Proof.
  intros HC Hn Ec L B A. destruct (syndrome_prop h im n c row arg v true e b HC Hn Ec L B A) as (M & E & H).
  exists M. split; [exact E|]. intros HM. apply H, HM.
Qed.
Theorem C19_wrong_size c active register arg : active <> cn c -> active <> cn c + 1 ->
  single_syndrome_measurement c active register arg = ([], Err TypeError).
Proof. exact (wrong_size c active register arg). Qed.
Print Assumptions C18_syndrome.
Print Assumptions C18_error_syndrome.
Print Assumptions C19_no_reset.
Print Assumptions C19_wrong_size.
(** |0> is a +1 eigenvector of Z, |1> a -1 eigenvector *)
Example C18_case : exists A : array GI, binary_rep_to_pauli_mat (ZM 1 (2 * 1) [[0; 1]%Z]) = Ok [MA (2 ^ 1) (2 ^ 1) A] /\
  matrix_maps 1 A (ket [false]) (sscale (sgn false) (ket [false])) /\ matrix_maps 1 A (ket [true]) (sscale (sgn true) (ket [true])).
Proof.
  eexists. split; [reflexivity|].
  split; intros i Hi; do 2 (destruct i as [|i]; [reflexivity|]); cbn in Hi; lia.
Qed.
Example C19_case : exists c, init (Strings five_qubit) 5 1 None = Ok c /\
  single_syndrome_measurement c 7 (seq 0 7) (AsString (str "XZZXI")) = ([], Err TypeError).
Proof. eexists; split; compute_it. Qed.

(** ** C20: true for arrays and lists, false for strings *)
Theorem C20_rows_partial (K : StarRing) (h im : K) n row arg (v : @state K) : 1 <= n -> length row = 2 * n -> binary row ->
  arg = AsArray row \/ arg = AsList row ->
  exists A : array K, binary_rep_to_pauli_mat (ZM 1 (2 * n) [row]) = Ok [MA (2 ^ n) (2 ^ n) A] /\
  snd (apply_stabilizer_circuit (seq 0 n) arg) = Ok tt /\
  matrix_maps n (scale (kpow im (y_count n row)) A) v (exec h im [] (fst (apply_stabilizer_circuit (seq 0 n) arg)) v).
Proof. exact (apply_prop h im n row arg v). Qed.
Theorem C20_refuted register p : apply_stabilizer_circuit register (AsString p) = ([], Err UnboundLocalError).
Proof. reflexivity. Qed.
Print Assumptions C20_rows_partial.
Print Assumptions C20_refuted.
Example C20_case : fst (apply_stabilizer_circuit (seq 0 3) (AsArray [1; 1; 0; 0; 1; 1]%Z)) = [Gate [] GX 0; Gate [] GY 1; Gate [] GZ 2] /\
  y_count 3 [1; 1; 0; 0; 1; 1]%Z = 1.
Proof. split; reflexivity. Qed.

(** ** C25: with ancillas in the register every ancilla is listed twice; with only
    the n data qubits (as in the README) the call fails *)
Theorem C25_refuted : exists c, init (Strings five_qubit) 5 1 None = Ok c /\
  snd (decoding_circuit c 6 (seq 0 6) false false) = Ok [0; 1; 2; 3; 4; 5; 5] /\
  decoding_circuit c 5 (seq 0 5) false false = ([], Err IndexError).
Proof. eexists; split; [compute_it|]. split; compute_it. Qed.
Theorem C25_returned_partial g n k c : init g n k None = Ok c -> valid_generators n k (zd (stab c)) ->
  snd (decoding_circuit c n (seq 0 n) true false) = Ok (seq 0 (n + k)) /\
  snd (decoding_circuit c (n + k) (seq 0 (n + k)) false false) = Ok (seq 0 (n + k) ++ seq n k) /\
  snd (decoding_circuit c n (seq 0 n) true true) = Ok (seq n k) /\
  snd (decoding_circuit c (n + k) (seq 0 (n + k)) false true) = Ok (seq n k).
Proof.
  intros HI HV. rewrite !(decoding_add_ancillas g n k c HI HV), !(decoding_with_ancillas g n k c HI HV). auto.
Qed.
Theorem C25_no_ancillas_partial g n k c active deal : init g n k None = Ok c -> valid_generators n k (zd (stab c)) -> 1 <= k ->
  decoding_circuit c active (seq 0 n) false deal = ([], Err IndexError).
Proof. exact (no_ancillas g n k c active deal). Qed.
Example C25_case : exists c, init (Strings four2) 4 2 None = Ok c /\ valid_generators 4 2 (zd (stab c)) /\ 1 <= 2 /\
  snd (decoding_circuit c 6 (seq 0 6) false false) = Ok [0; 1; 2; 3; 4; 5; 4; 5].
Proof. eexists; split; [compute_it|]. split; [valid|]. split; [lia|compute_it]. Qed.
Print Assumptions C25_refuted.
Print Assumptions C25_returned_partial.
Print Assumptions C25_no_ancillas_partial.

(** ** C26: only one digit is read *)
Definition z12 : list pystr := [str "ZZZZZZZZZZZZ"].
Theorem C26_refuted : exists c, init (Strings z12) 12 11 None = Ok c /\ valid_generators 12 11 (zd (stab c)) /\ 10 < ck c /\
  forall register, logical_circuit c register (str "X10") = ([], Err AssertionError).
Proof. eexists; split; [compute_it|]. split; [valid|]. split; [apply Nat.leb_le; compute_it|reflexivity]. Qed.
Theorem C26_first_ten_partial g n k c p i : init g n k None = Ok c -> valid_generators n k (zd (stab c)) ->
  (p = "X" \/ p = "Y" \/ p = "Z")%char -> i < k -> i < 10 -> snd (logical_circuit c (seq 0 n) [p; digit i]) = Ok tt.
Proof. exact (logical_accepts g n k c p i). Qed.
Theorem C26_longer_partial c register s : length s <> 2 -> logical_circuit c register s = ([], Err AssertionError).
Proof. intros H. unfold logical_circuit. rewrite (proj2 (Nat.eqb_neq _ _) H). reflexivity. Qed.
Print Assumptions C26_refuted.
Print Assumptions C26_first_ten_partial.
Print Assumptions C26_longer_partial.
Example C26_case : exists c, init (Strings four2) 4 2 None = Ok c /\ snd (logical_circuit c (seq 0 4) (str "Y1")) = Ok tt.
Proof. eexists; split; compute_it. Qed.
