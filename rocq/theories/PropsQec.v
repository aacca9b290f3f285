(** Correcting errors with the circuits (C80): encode, suffer an error, measure the
    stabilizers, apply a correction, decode.
    Specification: QecSpec.v (weight, distance, readings), CircuitSpec.v. *)
From Verif Require Import Py ZMat CodesModel RankSpec CodesSpec CodesProofs CodesProofs2 PropsCodes Scalar PauliModel PauliSpec
  CircuitModel CircuitSpec CircuitProofs2 CircuitProofs3 CircuitProofs5 PropsCircuits QecSpec QecProofs.
From Coq Require Import Reals.
Open Scope nat_scope.

(** ** C80 *)
(** measuring the rows of the normal form, one after the other on one ancilla, on an
    encoded message with the error err: the readings are those of the syndrome, every
    other list of outcomes has amplitude zero, and the data qubits are left alone *)
Theorem C80_syndromes (K : StarRing) (h im : K) g n k c err (l : list (K * list Z)) outs a : qubit_constants h im ->
  init g n k None = Ok c -> valid_generators n k (zd (stab c)) -> even_ys n (zd (stab c)) ->
  length err = 2 * n -> binary err -> (forall p, In p l -> length (snd p) = k /\ binary (snd p)) ->
  length outs = length (zd (normal_form c)) ->
  exists E : array K, binary_rep_to_pauli_mat (ZM 1 (2 * n) [err]) = Ok [MA (2 ^ n) (2 ^ n) E] /\
  forall w, matrix_maps n E (superpose l (encode h im n c)) w ->
  eqs (n + 1) (measure_syndromes h im n c (zd (normal_form c)) outs (tensor n w [a]))
    (if list_eq_dec Bool.bool_dec outs (readings n (zd (normal_form c)) err a) then tensor n w [last outs a] else fun _ => s0).
Proof.
  intros HC HI HV HE Le Be Hl Lo.
  assert (Hn : 1 <= n) by (destruct HV as (A & B & _); lia).
  destruct (single_mat (K := K) n err Hn Le Be) as (E & EE & PE). exists E. split; [exact EE|]. intros w M.
  apply (maps_prow n E err) in M; [|exact PE].
  apply (round h im n c (zd (normal_form c)) err (superpose l (encode h im n c)) w); try assumption.
  - apply (code_dims g n k c HI).
  - exact (normal_rows g n k c HI HV).
  - intros r Hr. apply (encoded_fixed h im g n k c l r); assumption.
Qed.
(** a correction with the same readings, when error and correction act on at most t
    qubits and the distance is more than 2 t, restores the encoded message up to one
    phase, and the decoder then returns the message *)
Theorem C80_correction (K : StarRing) (h im : K) g n k c t err corr : qubit_constants h im ->
  init g n k None = Ok c -> valid_generators n k (zd (stab c)) -> even_ys n (zd (stab c)) ->
  distance_at_least n (zd (normal_form c)) (2 * t + 1) ->
  length err = 2 * n -> binary err -> weight n err <= t -> length corr = 2 * n -> binary corr -> weight n corr <= t ->
  readings n (zd (normal_form c)) err false = readings n (zd (normal_form c)) corr false ->
  exists E : array K, binary_rep_to_pauli_mat (ZM 1 (2 * n) [err]) = Ok [MA (2 ^ n) (2 ^ n) E] /\
  exists z : K, smul z (sconj z) = s1 /\
  forall (l : list (K * list Z)) w, (forall p, In p l -> length (snd p) = k /\ binary (snd p)) ->
  matrix_maps n E (superpose l (encode h im n c)) w ->
  let corrected := exec h im [] (fst (apply_stabilizer_circuit (seq 0 n) (AsArray corr))) w in
  eqs n corrected (sscale z (superpose l (encode h im n c))) /\
  eqs (n + k) (exec h im [] (fst (decoding_circuit c n (seq 0 n) true false)) corrected)
    (sscale z (superpose l (fun st => tensor n (encode h im n c (repeat 0%Z k)) (message st)))).
Proof.
  intros HC HI HV HE D Le Be We Lc Bc Wc S. apply (correction h im g n k c t err corr); try assumption.
  apply (readings_inj n _ err corr Le Lc) with (a := false); [|exact S]. intros r Hr. apply (normal_rows g n k c HI HV r Hr).
Qed.
Print Assumptions C80_syndromes.
Print Assumptions C80_correction.
(** the five-qubit code has distance 3, and an X on qubit 2 is an error of weight 1 *)
Example C80_case : exists c, init (Strings five_qubit) 5 1 None = Ok c /\ valid_generators 5 1 (zd (stab c)) /\ even_ys 5 (zd (stab c)) /\
  distance_at_least 5 (zd (normal_form c)) (2 * 1 + 1) /\ weight 5 [0; 0; 1; 0; 0; 0; 0; 0; 0; 0]%Z <= 1 /\
  readings 5 (zd (normal_form c)) [0; 0; 1; 0; 0; 0; 0; 0; 0; 0]%Z false = [false; true; true; false].
Proof.
  eexists. split; [compute_it|]. split; [valid|]. split; [repeat constructor|]. split; [apply distanceb_ok; compute_it|]. split; [cbn; lia|compute_it].
Qed.
