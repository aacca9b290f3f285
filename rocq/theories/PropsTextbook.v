(** Syndromes and encoded states against the textbook Pauli operators (C103, C104).
    Specification: TextbookSpec.v (the operator of a Pauli string), CircuitSpec.v.
    Model: CircuitModel.v.  The library's own matrix of a string with y letters Y is
    (-i)^y times the operator [pauli_on] used here (C05_entries); the properties of the
    circuits above (C15, C18) speak about the library's matrices. *)
From Verif Require Import Py ZMat CodesModel RankSpec CodesSpec CodesProofs PropsCodes Scalar PauliModel PauliSpec
  CircuitModel CircuitSpec PropsCircuits TextbookSpec TextbookProofs.
From Coq Require Import Reals Lra Lia Bool.
Open Scope nat_scope.

(** ** C103: [b] is the outcome, (-1)^e the eigenvalue of S = [p] on [v], [a] the ancilla's value *)
(** every outcome: with y letters Y, outcome b leaves (v + (-1)^b (-i)^y S v) / 2 *)
Theorem C103_branches_partial (K : StarRing) (h im : K) n c p arg (v : @state K) a b : qubit_constants h im ->
  cn c = n -> length p = n -> Forall pauli_letter p -> stands_for p arg ->
  let left s := fun w => smul (smul h h) (sadd (v w) (smul (sgn s) (smul (kpow (sopp im) (count_y p)) (pauli_on h im p v w)))) in
  (snd (single_syndrome_measurement c (n + 1) (seq 0 (n + 1)) arg) = Ok n /\
   eqs (n + 1) (exec h im [b] (fst (single_syndrome_measurement c (n + 1) (seq 0 (n + 1)) arg)) (tensor n v [a])) (tensor n (left (xorb a b)) [b])) /\
  (snd (single_syndrome_measurement c n (seq 0 n) arg) = Ok n /\
   eqs (n + 1) (exec h im [b] (fst (single_syndrome_measurement c n (seq 0 n) arg)) v) (tensor n (left b) [b])).
Proof. intros HC Ec L F S. exact (branches h im HC n c Ec p arg v a b L F S). Qed.
(** a multiple of four Ys: the eigenvalue is reported *)
Theorem C103_eigenvalue_partial (K : StarRing) (h im : K) n c p arg (v : @state K) a e b : qubit_constants h im ->
  cn c = n -> length p = n -> Forall pauli_letter p -> stands_for p arg ->
  Nat.modulo (count_y p) 4 = 0 -> eqs n (pauli_on h im p v) (sscale (sgn e) v) ->
  eqs (n + 1) (exec h im [b] (fst (single_syndrome_measurement c (n + 1) (seq 0 (n + 1)) arg)) (tensor n v [a]))
    (if Bool.eqb b (xorb a e) then tensor n v [b] else fun _ => s0) /\
  eqs (n + 1) (exec h im [b] (fst (single_syndrome_measurement c n (seq 0 n) arg)) v)
    (if Bool.eqb b e then tensor n v [b] else fun _ => s0).
Proof. intros HC Ec L F S Y H. exact (four_ys h im HC n c Ec p arg v a e b L F S Y H). Qed.
(** two more: the opposite is reported *)
Theorem C103_opposite_partial (K : StarRing) (h im : K) n c p arg (v : @state K) a e b : qubit_constants h im ->
  cn c = n -> length p = n -> Forall pauli_letter p -> stands_for p arg ->
  Nat.modulo (count_y p) 4 = 2 -> eqs n (pauli_on h im p v) (sscale (sgn e) v) ->
  eqs (n + 1) (exec h im [b] (fst (single_syndrome_measurement c (n + 1) (seq 0 (n + 1)) arg)) (tensor n v [a]))
    (if Bool.eqb b (xorb a (negb e)) then tensor n v [b] else fun _ => s0) /\
  eqs (n + 1) (exec h im [b] (fst (single_syndrome_measurement c n (seq 0 n) arg)) v)
    (if Bool.eqb b (negb e) then tensor n v [b] else fun _ => s0).
Proof. intros HC Ec L F S Y H. exact (two_ys h im HC n c Ec p arg v a e b L F S Y H). Qed.
(** an odd number: a fair coin (h h is 1/2) that leaves the state as it was *)
Theorem C103_coin_partial (K : StarRing) (h im : K) n c p arg (v : @state K) a e b : qubit_constants h im ->
  cn c = n -> length p = n -> Forall pauli_letter p -> stands_for p arg ->
  Nat.odd (count_y p) = true -> eqs n (pauli_on h im p v) (sscale (sgn e) v) ->
  (exists z : K, smul (sconj z) z = smul h h /\
   eqs (n + 1) (exec h im [b] (fst (single_syndrome_measurement c (n + 1) (seq 0 (n + 1)) arg)) (tensor n v [a])) (sscale z (tensor n v [b]))) /\
  (exists z : K, smul (sconj z) z = smul h h /\
   eqs (n + 1) (exec h im [b] (fst (single_syndrome_measurement c n (seq 0 n) arg)) v) (sscale z (tensor n v [b]))).
Proof. intros HC Ec L F S O H. exact (odd_ys h im HC n c Ec p arg v a e b L F S O H). Qed.

(** |00> - |11> is a +1 eigenvector of YY: the measurement of YY always reports 1 *)
Definition bell {K : StarRing} : @state K := splus (ket [false; false]) (sscale (sopp s1) (ket [true; true])).
(** |00> + i|10> is a +1 eigenvector of YI *)
Definition circular {K : StarRing} (im : K) : @state K := splus (ket [false; false]) (sscale im (ket [true; false])).
Theorem C103_refuted : exists c, init (Strings [str "YY"]) 2 1 None = Ok c /\ valid_generators 2 1 (zd (stab c)) /\
  forall (K : StarRing) (h im : K), qubit_constants h im ->
  (eqs 2 (pauli_on h im (str "YY") bell) bell /\
   eqs 3 (exec h im [false] (fst (single_syndrome_measurement c 2 (seq 0 2) (AsString (str "YY")))) bell) (fun _ => s0) /\
   eqs 3 (exec h im [true] (fst (single_syndrome_measurement c 2 (seq 0 2) (AsString (str "YY")))) bell) (tensor 2 bell [true])) /\
  (eqs 2 (pauli_on h im (str "YI") (circular im)) (circular im) /\
   forall b, exists z : K, smul (sconj z) z = smul h h /\
     eqs 3 (exec h im [b] (fst (single_syndrome_measurement c 2 (seq 0 2) (AsString (str "YI")))) (circular im)) (sscale z (tensor 2 (circular im) [b]))).
Proof.
  eexists; split; [compute_it|]. split; [valid|]. intros K h im HC.
  assert (E1 : eqs 2 (pauli_on h im (str "YY") bell) bell) by exact (bell_fixed h im HC).
  assert (E2 : eqs 2 (pauli_on h im (str "YI") (circular im)) (circular im)) by exact (circular_fixed h im HC).
  split; [split; [exact E1|]|split; [exact E2|]].
  - split.
    + match goal with |- context [single_syndrome_measurement ?c _ _ _] => refine (proj2 (C103_opposite_partial K h im 2 c (str "YY") (AsString (str "YY")) bell false false false HC eq_refl eq_refl _ (or_introl eq_refl) eq_refl _)) end; [yletters|exact (plus_sign h im _ _ _ E1)].
    + match goal with |- context [single_syndrome_measurement ?c _ _ _] => refine (proj2 (C103_opposite_partial K h im 2 c (str "YY") (AsString (str "YY")) bell false false true HC eq_refl eq_refl _ (or_introl eq_refl) eq_refl _)) end; [yletters|exact (plus_sign h im _ _ _ E1)].
  - intros b. match goal with |- context [single_syndrome_measurement ?c _ _ _] => refine (proj2 (C103_coin_partial K h im 2 c (str "YI") (AsString (str "YI")) (circular im) false false b HC eq_refl eq_refl _ (or_introl eq_refl) eq_refl _)) end; [yletters|exact (plus_sign h im _ _ _ E2)].
Qed.
Print Assumptions C103_branches_partial.
Print Assumptions C103_eigenvalue_partial.
Print Assumptions C103_opposite_partial.
Print Assumptions C103_coin_partial.
Print Assumptions C103_refuted.
(** |1> is a -1 eigenvector of Z; strings of both forms *)
Example C103_case (K : StarRing) (h im : K) : eqs 1 (pauli_on h im (str "Z") (ket [true])) (sscale (sgn true) (ket [true])) /\
  Nat.modulo (count_y (str "Z")) 4 = 0 /\ Nat.modulo (count_y (str "YXYYZY")) 4 = 0 /\
  stands_for (str "XYZ") (AsString (str "XYZ")) /\ stands_for (str "XYZ") (AsArray [1; 1; 0; 0; 1; 1]%Z).
Proof.
  split; [exact (z_one h im)|]. do 2 (split; [reflexivity|]). split; [left; reflexivity|]. right. eexists. split; [reflexivity|].
  split; [repeat (constructor; [auto|]); constructor|]. split; reflexivity.
Qed.

(** ** C104: the state prepared by encoding_circuit and the operators of the generators.
    [p] is the Pauli string of row i of normal_form. *)
Theorem C104_even_partial (K : StarRing) (h im : K) g n k c st i p : qubit_constants h im ->
  init g n k None = Ok c -> valid_generators n k (zd (stab c)) -> even_ys n (zd (stab c)) -> length st = k -> binary st ->
  i < n - k -> binary_rep_to_pauli_str (nth i (zd (normal_form c)) []) = Ok p ->
  (Nat.modulo (count_y p) 4 = 0 /\ eqs n (pauli_on h im p (encode h im n c st)) (encode h im n c st)) \/
  (Nat.modulo (count_y p) 4 = 2 /\ eqs n (pauli_on h im p (encode h im n c st)) (sscale (sopp s1) (encode h im n c st))).
Proof. intros HC HI HV HE L B Hi E. exact (encoded_sign h im HC g n k c st i p HI HV HE L B Hi E). Qed.
(** for a string with an odd number of Ys, a generator or not: a unit vector v with <v|S|v> = 0 *)
Theorem C104_odd_partial (K : StarRing) (h im : K) g n k c st p : qubit_constants h im ->
  init g n k None = Ok c -> valid_generators n k (zd (stab c)) -> length st = k -> binary st ->
  length p = n -> Forall pauli_letter p -> Nat.odd (count_y p) = true ->
  inner n (encode h im n c st) (encode h im n c st) = s1 /\
  inner n (encode h im n c st) (pauli_on h im p (encode h im n c st)) = s0.
Proof. intros HC HI HV L B Lp F O. split; [exact (encoded_unit h im HC g n k c st HI HV L B)|exact (encoded_odd h im HC n c st p Lp F O)]. Qed.
(** the code generated by YY: every encoded state belongs to the eigenvalue -1;
    the code generated by YI: no encoded state is an eigenvector *)
Theorem C104_refuted : exists c c', init (Strings [str "YY"]) 2 1 None = Ok c /\ valid_generators 2 1 (zd (stab c)) /\
  init (Strings [str "YI"]) 2 1 None = Ok c' /\ valid_generators 2 1 (zd (stab c')) /\
  forall (K : StarRing) (h im : K), qubit_constants h im -> forall b : Z, b = 0%Z \/ b = 1%Z ->
  (inner 2 (encode h im 2 c [b]) (encode h im 2 c [b]) = s1 /\
   eqs 2 (pauli_on h im (str "YY") (encode h im 2 c [b])) (sscale (sopp s1) (encode h im 2 c [b]))) /\
  (inner 2 (encode h im 2 c' [b]) (encode h im 2 c' [b]) = s1 /\
   inner 2 (encode h im 2 c' [b]) (pauli_on h im (str "YI") (encode h im 2 c' [b])) = s0).
Proof.
  eexists. eexists. split; [compute_it|]. split; [valid|]. split; [compute_it|]. split; [valid|]. intros K h im HC b Hb.
  assert (Bb : binary [b]) by (constructor; [exact Hb|constructor]). split.
  - split.
    + match goal with |- context [encode _ _ _ ?c _] => refine (encoded_unit h im HC (Strings [str "YY"]) 2 1 c [b] _ _ eq_refl Bb) end; [compute_it|valid].
    + match goal with |- context [encode _ _ _ ?c _] => destruct (C104_even_partial K h im (Strings [str "YY"]) 2 1 c [b] 0 (str "YY") HC ltac:(compute_it) ltac:(valid) ltac:(repeat constructor) eq_refl Bb ltac:(lia) ltac:(reflexivity)) as [[X _]|[_ X]] end; [discriminate X|exact X].
  - match goal with |- context [encode _ _ _ ?c _] => refine (C104_odd_partial K h im (Strings [str "YI"]) 2 1 c [b] (str "YI") HC _ _ eq_refl Bb eq_refl _ eq_refl) end; [compute_it|valid|yletters].
Qed.
Print Assumptions C104_even_partial.
Print Assumptions C104_odd_partial.
Print Assumptions C104_refuted.
(** the five-qubit code: its normal form has rows with no, and rows with two Ys *)
Example C104_case : exists c, init (Strings five_qubit) 5 1 None = Ok c /\ valid_generators 5 1 (zd (stab c)) /\
  forallb (fun r => Nat.even (y_count 5 r)) (zd (stab c)) = true /\
  map (fun r => match binary_rep_to_pauli_str r with Ok p => count_y p | Err _ => 9 end) (zd (normal_form c)) = [2; 0; 0; 2].
Proof. eexists; split; [compute_it|]. split; [valid|]. split; compute_it. Qed.
