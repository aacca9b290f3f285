(** Codes built with the caller's own logical operators (C94).
    Specification: UserOpsSpec.v, CircuitSpec.v, CodesSpec.v.  Model: CodesModel.v, CircuitModel.v. *)
From Verif Require Import Py ZMat CodesModel RankSpec CodesSpec CodesProofs ConcatProofs PropsCodes Scalar PauliModel PauliSpec PropsPauli
  CircuitModel CircuitSpec CircuitProofs3 PropsCircuits UserOpsSpec UserOpsProofs UserOpsProofs2.
From Coq Require Import Lia Bool Ring_theory.
Open Scope nat_scope.

(** the constructor looks at the numbers of columns only *)
Theorem C94_accepted_partial g n k LX LZ c0 : init g n k None = Ok c0 ->
  (zc LX = 2 * n /\ zc LZ = 2 * n -> exists c, init g n k (Some (LX, LZ)) = Ok c /\ logical_x c = LX /\ logical_z c = LZ /\ cn c = n /\ ck c = k /\
     stab c = stab c0 /\ pauli_stab c = pauli_stab c0 /\ normal_form c = normal_form c0 /\ crank c = crank c0) /\
  (zc LX <> 2 * n \/ zc LZ <> 2 * n -> init g n k (Some (LX, LZ)) = Err AssertionError).
Proof.
  intros H. rewrite (user_accepted _ _ _ _ _ _ H). split.
  - intros [-> ->]. rewrite Nat.eqb_refl. eexists. split; [reflexivity|]. cbn. auto 10.
  - intros D. destruct (Nat.eqb_spec (zc LX) (2 * n)), (Nat.eqb_spec (zc LZ) (2 * n)); try reflexivity. lia.
Qed.
Print Assumptions C94_accepted_partial.

(** the state prepared for a message has norm 1, states of different messages are
    orthogonal, and each generator of the normal form acts on it as a sign *)
Theorem C94_encoding_partial (K : StarRing) (h im : K) g n k c0 c LX LZ st : qubit_constants h im ->
  init g n k None = Ok c0 -> valid_generators n k (zd (stab c0)) -> even_ys n (zd (stab c0)) ->
  bit_matrix k n LX -> bit_matrix k n LZ -> init g n k (Some (ZM k (2 * n) LX, ZM k (2 * n) LZ)) = Ok c -> length st = k -> binary st ->
  snd (encoding_circuit c (seq 0 n) st) = Ok tt /\ inner n (encode h im n c st) (encode h im n c st) = s1 /\
  (forall st', length st' = k -> binary st' -> st' <> st -> inner n (encode h im n c st) (encode h im n c st') = s0) /\
  exists Ss, binary_rep_to_pauli_mat (normal_form c) = Ok Ss /\ length Ss = n - k /\
    forall j, j < n - k -> matrix_maps n (me (nth j Ss (MA 0 0 (fun _ _ => s0)))) (encode h im n c st)
      (sscale (sgn (Nat.leb (crank c) j && Z.odd (difference k LX (zd (logical_x c0)) st j))) (encode h im n c st)).
Proof.
  intros HC H0 HV HE BX BZ H L B. rewrite (user_code g n k c0 LX LZ H0 c H). exact (user_encoding h im g n k c0 LX LZ H0 HV BX HE HC st L B).
Qed.
Print Assumptions C94_encoding_partial.

(** so it lies in the code space exactly if, on the qubits rank .. n-k-1, the supplied
    operators agree with the computed ones for this message *)
Theorem C94_codespace_partial (K : StarRing) (h im : K) g n k c0 c LX LZ st Ss : qubit_constants h im ->
  init g n k None = Ok c0 -> valid_generators n k (zd (stab c0)) -> even_ys n (zd (stab c0)) ->
  bit_matrix k n LX -> bit_matrix k n LZ -> init g n k (Some (ZM k (2 * n) LX, ZM k (2 * n) LZ)) = Ok c -> length st = k -> binary st ->
  binary_rep_to_pauli_mat (normal_form c) = Ok Ss ->
  ((forall S, In S Ss -> matrix_fixes n (me S) (encode h im n c st)) <->
   (forall j, crank c <= j < n - k -> (2 | difference k LX (zd (logical_x c0)) st j)%Z)).
Proof.
  intros HC H0 HV HE BX BZ H L B. rewrite (user_code g n k c0 LX LZ H0 c H). exact (user_codespace h im g n k c0 LX LZ H0 HV BX HE HC st Ss L B).
Qed.
Print Assumptions C94_codespace_partial.

(** logical_circuit applies the supplied operator, whatever it is *)
Theorem C94_logical_partial (K : StarRing) (h im : K) g n k c LX LZ i (psi : @state K) : 1 <= n ->
  init g n k (Some (ZM k (2 * n) LX, ZM k (2 * n) LZ)) = Ok c -> bit_matrix k n LX -> bit_matrix k n LZ -> i < k -> i < 10 ->
  forall letter row, letter = "X"%char /\ row = nth i LX [] \/ letter = "Z"%char /\ row = nth i LZ [] ->
  snd (logical_circuit c (seq 0 n) [letter; digit i]) = Ok tt /\
  exists A : array K, binary_rep_to_pauli_mat (ZM 1 (2 * n) [row]) = Ok [MA (2 ^ n) (2 ^ n) A] /\
    matrix_maps n A psi (exec h im [] (fst (logical_circuit c (seq 0 n) [letter; digit i])) psi).
Proof.
  intros Hn HI BX BZ Hi H10 letter row HL. destruct (init_inv _ _ _ _ _ HI) as (M & _ & _ & _ & _ & _ & _ & HB & _).
  apply init_body_inv in HB. destruct HB as (_ & _ & (EX & EZ & _) & Ec & Ek & _).
  assert (OX : Gauss.okm n k (logical_x c)) by (rewrite EX; apply bit_okm; exact BX). assert (OZ : Gauss.okm n k (logical_z c)) by (rewrite EZ; apply bit_okm; exact BZ).
  destruct HL as [[-> ->]|[-> ->]].
  - replace LX with (zd (logical_x c)) by (rewrite EX; reflexivity). apply (user_logical h im n k c Ec Ek OX OZ i (logical_x c)); auto.
  - replace LZ with (zd (logical_z c)) by (rewrite EZ; reflexivity). apply (user_logical h im n k c Ec Ek OX OZ i (logical_z c)); auto.
Qed.
Print Assumptions C94_logical_partial.

(** decoding_circuit extracts the message from every family of states v on which the
    supplied X operators flip the bits and the Z halves of the supplied Z operators are
    the signs of the bits *)
Theorem C94_decoding_partial (K : StarRing) (h im : K) g n k c LX LZ (v : list Z -> @state K) (l : list (K * list Z)) : qubit_constants h im -> 1 <= n ->
  init g n k (Some (ZM k (2 * n) LX, ZM k (2 * n) LZ)) = Ok c -> bit_matrix k n LX -> bit_matrix k n LZ ->
  (forall i st, i < k -> length st = k -> binary st ->
     exists A : array K, binary_rep_to_pauli_mat (ZM 1 (2 * n) [nth i LX []]) = Ok [MA (2 ^ n) (2 ^ n) A] /\ matrix_maps n A (v st) (v (flip_bit i st))) ->
  (forall i st, i < k -> length st = k -> binary st ->
     exists A : array K, binary_rep_to_pauli_mat (ZM 1 (2 * n) [z_only n (nth i LZ [])]) = Ok [MA (2 ^ n) (2 ^ n) A] /\
       matrix_maps n A (v st) (sscale (sgn (Z.eqb (nth i st 0%Z) 1)) (v st))) ->
  (forall p, In p l -> length (snd p) = k /\ binary (snd p)) ->
  let result := superpose l (fun st => tensor n (v (repeat 0%Z k)) (message st)) in
  eqs (n + k) (exec h im [] (fst (decoding_circuit c (n + k) (seq 0 (n + k)) false false)) (superpose l (fun st => tensor n (v st) (repeat false k)))) result /\
  eqs (n + k) (exec h im [] (fst (decoding_circuit c n (seq 0 n) true false)) (superpose l v)) result.
Proof.
  intros HC Hn HI BX BZ VX VZ HL. destruct (init_inv _ _ _ _ _ HI) as (M & _ & _ & _ & _ & _ & _ & HB & _).
  apply init_body_inv in HB. destruct HB as (_ & _ & (EX & EZ & _) & Ec & Ek & _).
  apply (user_decode h im n k c Ec Ek); try assumption.
  - rewrite EX; apply bit_okm; exact BX.
  - rewrite EZ; apply bit_okm; exact BZ.
  - rewrite EX. exact VX.
  - rewrite EZ. exact VZ.
Qed.
Print Assumptions C94_decoding_partial.

(** decides [logical_pair] on literals *)
Definition commuteb (n : nat) (u v : list Z) : bool := Z.even (symp n u v).
Lemma commuteb_iff n u v : commute n u v <-> commuteb n u v = true.
Proof. unfold commute, commuteb. rewrite Z.even_spec. split; intros [q E]; exists q; lia. Qed.
Definition logical_pairb (n k : nat) (rows LX LZ : list (list Z)) : bool :=
  forallb (fun u => forallb (fun v => commuteb n u v) rows) (LX ++ LZ) &&
  forallb (fun i => forallb (fun j => commuteb n (nth i LX []) (nth j LX []) && commuteb n (nth i LZ []) (nth j LZ []) &&
    Bool.eqb (commuteb n (nth i LX []) (nth j LZ [])) (negb (Nat.eqb i j))) (seq 0 k)) (seq 0 k).
Definition bit_matrixb (k n : nat) (rows : list (list Z)) : bool :=
  Nat.eqb (length rows) k && forallb (fun r => Nat.eqb (length r) (2 * n) && forallb (fun x => Z.eqb x 0 || Z.eqb x 1) r) rows.
Lemma bit_matrixb_ok k n rows : bit_matrixb k n rows = true -> bit_matrix k n rows.
Proof.
  unfold bit_matrixb, bit_matrix. rewrite andb_true_iff, Nat.eqb_eq, forallb_forall. intros [L F]. split; [exact L|]. split; apply Forall_forall; intros r Hr; specialize (F r Hr);
    apply andb_true_iff in F; destruct F as [F1 F2]; [apply Nat.eqb_eq; exact F1|].
  rewrite forallb_forall in F2. apply Forall_forall. intros x Hx. specialize (F2 x Hx). apply orb_true_iff in F2. rewrite !Z.eqb_eq in F2. exact F2.
Qed.
Lemma logical_pairb_ok n k rows LX LZ : bit_matrixb k n LX = true -> bit_matrixb k n LZ = true -> logical_pairb n k rows LX LZ = true -> logical_pair n k rows LX LZ.
Proof.
  intros B1 B2 H. split; [apply bit_matrixb_ok, B1|]. split; [apply bit_matrixb_ok, B2|]. unfold logical_pairb in H. apply andb_true_iff in H. destruct H as [P Q].
  rewrite !forallb_forall in *. split.
  - intros u v Hu Hv. specialize (P u Hu). rewrite forallb_forall in P. apply commuteb_iff, P, Hv.
  - intros i j Hi Hj. specialize (Q i ltac:(apply in_seq; lia)). rewrite forallb_forall in Q. specialize (Q j ltac:(apply in_seq; lia)).
    apply andb_true_iff in Q. destruct Q as [Q Q3]. apply andb_true_iff in Q. destruct Q as [Q1 Q2]. apply eqb_prop in Q3.
    split; [apply commuteb_iff, Q1|]. split; [apply commuteb_iff, Q2|]. rewrite commuteb_iff, Q3. destruct (Nat.eqb_spec i j); cbn; split; (congruence || lia || discriminate || tauto).
Qed.

(** the [[4,2]] code XXXX, ZZZZ; its computed logical operators are IXXI, IXIX and
    ZIZI, ZIIZ.  The caller supplies XIIX, XIXI instead of the first two: the same
    operators times the generator XXXX.  The message 10 is encoded outside the code
    space: the generator ZZZZ does not fix the state. *)
Definition own_x : list (list Z) := [[1;0;0;1; 0;0;0;0]; [1;0;1;0; 0;0;0;0]]%Z.
Definition own_z : list (list Z) := [[0;0;0;0; 1;0;1;0]; [0;0;0;0; 1;0;0;1]]%Z.
Theorem C94_refuted (K : StarRing) (h im : K) : qubit_constants h im -> exists c0 c (Ss : list (marr K)),
  init (Strings four2) 4 2 None = Ok c0 /\ valid_generators 4 2 (zd (stab c0)) /\ normal_form c0 = stab c0 /\
  logical_pair 4 2 (zd (stab c0)) own_x own_z /\ zd (logical_z c0) = own_z /\
  (forall i j, i < 2 -> j < 8 -> (2 | entry own_x i j + entry (zd (logical_x c0)) i j + entry (zd (stab c0)) 0 j)%Z) /\
  init (Strings four2) 4 2 (Some (ZM 2 8 own_x, ZM 2 8 own_z)) = Ok c /\ binary_rep_to_pauli_mat (normal_form c) = Ok Ss /\
  exists S, In S Ss /\ ~ matrix_fixes 4 (me S) (encode h im 4 c [1; 0]%Z).
Proof.
  intros HC. destruct (init (Strings four2) 4 2 None) as [c0|] eqn:H0; [|exfalso; vm_compute in H0; discriminate].
  assert (HV : valid_generators 4 2 (zd (stab c0))) by (vm_compute in H0; injection H0 as <-; valid).
  destruct (proj1 (C94_accepted_partial _ _ _ (ZM 2 8 own_x) (ZM 2 8 own_z) _ H0) ltac:(split; reflexivity)) as (c & Hc & EX & EZ & _ & _ & _ & _ & EN & ER).
  assert (BX : bit_matrix 2 4 own_x) by (apply bit_matrixb_ok; vm_compute; reflexivity).
  assert (BZ : bit_matrix 2 4 own_z) by (apply bit_matrixb_ok; vm_compute; reflexivity).
  assert (EY : even_ys 4 (zd (stab c0))) by (vm_compute in H0; injection H0 as <-; repeat constructor).
  assert (Lst : length [1; 0]%Z = 2) by reflexivity. assert (Bst : binary [1; 0]%Z) by (repeat constructor; auto).
  destruct (C94_encoding_partial K h im _ 4 2 c0 c own_x own_z [1; 0]%Z HC H0 HV EY BX BZ Hc Lst Bst) as (_ & _ & _ & Ss & ES & LS & _).
  exists c0, c, Ss. split; [reflexivity|]. split; [exact HV|].
  split; [vm_compute in H0; injection H0 as <-; reflexivity|].
  split; [vm_compute in H0; injection H0 as <-; apply logical_pairb_ok; vm_compute; reflexivity|].
  split; [vm_compute in H0; injection H0 as <-; reflexivity|].
  split. { vm_compute in H0; injection H0 as <-. intros i j Hi Hj. cbn [stab logical_x zd]. do 2 (destruct i as [|i]; [do 8 (destruct j as [|j]; [apply Z.mod_divide; [lia|vm_compute; reflexivity]|]); lia|]); lia. }
  split; [exact Hc|]. split; [exact ES|].
  pose proof (C94_codespace_partial K h im _ 4 2 c0 c own_x own_z [1; 0]%Z Ss HC H0 HV EY BX BZ Hc Lst Bst ES) as CS.
  assert (N : ~ forall S, In S Ss -> matrix_fixes 4 (me S) (encode h im 4 c [1; 0]%Z)).
  { intros F. apply CS with (j := 1) in F; [|rewrite ER; vm_compute in H0; injection H0 as <-; cbn [crank]; lia].
    vm_compute in H0; injection H0 as <-. cbn [logical_x] in F. apply Z.mod_divide in F; [|lia]. vm_compute in F. discriminate. }
  destruct (C94_encoding_partial K h im _ 4 2 c0 c own_x own_z [1; 0]%Z HC H0 HV EY BX BZ Hc Lst Bst) as (_ & _ & _ & Ss' & ES' & _ & MM).
  rewrite ES in ES'. injection ES' as <-. exists (nth 1 Ss (MA 0 0 (fun _ _ => s0))). split; [apply nth_In; lia|]. intros F1. apply N.
  intros S HS. apply (In_nth _ _ (MA 0 0 (fun _ _ => s0))) in HS. destruct HS as (j & Hj & <-).
  destruct j as [|[|j]]; [|exact F1|lia]. specialize (MM 0 ltac:(lia)). intros i Hi. rewrite (MM i Hi).
  replace (Nat.leb (crank c) 0) with false by (rewrite ER; vm_compute in H0; injection H0 as <-; reflexivity). unfold sscale. cbn [andb sgn]. apply (Ring_theory.Rmul_1_l (s_rt K)).
Qed.
Print Assumptions C94_refuted.

(** the [[2,1]] code ZZ with the roles of its logical operators exchanged: X is ZI and Z is
    XX.  The state |00> - |11> is in the code space and has the value -1 of the supplied
    logical Z, but decoding leaves the ancilla in |0>. *)
Ltac norm := lazy -[car s0 s1 sadd smul ssub sopp sconj].
Section Exchanged.
Context {K : StarRing}.
Add Ring KringP94 : (s_rt K).
Definition minus_state : @state K := fun y => ssub (ket [false; false] y) (ket [true; true] y).
Lemma exchanged (h im : K) : exists c (S Z : array K),
  init (Strings [str "ZZ"]) 2 1 (Some (ZM 1 4 [[0;0;1;0]], ZM 1 4 [[1;1;0;0]])%Z) = Ok c /\
  logical_pair 2 1 (zd (stab c)) [[0;0;1;0]]%Z [[1;1;0;0]]%Z /\
  binary_rep_to_pauli_mat (stab c) = Ok [MA 4 4 S] /\ binary_rep_to_pauli_mat (logical_z c) = Ok [MA 4 4 Z] /\
  matrix_fixes 2 S minus_state /\ matrix_maps 2 Z minus_state (sscale (sgn true) minus_state) /\
  eqs 3 (exec h im [] (fst (decoding_circuit c 3 (seq 0 3) false false)) (tensor 2 minus_state [false])) (tensor 2 minus_state [false]).
Proof.
  destruct (init (Strings [str "ZZ"]) 2 1 (Some (ZM 1 4 [[0;0;1;0]], ZM 1 4 [[1;1;0;0]])%Z)) as [c|] eqn:H0; [|exfalso; vm_compute in H0; discriminate].
  vm_compute in H0; injection H0 as <-. eexists. eexists. eexists. split; [reflexivity|].
  split; [apply logical_pairb_ok; vm_compute; reflexivity|]. cbn [stab logical_z].
  split; [reflexivity|]. split; [reflexivity|].
  split; [|split].
  - intros i Hi. destruct i as [|[|[|[|i]]]]; [norm; ring..|exfalso; simpl in Hi; lia].
  - intros i Hi. destruct i as [|[|[|[|i]]]]; [norm; ring..|exfalso; simpl in Hi; lia].
  - intros y Hy. destruct y as [|a [|b [|d [|e y]]]]; try discriminate Hy. clear Hy. destruct a, b, d; norm; ring.
Qed.
End Exchanged.
Theorem C94_decoding_refuted (K : StarRing) (h im : K) : exists c (S Z : array K),
  init (Strings [str "ZZ"]) 2 1 (Some (ZM 1 4 [[0;0;1;0]], ZM 1 4 [[1;1;0;0]])%Z) = Ok c /\
  logical_pair 2 1 (zd (stab c)) [[0;0;1;0]]%Z [[1;1;0;0]]%Z /\
  binary_rep_to_pauli_mat (stab c) = Ok [MA 4 4 S] /\ binary_rep_to_pauli_mat (logical_z c) = Ok [MA 4 4 Z] /\
  matrix_fixes 2 S minus_state /\ matrix_maps 2 Z minus_state (sscale (sgn true) minus_state) /\
  eqs 3 (exec h im [] (fst (decoding_circuit c 3 (seq 0 3) false false)) (tensor 2 minus_state [false])) (tensor 2 minus_state [false]).
Proof. exact (exchanged h im). Qed.
Print Assumptions C94_decoding_refuted.

(** cases: the example of the class documentation, and the supplied operators above, for
    which the differences on qubit 1 are even for the message 11 and odd for 10 *)
Example C94_case_doc : exists c0 c, init (Strings [str "XXI"; str "XIX"]) 3 1 None = Ok c0 /\ valid_generators 3 1 (zd (stab c0)) /\ even_ys 3 (zd (stab c0)) /\ logical_pair 3 1 (zd (stab c0)) [[1;0;0;0;0;0]]%Z [[0;0;0;1;1;1]]%Z /\ init (Strings [str "XXI"; str "XIX"]) 3 1 (Some (ZM 1 6 [[1;0;0;0;0;0]], ZM 1 6 [[0;0;0;1;1;1]])%Z) = Ok c /\ crank c = 2 /\ fst (logical_circuit c (seq 0 3) ["X"%char; digit 0]) = [Gate [] GX 0].
Proof.
  eexists; eexists. split; [compute_it|]. split; [valid|]. split; [repeat constructor|]. split; [apply logical_pairb_ok; compute_it|]. split; [compute_it|]. split; compute_it.
Qed.
Example C94_case : exists c0 c, init (Strings four2) 4 2 None = Ok c0 /\ valid_generators 4 2 (zd (stab c0)) /\ even_ys 4 (zd (stab c0)) /\ bit_matrix 2 4 own_x /\ bit_matrix 2 4 own_z /\ init (Strings four2) 4 2 (Some (ZM 2 8 own_x, ZM 2 8 own_z)) = Ok c /\ crank c = 1 /\ difference 2 own_x (zd (logical_x c0)) [1; 1]%Z 1 = (-2)%Z /\ difference 2 own_x (zd (logical_x c0)) [1; 0]%Z 1 = (-1)%Z.
Proof.
  eexists; eexists. split; [compute_it|]. split; [valid|]. split; [repeat constructor|]. split; [apply bit_matrixb_ok; compute_it|]. split; [apply bit_matrixb_ok; compute_it|].
  split; [compute_it|]. split; [compute_it|]. split; compute_it.
Qed.
(** the states of C94_decoding_partial: for the computed operators, those of the encoder *)
Example C94_case_decoding (K : StarRing) (h im : K) : qubit_constants h im -> exists c, init (Strings four2) 4 2 None = Ok c /\ forall i st, i < 2 -> length st = 2 -> binary st ->
    (exists A : array K, binary_rep_to_pauli_mat (ZM 1 8 [nth i (zd (logical_x c)) []]) = Ok [MA 16 16 A] /\ matrix_maps 4 A (encode h im 4 c st) (encode h im 4 c (flip_bit i st))) /\ (exists A : array K, binary_rep_to_pauli_mat (ZM 1 8 [z_only 4 (nth i (zd (logical_z c)) [])]) = Ok [MA 16 16 A] /\ matrix_maps 4 A (encode h im 4 c st) (sscale (sgn (Z.eqb (nth i st 0%Z) 1)) (encode h im 4 c st))).
Proof.
  intros HC. destruct (init (Strings four2) 4 2 None) as [c0|] eqn:H0; [|exfalso; vm_compute in H0; discriminate].
  assert (HV : valid_generators 4 2 (zd (stab c0))) by (vm_compute in H0; injection H0 as <-; valid).
  assert (BX : bit_matrix 2 4 (zd (logical_x c0))) by (vm_compute in H0; injection H0 as <-; apply bit_matrixb_ok; vm_compute; reflexivity).
  assert (BZ : bit_matrix 2 4 (zd (logical_z c0))) by (vm_compute in H0; injection H0 as <-; apply bit_matrixb_ok; vm_compute; reflexivity).
  assert (Q : init (Strings four2) 4 2 (Some (ZM 2 (2 * 4) (zd (logical_x c0)), ZM 2 (2 * 4) (zd (logical_z c0)))) = Ok c0 /\ (forall i, i < 2 -> z_only 4 (nth i (zd (logical_z c0)) []) = nth i (zd (logical_z c0)) [])).
  { pose proof H0 as H1. vm_compute in H1; injection H1 as <-. split; [vm_compute; reflexivity|]. intros i Hi. destruct i as [|[|i]]; [reflexivity..|lia]. }
  destruct Q as [HI ZO]. exists c0. split; [reflexivity|]. intros i st Hi L B. split.
  - destruct (C94_logical_partial K h im _ 4 2 c0 _ _ i (encode h im 4 c0 st) ltac:(lia) HI BX BZ Hi ltac:(lia) "X"%char _ (or_introl (conj eq_refl eq_refl))) as (_ & A & EA & M).
    exists A. split; [exact EA|]. intros j Hj. rewrite (M j Hj). apply (C16_logical_x K h im _ 4 2 c0 i st H0 HV Hi ltac:(lia) L B). apply CircuitProofs2.bits_of_length.
  - rewrite ZO by exact Hi. destruct (C94_logical_partial K h im _ 4 2 c0 _ _ i (encode h im 4 c0 st) ltac:(lia) HI BX BZ Hi ltac:(lia) "Z"%char _ (or_intror (conj eq_refl eq_refl))) as (_ & A & EA & M).
    exists A. split; [exact EA|]. intros j Hj. rewrite (M j Hj). apply (C16_logical_z K h im _ 4 2 c0 i st H0 HV Hi ltac:(lia) L B). apply CircuitProofs2.bits_of_length.
Qed.
