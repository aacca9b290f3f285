(** The repository's own unit tests, run on the model.  Each example takes the
    literal input and the expected value of an assertion in
    /repo/PyQCodes/tests/test_codes.py, or in chan/tests/, and checks that the
    model gives the same.  They are tests of the model, not proofs of a property:
    they show that the definitions the theorems are about agree with what the
    authors of the code expect of it.  Tests that draw random numbers, or run an
    optimiser, are not reproduced. *)
From Verif Require Import Py ZMat CodesModel CircuitModel StringsModel Scalar PauliModel CsrModel KrausModel ChoiModel.
Open Scope Z_scope.

Definition made (g : list (list Z)) (n k : nat) : res code := init (Rows g) n k None.
Definition with_code {A} (g : list (list Z)) (n k : nat) (f : code -> A) (d : A) : A :=
  match made g n k with Ok c => f c | Err _ => d end.

Definition five : list (list Z) :=
  [[1; 0; 0; 1; 0; 0; 1; 1; 0; 0];
   [0; 1; 0; 0; 1; 0; 0; 1; 1; 0];
   [1; 0; 1; 0; 0; 0; 0; 0; 1; 1];
   [0; 1; 0; 1; 0; 1; 0; 0; 0; 1]].
Definition four : list (list Z) :=
  [[1; 0; 0; 1; 0; 1; 1; 0];
   [1; 1; 1; 1; 1; 0; 0; 1]].
Definition eight : list (list Z) :=
  [[1; 1; 1; 1; 1; 1; 1; 1; 0; 0; 0; 0; 0; 0; 0; 0];
   [0; 0; 0; 0; 0; 0; 0; 0; 1; 1; 1; 1; 1; 1; 1; 1];
   [0; 1; 0; 1; 1; 0; 1; 0; 0; 0; 0; 0; 1; 1; 1; 1];
   [0; 1; 0; 1; 0; 1; 0; 1; 0; 0; 1; 1; 0; 0; 1; 1];
   [0; 1; 1; 0; 1; 0; 0; 1; 0; 1; 0; 1; 0; 1; 0; 1]].
Definition shor : list (list Z) :=
  [[0; 0; 0; 0; 0; 0; 0; 0; 0; 1; 1; 0; 0; 0; 0; 0; 0; 0];
   [0; 0; 0; 0; 0; 0; 0; 0; 0; 1; 0; 1; 0; 0; 0; 0; 0; 0];
   [0; 0; 0; 0; 0; 0; 0; 0; 0; 0; 0; 0; 1; 1; 0; 0; 0; 0];
   [0; 0; 0; 0; 0; 0; 0; 0; 0; 0; 0; 0; 1; 0; 1; 0; 0; 0];
   [0; 0; 0; 0; 0; 0; 0; 0; 0; 0; 0; 0; 0; 0; 0; 1; 1; 0];
   [0; 0; 0; 0; 0; 0; 0; 0; 0; 0; 0; 0; 0; 0; 0; 1; 0; 1];
   [1; 1; 1; 1; 1; 1; 0; 0; 0; 0; 0; 0; 0; 0; 0; 0; 0; 0];
   [1; 1; 1; 0; 0; 0; 1; 1; 1; 0; 0; 0; 0; 0; 0; 0; 0; 0]].
Definition steane : list (list Z) :=
  [[0; 0; 0; 1; 1; 1; 1; 0; 0; 0; 0; 0; 0; 0];
   [0; 1; 1; 0; 0; 1; 1; 0; 0; 0; 0; 0; 0; 0];
   [1; 0; 1; 0; 1; 0; 1; 0; 0; 0; 0; 0; 0; 0];
   [0; 0; 0; 0; 0; 0; 0; 0; 0; 0; 1; 1; 1; 1];
   [0; 0; 0; 0; 0; 0; 0; 0; 1; 1; 0; 0; 1; 1];
   [0; 0; 0; 0; 0; 0; 0; 1; 0; 1; 0; 1; 0; 1]].
Definition bit : list (list Z) :=
  [[0; 0; 0; 1; 1; 0];
   [0; 0; 0; 1; 0; 1]].
Definition phase : list (list Z) :=
  [[1; 1; 0; 0; 0; 0];
   [1; 0; 1; 0; 0; 0]].

(** test_codes.py L39-56: test_binary_representation *)
Example t_binary_1 : match init (Strings [str "ZZI"; str "ZIZ"]) 3 1 None with Ok c => stab c | Err _ => zeros 0 0 end = ZM 2 6 bit.
Proof. vm_compute. reflexivity. Qed.
Example t_binary_2 : binary_rep_to_pauli_str [0; 0; 0; 1; 1; 0] = Ok (str "ZZI").
Proof. reflexivity. Qed.
Example t_binary_3 : match init (Strings [str "XXI"; str "XIX"]) 3 1 (Some (ZM 1 6 [[1; 0; 0; 0; 0; 0]], ZM 1 6 [[0; 0; 0; 1; 1; 1]])) with
                     | Ok c => stab c | Err _ => zeros 0 0 end = ZM 2 6 phase.
Proof. vm_compute. reflexivity. Qed.

(** L58-71: test_two_pauli_operators_commute_with_inner_product *)
Example t_inner_1 : inner_prod [1; 1; 1; 0; 0; 1] [0; 0; 0; 1; 0; 0] = 1.
Proof. reflexivity. Qed.
Example t_inner_2 : inner_prod [1; 0; 0; 1; 0; 0; 0; 0] [0; 0; 0; 0; 1; 0; 0; 1] = 0.
Proof. reflexivity. Qed.

(** L73-89: test_stabilizer_code_is_commutative_and_other_errors *)
Example t_commute_1 : is_stabilizer_code (ZM 2 6 bit) = true.
Proof. reflexivity. Qed.
Example t_commute_2 : init (Strings [str "XII"; str "ZII"]) 3 1 None = Err AssertionError.
Proof. reflexivity. Qed.
Example t_commute_3 : init (Strings [str "XII"; str "ZII"]) 3 2 None = Err AssertionError.
Proof. reflexivity. Qed.
Example t_commute_4 : init (Strings [str "XII"; str "ZII"]) 4 1 None = Err AssertionError
                      /\ init_strings [str "XII"; str "ZII"] 4 1 None = Err AssertionError.
Proof. split; reflexivity. Qed.
Example t_commute_5 : init (Strings [str "XII"; str "ZII"]) 3 1 (Some (ZM 1 5 [[1; 0; 0; 0; 0]], ZM 1 6 [[0; 0; 0; 1; 1; 1]])) = Err AssertionError.
Proof. reflexivity. Qed.
Example t_commute_6 : init (Strings [str "XII"; str "ZII"]) 3 1 (Some (ZM 1 6 [[1; 0; 0; 0; 0; 0]], ZM 1 5 [[0; 0; 0; 1; 1]])) = Err AssertionError.
Proof. reflexivity. Qed.
(** The last two hold already because the generators do not commute; with
    commuting ones the widths are what is refused. *)
Example t_commute_7 : init (Strings [str "ZZI"; str "ZIZ"]) 3 1 (Some (ZM 1 5 [[1; 0; 0; 0; 0]], ZM 1 6 [[0; 0; 0; 1; 1; 1]])) = Err AssertionError
                   /\ init (Strings [str "ZZI"; str "ZIZ"]) 3 1 (Some (ZM 1 6 [[1; 0; 0; 0; 0; 0]], ZM 1 5 [[0; 0; 0; 1; 1]])) = Err AssertionError.
Proof. split; vm_compute; reflexivity. Qed.

(** L257-305 and L343-388: the first elimination and the standard form *)
Example t_gauss_five : gauss_first 5 (ZM 4 10 five) = (ZM 4 10 [[1; 0; 0; 0; 1; 1; 1; 0; 1; 1];
   [0; 1; 0; 0; 1; 0; 0; 1; 1; 0];
   [0; 0; 1; 0; 1; 1; 1; 0; 0; 0];
   [0; 0; 0; 1; 1; 1; 0; 1; 1; 1]], 4%nat).
Proof. vm_compute. reflexivity. Qed.
Example t_normal_five : standard_normal_form 5 1 (ZM 4 10 five) = Ok (ZM 4 10 [[1; 0; 0; 0; 1; 1; 1; 0; 1; 1];
   [0; 1; 0; 0; 1; 0; 0; 1; 1; 0];
   [0; 0; 1; 0; 1; 1; 1; 0; 0; 0];
   [0; 0; 0; 1; 1; 1; 0; 1; 1; 1]], 4%nat).
Proof. vm_compute. reflexivity. Qed.
(** L257-305 and L343-388: the first elimination and the standard form *)
Example t_gauss_four : gauss_first 4 (ZM 2 8 four) = (ZM 2 8 [[1; 0; 0; 1; 0; 1; 1; 0];
   [0; 1; 1; 0; 1; 1; 1; 1]], 2%nat).
Proof. vm_compute. reflexivity. Qed.
Example t_normal_four : standard_normal_form 4 2 (ZM 2 8 four) = Ok (ZM 2 8 [[1; 0; 0; 1; 0; 1; 1; 0];
   [0; 1; 1; 0; 1; 1; 1; 1]], 2%nat).
Proof. vm_compute. reflexivity. Qed.
(** L257-305 and L343-388: the first elimination and the standard form *)
Example t_gauss_eight : gauss_first 8 (ZM 5 16 eight) = (ZM 5 16 [[1; 0; 0; 0; 1; 1; 1; 0; 0; 1; 0; 0; 1; 1; 0; 1];
   [0; 1; 0; 0; 1; 1; 0; 1; 0; 0; 1; 0; 1; 0; 1; 1];
   [0; 0; 1; 0; 1; 0; 1; 1; 0; 1; 0; 1; 1; 0; 1; 0];
   [0; 0; 0; 1; 0; 1; 1; 1; 0; 0; 1; 1; 1; 1; 0; 0];
   [0; 0; 0; 0; 0; 0; 0; 0; 1; 1; 1; 1; 1; 1; 1; 1]], 4%nat).
Proof. vm_compute. reflexivity. Qed.
Example t_normal_eight : standard_normal_form 8 3 (ZM 5 16 eight) = Ok (ZM 5 16 [[1; 0; 0; 0; 1; 1; 1; 0; 0; 1; 0; 0; 1; 1; 0; 1];
   [0; 1; 0; 0; 1; 1; 0; 1; 0; 0; 1; 0; 1; 0; 1; 1];
   [0; 0; 1; 0; 1; 0; 1; 1; 0; 1; 0; 1; 1; 0; 1; 0];
   [0; 0; 0; 1; 0; 1; 1; 1; 0; 0; 1; 1; 1; 1; 0; 0];
   [0; 0; 0; 0; 0; 0; 0; 0; 1; 1; 1; 1; 1; 1; 1; 1]], 4%nat).
Proof. vm_compute. reflexivity. Qed.
(** L308-340: test_gaussian_elimination_second_block_of_binary_representation *)
Example t_second : gauss_second 7 1 (ZM 6 14 [[1; 0; 0; 0; 1; 1; 1; 0; 0; 0; 0; 0; 0; 0];
   [0; 1; 0; 1; 0; 1; 1; 0; 0; 0; 0; 0; 0; 0];
   [0; 0; 1; 1; 1; 1; 0; 0; 0; 0; 0; 0; 0; 0];
   [0; 0; 0; 0; 0; 0; 0; 1; 0; 1; 1; 0; 0; 1];
   [0; 0; 0; 0; 0; 0; 0; 0; 1; 1; 0; 1; 0; 1];
   [0; 0; 0; 0; 0; 0; 0; 1; 1; 1; 0; 0; 1; 0]]) 3 = Ok (ZM 6 14 [[1; 0; 0; 0; 1; 1; 1; 0; 0; 0; 0; 0; 0; 0];
   [0; 1; 0; 1; 0; 1; 1; 0; 0; 0; 0; 0; 0; 0];
   [0; 0; 1; 1; 1; 1; 0; 0; 0; 0; 0; 0; 0; 0];
   [0; 0; 0; 0; 0; 0; 0; 1; 0; 1; 1; 0; 0; 1];
   [0; 0; 0; 0; 0; 0; 0; 0; 1; 1; 0; 1; 0; 1];
   [0; 0; 0; 0; 0; 0; 0; 1; 1; 1; 0; 0; 1; 0]]).
Proof. vm_compute. reflexivity. Qed.

(** L464-509: test_logical_operators_from_standard_normal_form *)
Example t_logical_five : with_code five 5 1 (fun c => (logical_x c, logical_z c)) (zeros 0 0, zeros 0 0) =
  (ZM 1 10 [[0; 0; 0; 0; 1; 1; 0; 0; 1; 0]],
   ZM 1 10 [[0; 0; 0; 0; 0; 1; 1; 1; 1; 1]]).
Proof. vm_compute. reflexivity. Qed.
Example t_logical_four : with_code four 4 2 (fun c => (logical_x c, logical_z c)) (zeros 0 0, zeros 0 0) =
  (ZM 2 8 [[0; 0; 1; 0; 1; 1; 0; 0];
   [0; 0; 0; 1; 0; 1; 0; 0]],
   ZM 2 8 [[0; 0; 0; 0; 0; 1; 1; 0];
   [0; 0; 0; 0; 1; 0; 0; 1]]).
Proof. vm_compute. reflexivity. Qed.
Example t_logical_eight : with_code eight 8 3 (fun c => (logical_x c, logical_z c)) (zeros 0 0, zeros 0 0) =
  (ZM 3 16 [[0; 0; 0; 0; 1; 1; 0; 0; 0; 1; 1; 0; 0; 0; 0; 0];
   [0; 0; 0; 0; 1; 0; 1; 0; 1; 0; 0; 1; 0; 0; 0; 0];
   [0; 0; 0; 0; 1; 0; 0; 1; 0; 0; 1; 1; 0; 0; 0; 0]],
   ZM 3 16 [[0; 0; 0; 0; 0; 0; 0; 0; 1; 1; 0; 1; 0; 1; 0; 0];
   [0; 0; 0; 0; 0; 0; 0; 0; 1; 0; 1; 1; 0; 0; 1; 0];
   [0; 0; 0; 0; 0; 0; 0; 0; 0; 1; 1; 1; 0; 0; 0; 1]]).
Proof. vm_compute. reflexivity. Qed.

(** L712-745: test_code_concatenation_shor_code *)
Example t_concat_shor : with_code phase 3 1 (fun c1 => with_code bit 3 1 (fun c2 =>
    match concatenate_codes c1 c2 with Ok (Some c) => stab c | _ => zeros 0 0 end) (zeros 0 0)) (zeros 0 0) = ZM 8 18 shor.
Proof. vm_compute. reflexivity. Qed.

(** The tests below assign the private attributes _logical_x and _logical_z. *)
Definition assign_logical (c : code) (lx lz : zmat) : code :=
  Code (cn c) (ck c) (stab c) (pauli_stab c) (normal_form c) (crank c) lx lz.

(** L748-781: test_code_concatenation_4_2_code_with_itself *)
Example t_concat_four : with_code four 4 2 (fun c1 =>
    match concatenate_codes c1 (assign_logical c1 (ZM 2 8 [[1; 0; 1; 1; 0; 0; 1; 1];
   [1; 0; 1; 0; 0; 0; 0; 1]]) (ZM 2 8 [[1; 0; 1; 0; 1; 1; 1; 0];
   [0; 1; 0; 0; 0; 0; 1; 1]]))
    with Ok (Some c) => stab c | _ => zeros 0 0 end) (zeros 0 0) =
  ZM 6 16 [[1; 0; 0; 1; 0; 0; 0; 0; 0; 1; 1; 0; 0; 0; 0; 0];
   [1; 1; 1; 1; 0; 0; 0; 0; 1; 0; 0; 1; 0; 0; 0; 0];
   [0; 0; 0; 0; 1; 0; 0; 1; 0; 0; 0; 0; 0; 1; 1; 0];
   [0; 0; 0; 0; 1; 1; 1; 1; 0; 0; 0; 0; 1; 0; 0; 1];
   [1; 1; 1; 1; 0; 0; 0; 0; 0; 0; 0; 0; 1; 1; 1; 1];
   [1; 0; 1; 1; 0; 1; 0; 1; 1; 1; 0; 0; 0; 0; 0; 1]].
Proof. vm_compute. reflexivity. Qed.
(** L784-836: test_code_concatenation_5_1_code_with_itself *)
Example t_concat_five : with_code five 5 1 (fun c1 =>
    match concatenate_codes c1 (assign_logical c1 (ZM 1 10 [[1; 1; 1; 1; 1; 0; 0; 0; 0; 0]]) (ZM 1 10 [[0; 0; 0; 0; 0; 1; 1; 1; 1; 1]]))
    with Ok (Some c) => (zr (stab c), slice (stab c) 0 4 0 50, slice (stab c) 20 24 0 50) | _ => (0%nat, zeros 0 0, zeros 0 0) end) (0%nat, zeros 0 0, zeros 0 0) =
  (24%nat, ZM 4 50 [[1; 0; 0; 1; 0; 0; 0; 0; 0; 0; 0; 0; 0; 0; 0; 0; 0; 0; 0; 0; 0; 0; 0; 0; 0; 0; 1; 1; 0; 0; 0; 0; 0; 0; 0; 0; 0; 0; 0; 0; 0; 0; 0; 0; 0; 0; 0; 0; 0; 0];
   [0; 1; 0; 0; 1; 0; 0; 0; 0; 0; 0; 0; 0; 0; 0; 0; 0; 0; 0; 0; 0; 0; 0; 0; 0; 0; 0; 1; 1; 0; 0; 0; 0; 0; 0; 0; 0; 0; 0; 0; 0; 0; 0; 0; 0; 0; 0; 0; 0; 0];
   [1; 0; 1; 0; 0; 0; 0; 0; 0; 0; 0; 0; 0; 0; 0; 0; 0; 0; 0; 0; 0; 0; 0; 0; 0; 0; 0; 0; 1; 1; 0; 0; 0; 0; 0; 0; 0; 0; 0; 0; 0; 0; 0; 0; 0; 0; 0; 0; 0; 0];
   [0; 1; 0; 1; 0; 0; 0; 0; 0; 0; 0; 0; 0; 0; 0; 0; 0; 0; 0; 0; 0; 0; 0; 0; 0; 1; 0; 0; 0; 1; 0; 0; 0; 0; 0; 0; 0; 0; 0; 0; 0; 0; 0; 0; 0; 0; 0; 0; 0; 0]], ZM 4 50 [[1; 1; 1; 1; 1; 0; 0; 0; 0; 0; 0; 0; 0; 0; 0; 1; 1; 1; 1; 1; 0; 0; 0; 0; 0; 0; 0; 0; 0; 0; 1; 1; 1; 1; 1; 1; 1; 1; 1; 1; 0; 0; 0; 0; 0; 0; 0; 0; 0; 0];
   [0; 0; 0; 0; 0; 1; 1; 1; 1; 1; 0; 0; 0; 0; 0; 0; 0; 0; 0; 0; 1; 1; 1; 1; 1; 0; 0; 0; 0; 0; 0; 0; 0; 0; 0; 1; 1; 1; 1; 1; 1; 1; 1; 1; 1; 0; 0; 0; 0; 0];
   [1; 1; 1; 1; 1; 0; 0; 0; 0; 0; 1; 1; 1; 1; 1; 0; 0; 0; 0; 0; 0; 0; 0; 0; 0; 0; 0; 0; 0; 0; 0; 0; 0; 0; 0; 0; 0; 0; 0; 0; 1; 1; 1; 1; 1; 1; 1; 1; 1; 1];
   [0; 0; 0; 0; 0; 1; 1; 1; 1; 1; 0; 0; 0; 0; 0; 1; 1; 1; 1; 1; 0; 0; 0; 0; 0; 1; 1; 1; 1; 1; 0; 0; 0; 0; 0; 0; 0; 0; 0; 0; 0; 0; 0; 0; 0; 1; 1; 1; 1; 1]]).
Proof. vm_compute. reflexivity. Qed.

(** L931-997: six qubits instead of four or five are refused *)
Example t_syndrome_six : with_code four 4 2 (fun c => single_syndrome_measurement c 6 (seq 0 6) (AsArray (nth 0 four []))) ([], Err IndexError) = ([], Err TypeError).
Proof. vm_compute. reflexivity. Qed.

(** L1181-1226 and L1291-1318: the encoding circuits of the five- and eight-qubit
    codes and the circuits of the book, on a register in |0...0>.  The book leaves
    out the gates that have no effect there: a gate controlled by a qubit still in
    |0>, and a Z on a qubit still in |0>.  [needed] drops these; [low] are the qubits
    no other gate has touched.  What is left is the circuit of the book, command by
    command. *)
Fixpoint needed (low : list nat) (l : list event) : list event :=
  match l with
  | Gate cs g t :: r =>
      let zero q := existsb (Nat.eqb q) low in
      if (existsb zero cs || (zero t && match g with GZ => true | _ => false end))%bool then needed low r
      else Gate cs g t :: needed (filter (fun q => negb (Nat.eqb q t)) low) r
  | e :: r => e :: needed low r
  | [] => []
  end.
Definition book_five : list event :=
  [Gate [] GH 0; Gate [0%nat] GmiY 4; Gate [] GH 1; Gate [1%nat] GX 4;
   Gate [] GH 2; Gate [2%nat] GZ 0; Gate [2%nat] GZ 1; Gate [2%nat] GX 4;
   Gate [] GH 3; Gate [3%nat] GZ 0; Gate [3%nat] GZ 2; Gate [3%nat] GmiY 4].
Example t_book_five_0 : with_code five 5 1 (fun c => needed (seq 0 5) (fst (encoding_circuit c (seq 0 5) [0]))) [] = book_five.
Proof. vm_compute. reflexivity. Qed.
Example t_book_five_1 : with_code five 5 1 (fun c => needed (seq 0 5) (fst (encoding_circuit c (seq 0 5) [1]))) [] = Gate [] GX 4 :: book_five.
Proof. vm_compute. reflexivity. Qed.
Definition book_eight : list event :=
  [Gate [] GH 0; Gate [0%nat] GmiY 4; Gate [0%nat] GmiY 5; Gate [0%nat] GX 6; Gate [0%nat] GZ 7;
   Gate [] GH 1; Gate [1%nat] GmiY 4; Gate [1%nat] GX 5; Gate [1%nat] GZ 6; Gate [1%nat] GmiY 7;
   Gate [] GH 2; Gate [2%nat] GZ 1; Gate [2%nat] GmiY 4; Gate [2%nat] GmiY 6; Gate [2%nat] GX 7;
   Gate [] GH 3; Gate [3%nat] GZ 2; Gate [3%nat] GZ 4; Gate [3%nat] GmiY 5; Gate [3%nat] GX 6; Gate [3%nat] GX 7].
Example t_book_eight : with_code eight 8 3 (fun c => needed (seq 0 8) (fst (encoding_circuit c (seq 0 8) [0; 0; 0]))) [] = needed (seq 0 8) book_eight.
Proof. vm_compute. reflexivity. Qed.


(** ** chan/tests/test_kraus.py *)
Section KrausTests.
Open Scope nat_scope.
(** entries of the dephrasure channel (L42-52), without the square roots, over the
    Gaussian integers; the tests below only depend on the shapes or compare products
    of the operators *)
Definition tall (l : list (list Z)) : marr GI := MA (length l) (length (hd [] l)) (fun i j => ((nth j (nth i l []) 0%Z, 0%Z) : GI)).
Definition k1 : list (marr GI) := map tall [[[1; 0]; [0; 1]; [0; 0]]; [[1; 0]; [0; -1]; [0; 0]]; [[0; 0]; [0; 0]; [1; 0]]; [[0; 0]; [0; 0]; [0; 1]]]%Z.
Definition k2 : list (marr GI) := map tall [[[0; 2]; [2; 0]]; [[3; 0]; [0; -3]]]%Z.
Definition entries (A : marr GI) : list (list Z) := map (fun i => map (fun j => fst (me A i j)) (seq 0 (mc A))) (seq 0 (mr A)).
Definition shape_of {K} (r : res (kraus K)) : res (nat * nat * nat * (nat * nat * nat * nat)) :=
  match r with
  | Ok o => Ok (t0 (nth_ops o), t1 (nth_ops o), t2 (nth_ops o), (u0 (nth_exch o), u1 (nth_exch o), u2 (nth_exch o), u3 (nth_exch o)))
  | Err e => Err e end.

(** tests/test_codes.py L236-254: test_binary_rep_to_pauli_mat, dense and sparse *)
Definition X2 : marr GI := tall [[0; 1]; [1; 0]]%Z.
Definition Z2 : marr GI := tall [[1; 0]; [0; -1]]%Z.
Definition I2 : marr GI := tall [[1; 0]; [0; 1]]%Z.
Example t_pauli_dense : match binary_rep_to_pauli_mat (K := GI) (ZM 2 6 bit) with Ok l => map entries l | Err _ => [] end
                        = map entries [np_kron Z2 (np_kron Z2 I2); np_kron Z2 (np_kron I2 Z2)].
Proof. vm_compute. reflexivity. Qed.
Example t_pauli_sparse : match binary_rep_to_pauli_csr (K := GI) (ZM 2 6 [[1; 0; 1; 0; 0; 0]; [0; 0; 0; 1; 0; 1]]%Z) with
                         | Ok l => map (fun A => entries (todense A)) l | Err _ => [] end
                        = map entries [np_kron X2 (np_kron I2 X2); np_kron Z2 (np_kron I2 Z2)].
Proof. vm_compute. reflexivity. Qed.

(** L81-134: the shapes after the constructor, and the refused dimensions *)
Example t_shapes : forall sp, shape_of (kraus_init sp (OpList k1) (1, 1) 2 3 []) = Ok (4, 3, 2, (4, 4, 2, 2)).
Proof. intros [ | ]; reflexivity. Qed.
Example t_dims : forall sp,
     kraus_init sp (OpList k1) (1, 1) 2 2 [] = Err AssertionError
  /\ kraus_init sp (OpList k1) (1, 2) 2 3 [] = Err AssertionError
  /\ kraus_init sp (OpList k1) (1, 1) 3 2 [] = Err AssertionError
  /\ kraus_init sp (OpList [tall [[1; 0]; [0; 1]]%Z]) (1, 1) 2 3 [] = Err AssertionError
  /\ kraus_init sp (OpList k1) (1, 1) 4 3 [] = Err AssertionError
  /\ kraus_init sp (OpList k1) (1, 1) 2 4 [] = Err AssertionError.
Proof. intros [ | ]; repeat split. Qed.

(** L137-178: up to four copies and back to two *)
Definition grown (sp : bool) : list (nat * nat * nat * list (list (list Z))) :=
  match kraus_init sp (OpList k1) (1, 1) 2 3 [] with
  | Err _ => []
  | Ok o =>
      let o4 := fst (update_kraus_operators o 4) in
      let o2 := fst (update_kraus_operators o4 2) in
      [(t0 (nth_ops o4), t1 (nth_ops o4), t2 (nth_ops o4), []);
       (t0 (nth_ops o2), t1 (nth_ops o2), t2 (nth_ops o2), map entries (slices (nth_ops o2)))]
  end.
Example t_update : forall sp, grown sp = [(256, 81, 16, []); (16, 9, 4, flat_map (fun a => map (fun b => entries (np_kron a b)) k1) k1)].
Proof. intros [ | ]; vm_compute; reflexivity. Qed.

(** L478-520 and L523-558: concatenation in series and in parallel *)
Definition arr (l : list (marr GI)) : ten3 GI := match np_array l with Ok t => t | Err _ => T3 0 0 0 (fun _ _ _ => s0) end.
Definition product (a b : marr GI) : list (list Z) := match np_dot a b with Ok c => entries c | Err _ => [] end.
Example t_serial : match serial_concatenate (arr k1) (arr k2) with Ok t => map entries (slices t) | Err _ => [] end
                   = flat_map (fun x => map (fun y => product x y) k2) k1.
Proof. vm_compute. reflexivity. Qed.
Example t_parallel : map entries (slices (parallel_concatenate (arr k1) (arr k2))) = flat_map (fun x => map (fun y => entries (np_kron x y)) k2) k1.
Proof. vm_compute. reflexivity. Qed.
Definition both (sp : bool) (f : kraus GI -> kraus GI -> res (kraus GI)) : res (list (list (list Z)) * list (list (list Z))) :=
  do a <- kraus_init sp (OpList k1) (1, 1) 2 3 []; do b <- kraus_init sp (OpList k2) (1, 1) 2 2 [];
  do c <- f a b; Ok (map entries (slices (kraus_ops c)), map entries (slices (nth_ops c))).
Example t_add : forall sp, let l := flat_map (fun x => map (fun y => product x y) k2) k1 in both sp kraus_add = Ok (l, l).
Proof. intros [ | ]; vm_compute; reflexivity. Qed.
Example t_mul : forall sp, let l := flat_map (fun x => map (fun y => entries (np_kron x y)) k2) k1 in both sp kraus_mul = Ok (l, l).
Proof. intros [ | ]; vm_compute; reflexivity. Qed.
Example t_add_wrong_order : forall sp, both sp (fun a b => kraus_add b a) = Err TypeError.
Proof. intros [ | ]; vm_compute; reflexivity. Qed.
Example t_serial_wrong_order : serial_concatenate (arr k2) (arr k1) = Err TypeError.
Proof. reflexivity. Qed.

(** L561-577: a unit matrix through the adjoint of the complementary channel.  Without
    the square roots it is the sum of the squared operators. *)
Example t_adjoint_unit : forall sp, match kraus_init sp (OpList k1) (1, 1) 2 3 [2] with
    | Ok o => match entropy_exchange_adjoint o (MA 4 4 eye) 1 with Ok A => entries A | Err _ => [] end | Err _ => [] end = [[3; 0]; [0; 3]]%Z.
Proof. intros [ | ]; vm_compute; reflexivity. Qed.

(** L289-306: splitting the exchange matrix at the orthogonal index gives its two
    diagonal blocks, and the others are zero (n = 1, 2) *)
Definition state2 : marr GI := MA 2 2 (fun i j => match i, j with 0, 0 => ((5, 0)%Z : GI) | 0, 1 => (2, -1)%Z | 1, 0 => (2, 1)%Z | _, _ => (3, 0)%Z end).
Definition full (A : marr GI) : list (list (Z * Z)) := map (fun i => map (fun j => me A i j) (seq 0 (mc A))) (seq 0 (mr A)).
Definition block2 (A B : marr GI) : marr GI :=
  MA (mr A + mr B) (mc A + mc B) (fun i j =>
    if (Nat.ltb i (mr A) && Nat.ltb j (mc A))%bool then me A i j
    else if (Nat.leb (mr A) i && Nat.leb (mc A) j)%bool then me B (i - mr A) (j - mc A) else s0).
Definition exchanged (orthogonal : list nat) (rho : marr GI) (n : nat) : list (marr GI) :=
  match kraus_init false (OpList k1) (1, 1) 2 3 orthogonal with
  | Ok o => match entropy_exchange (fst (update_kraus_operators o n)) rho n with Ok l => l | Err _ => [] end
  | Err _ => [] end.
Example t_orthogonal_1 : match exchanged [2] state2 1, exchanged [] state2 1 with
    | [A; B], [W] => full (block2 A B) = full W /\ mr A = 2 /\ mr B = 2 | _, _ => False end.
Proof. vm_compute. repeat split. Qed.
Example t_orthogonal_2 : match exchanged [2] (np_kron state2 state2) 2, exchanged [] (np_kron state2 state2) 2 with
    | [A; B], [W] => full (block2 A B) = full W /\ mr A = 8 /\ mr B = 8 | _, _ => False end.
Proof. vm_compute. repeat split. Qed.
End KrausTests.

(** ** chan/tests/test_param.py *)
From Coq Require Import Reals Lra.
From Verif Require Import ParamModel EncoderProofs.
Section ParamTests.
Open Scope R_scope.
Definition at_ (r : res (marr CC)) (i j : nat) : CC := match r with Ok A => me A i j | Err _ => (0, 0) end.
(** L33-53: StandardBasis.rho_from_vec on every vector of length 4 and 16 *)
Example t_standard_2 : forall v0 v1 v2 v3 : R,
  let r := std_rho_from_vec [v0; v1; v2; v3] 2 in
  map (fun i => map (at_ r i) (seq 0 2)) (seq 0 2) = [[(v0, 0); (v1, v2)]; [(v1, - v2); (v3, 0)]].
Proof. intros. lazy -[Rplus Ropp IZR]. repeat f_equal; ring. Qed.
Example t_standard_4 : forall v0 v1 v2 v3 v4 v5 v6 v7 v8 v9 v10 v11 v12 v13 v14 v15 : R,
  let r := std_rho_from_vec [v0; v1; v2; v3; v4; v5; v6; v7; v8; v9; v10; v11; v12; v13; v14; v15] 4 in
  map (fun i => map (at_ r i) (seq 0 4)) (seq 0 4) =
  [[(v0, 0); (v1, v2); (v3, v4); (v5, v6)];
   [(v1, - v2); (v7, 0); (v8, v9); (v10, v11)];
   [(v3, - v4); (v8, - v9); (v12, 0); (v13, v14)];
   [(v5, - v6); (v10, - v11); (v13, - v14); (v15, 0)]].
Proof. intros. lazy -[Rplus Ropp IZR]. repeat f_equal; ring. Qed.
(** L62-75 *)
Example t_standard_vec : std_vec_from_rho (MA (K := CC) 2 2 (fun i j => nth (i * 2 + j) [(1, 0); (1, 2); (1, -2); (3, 0)] ((0, 0) : CC))) 2
                         = Ok [1; 1; 2; 3].
Proof. reflexivity. Qed.
(** the matrix of L69-71 is not Hermitian; only its upper triangle is read *)
Example t_standard_vec3 : forall a b c d e f g h : R,
  std_vec_from_rho (MA (K := CC) 3 3 (fun i j => nth (i * 3 + j) [(a, 0); (b, c); (d, 0); (g, - c); (a, 0); (e, c); (d, 0); (e, - c); (h, 0)] ((0, 0) : CC))) 3 = Ok [a; b; c; d; 0; a; e; c; h].
Proof. reflexivity. Qed.
(** L81 *)
Example t_over_numb : over_numb_variables 5 3 = 30%nat.
Proof. reflexivity. Qed.
(** L219-223: CholeskyParam.numb_variables *)
Example t_chol_numb : chol_numb_variables 2 2 = 4%Z.
Proof. reflexivity. Qed.
(** L84-123 and L150-196: the matrix [a] built from the vector, as the tests write it;
    the state is [a.dot(conj(a).T)] divided by its trace, on the model's side by
    [normalised_product] *)
Example t_over_2 : forall v0 v1 v2 v3 v4 v5 v6 v7 : R,
  over_rho_from_vec [v0; v1; v2; v3; v4; v5; v6; v7] 2 None =
  normalised_product (MA (K := CC) 2 2 (fun i j => nth (i * 2 + j) [(v0, v1); (v2, v3); (v4, v5); (v6, v7)] ((0, 0) : CC))).
Proof. reflexivity. Qed.
Example t_over_1 : forall v0 v1 v2 v3 : R,
  over_rho_from_vec [v0; v1; v2; v3] 2 (Some 1%nat) = normalised_product (MA (K := CC) 2 1 (fun i j => nth (i * 1 + j) [(v0, v1); (v2, v3)] ((0, 0) : CC))).
Proof. reflexivity. Qed.
Example t_over_4 : forall v0 v1 v2 v3 v4 v5 v6 v7 v8 v9 v10 v11 v12 v13 v14 v15 : R,
  over_rho_from_vec [v0; v1; v2; v3; v4; v5; v6; v7; v8; v9; v10; v11; v12; v13; v14; v15] 4 None =
  normalised_product (MA (K := CC) 4 2 (fun i j => nth (i * 2 + j) [(v0, v1); (v2, v3); (v4, v5); (v6, v7); (v8, v9); (v10, v11); (v12, v13); (v14, v15)] ((0, 0) : CC))).
Proof. reflexivity. Qed.
(** what [rho_from_vec] multiplies out: the lower triangular matrix of each test *)
Definition chol_matrix (vec : list R) (nsize rank : nat) : list (list CC) :=
  match complex_pairs vec rank with
  | Ok cv => match fancy_set azeros (tril_indices nsize rank) cv with
             | Ok L => match fancy_set L (map (fun i => (i, i)) (seq 0 rank)) (map (fun x => (x, 0) : CC) (firstn rank vec)) with
                       | Ok L => map (fun i => map (L i) (seq 0 rank)) (seq 0 nsize) | Err _ => [] end
             | Err _ => [] end
  | Err _ => [] end.
Example t_chol_2_2 : forall v0 v1 v2 v3 : R, chol_matrix [v0; v1; v2; v3] 2 2 = [[(v0, 0); (0, 0)]; [(v2, v3); (v1, 0)]].
Proof. reflexivity. Qed.
Example t_chol_2_1 : forall v0 v1 v2 : R, chol_matrix [v0; v1; v2] 2 1 = [[(v0, 0)]; [(v1, v2)]].
Proof. reflexivity. Qed.
Example t_chol_4_3 : forall v0 v1 v2 v3 v4 v5 v6 v7 v8 v9 v10 v11 v12 v13 v14 : R,
  chol_matrix [v0; v1; v2; v3; v4; v5; v6; v7; v8; v9; v10; v11; v12; v13; v14] 4 3 =
  [[(v0, 0); (0, 0); (0, 0)]; [(v3, v4); (v1, 0); (0, 0)]; [(v5, v6); (v7, v8); (v2, 0)]; [(v9, v10); (v11, v12); (v13, v14)]].
Proof. reflexivity. Qed.
Example t_chol_4_2 : forall v0 v1 v2 v3 v4 v5 v6 v7 v8 v9 v10 v11 : R,
  chol_matrix [v0; v1; v2; v3; v4; v5; v6; v7; v8; v9; v10; v11] 4 2 =
  [[(v0, 0); (0, 0)]; [(v2, v3); (v1, 0)]; [(v4, v5); (v6, v7)]; [(v8, v9); (v10, v11)]].
Proof. reflexivity. Qed.
(** L264-301: bounds, and the refused distributions *)
Example t_chol_bounds : chol_bounds 3 2 1 7 = [(0, 7); (0, 7); (1, 7); (1, 7); (1, 7); (1, 7); (1, 7); (1, 7)].
Proof. reflexivity. Qed.
Example t_over_dist : forall normal uniform, over_random_vectors normal uniform 5 4 "w.e."%string = Err TypeError.
Proof. reflexivity. Qed.
End ParamTests.

