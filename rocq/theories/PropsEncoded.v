(** Encoded states and the generators the code was built from (C105), and the
    relabelling of C07.  Specification: EncodedSpec.v, CodesSpec.v, CircuitSpec.v.
    Model: CircuitModel.v, CodesModel.v. *)
From Verif Require Import Py ZMat CodesModel RankSpec CodesSpec CodesProofs PropsCodes Scalar PauliModel PauliSpec PropsPauli
  CircuitModel CircuitSpec PropsCircuits EncodedSpec EncodedProofs.
From Coq Require Import Lia Bool.
Open Scope nat_scope.

(** ** C07: relabelling qubits carries all inner products over *)
Theorem C07_relabel n p u v : qubit_perm n p -> length u = 2 * n -> length v = 2 * n ->
  inner_prod (relabel n p u) (relabel n p v) = inner_prod u v.
Proof. exact (inner_prod_relabel n p u v). Qed.
Print Assumptions C07_relabel.
Example C07_relabel_case : qubit_perm 3 (fun i => match i with 0 => 1 | 1 => 2 | _ => 0 end) /\
  relabel 3 (fun i => match i with 0 => 1 | 1 => 2 | _ => 0 end) [1; 0; 0; 0; 1; 1]%Z = [0; 0; 1; 1; 1; 0]%Z.
Proof.
  split; [|reflexivity]. split.
  - intros i Hi. do 3 (destruct i as [|i]; [lia|]). lia.
  - intros i j Hi Hj. do 3 (destruct i as [|i]; [do 3 (destruct j as [|j]; [try reflexivity; discriminate|]); lia|]). lia.
Qed.

(** ** C105: [encode h im n c st] is the state encoding_circuit prepares for st.  The
    normal form is the code of the given generators up to a relabelling p of the
    qubits (C07), so generator r acts on the encoded states as relabel n p r. *)
(** every generator holds on all encoded states with one and the same sign *)
Theorem C105_up_to_sign_partial (K : StarRing) (h im : K) g n k c : qubit_constants h im ->
  init g n k None = Ok c -> valid_generators n k (zd (stab c)) -> even_ys n (zd (stab c)) ->
  exists p, qubit_perm n p /\
  (forall v, in_rowspace n (map (relabel n p) (zd (stab c))) v <-> in_rowspace n (zd (normal_form c)) v) /\
  forall r, In r (zd (stab c)) -> exists (A : array K) e,
    binary_rep_to_pauli_mat (ZM 1 (2 * n) [relabel n p r]) = Ok [MA (2 ^ n) (2 ^ n) A] /\
    forall st, length st = k -> binary st -> matrix_maps n A (encode h im n c st) (sscale (sgn e) (encode h im n c st)).
Proof. intros HC HI HV HE. exact (up_to_sign h im g n k c HI HV HE). Qed.
(** the sign, for every element of the group: [cs] writes the row as a sum of rows of normal_form *)
Theorem C105_sign_partial (K : StarRing) (h im : K) g n k c row cs st : qubit_constants h im ->
  init g n k None = Ok c -> valid_generators n k (zd (stab c)) -> even_ys n (zd (stab c)) ->
  length st = k -> binary st -> length row = 2 * n -> binary row -> length cs = n - k ->
  (forall j, j < 2 * n -> (2 | nth j row 0 - lcomb cs (zd (normal_form c)) j)%Z) ->
  exists A : array K, binary_rep_to_pauli_mat (ZM 1 (2 * n) [row]) = Ok [MA (2 ^ n) (2 ^ n) A] /\
    matrix_maps n A (encode h im n c st) (sscale (pm1 (cross_sign n cs (zd (normal_form c)))) (encode h im n c st)).
Proof. intros HC HI HV HE. exact (sign_of_row h im g n k c HI HV HE st row cs). Qed.
(** all signs are + when z_r . x_s is even for all generators r and s *)
Theorem C105_fixed_partial (K : StarRing) (h im : K) g n k c : qubit_constants h im ->
  init g n k None = Ok c -> valid_generators n k (zd (stab c)) -> even_ys n (zd (stab c)) ->
  (forall r s, In r (zd (stab c)) -> In s (zd (stab c)) -> Z.even (zx_dot n r s) = true) ->
  exists p, qubit_perm n p /\
  (forall v, in_rowspace n (map (relabel n p) (zd (stab c))) v <-> in_rowspace n (zd (normal_form c)) v) /\
  forall r, In r (zd (stab c)) -> exists A : array K,
    binary_rep_to_pauli_mat (ZM 1 (2 * n) [relabel n p r]) = Ok [MA (2 ^ n) (2 ^ n) A] /\
    forall st, length st = k -> binary st -> matrix_fixes n A (encode h im n c st).
Proof. intros HC HI HV HE. exact (fixed_guarded h im g n k c HI HV HE). Qed.
(** in particular when each generator has only Xs or only Zs *)
Theorem C105_css_partial (K : StarRing) (h im : K) g n k c : qubit_constants h im ->
  init g n k None = Ok c -> valid_generators n k (zd (stab c)) -> Forall (css_row n) (zd (stab c)) ->
  exists p, qubit_perm n p /\
  (forall v, in_rowspace n (map (relabel n p) (zd (stab c))) v <-> in_rowspace n (zd (normal_form c)) v) /\
  forall r, In r (zd (stab c)) -> exists A : array K,
    binary_rep_to_pauli_mat (ZM 1 (2 * n) [relabel n p r]) = Ok [MA (2 ^ n) (2 ^ n) A] /\
    forall st, length st = k -> binary st -> matrix_fixes n A (encode h im n c st).
Proof.
  intros HC HI HV HX. pose proof HV as (_ & _ & W & B & Cm & _).
  apply (C105_fixed_partial K h im g n k c HC HI HV (css_even_ys n _ B HX)). exact (css_even n _ W Cm HX).
Qed.

(** The code generated by XXZ and ZXX: its rows are in the row space of normal_form
    without any relabelling, every encoded state is a -1 eigenvector of XXZ, and the
    measurement of XXZ on it reports 1 with certainty. *)
Definition flipped_code := [str "XXZ"; str "ZXX"].
Theorem C105_refuted : exists c, init (Strings flipped_code) 3 1 None = Ok c /\ valid_generators 3 1 (zd (stab c)) /\ even_ys 3 (zd (stab c)) /\
  (forall r, In r (zd (stab c)) -> in_rowspace 3 (zd (normal_form c)) r) /\
  forall (K : StarRing) (h im : K), qubit_constants h im -> forall b : Z, b = 0%Z \/ b = 1%Z ->
  exists A : array K, binary_rep_to_pauli_mat (ZM 1 (2 * 3) [nth 0 (zd (stab c)) []]) = Ok [MA (2 ^ 3) (2 ^ 3) A] /\
    inner 3 (encode h im 3 c [b]) (encode h im 3 c [b]) = s1 /\
    matrix_maps 3 A (encode h im 3 c [b]) (sscale (sopp s1) (encode h im 3 c [b])) /\
    eqs 4 (exec h im [false] (fst (single_syndrome_measurement c 3 (seq 0 3) (AsString (str "XXZ")))) (encode h im 3 c [b])) (fun _ => s0).
Proof.
  destruct (init (Strings flipped_code) 3 1 None) as [c|e] eqn:HI; [|vm_compute in HI; discriminate]. exists c. split; [reflexivity|].
  assert (Ec : Ok c = init (Strings flipped_code) 3 1 None) by (symmetry; exact HI).
  assert (ES : zd (stab c) = [[1; 1; 0; 0; 0; 1]; [0; 1; 1; 1; 0; 0]]%Z) by (vm_compute in Ec; injection Ec as ->; reflexivity).
  assert (EN : zd (normal_form c) = [[1; 0; 1; 1; 0; 1]; [0; 1; 1; 1; 0; 0]]%Z) by (vm_compute in Ec; injection Ec as ->; reflexivity).
  assert (En : cn c = 3) by (vm_compute in Ec; injection Ec as ->; reflexivity).
  assert (HV : valid_generators 3 1 (zd (stab c))) by (rewrite ES; valid).
  assert (HE : even_ys 3 (zd (stab c))) by (rewrite ES; repeat (constructor; [reflexivity|]); constructor).
  assert (HS : forall j, j < 2 * 3 -> (2 | nth j [1; 1; 0; 0; 0; 1] 0 - lcomb [1; 1] [[1; 0; 1; 1; 0; 1]; [0; 1; 1; 1; 0; 0]] j)%Z).
  { intros j Hj. do 6 (destruct j as [|j]; [first [exists 0%Z; reflexivity | exists (-1)%Z; reflexivity]|]). lia. }
  split; [exact HV|]. split; [exact HE|]. split.
  - rewrite ES, EN. intros r [<-|[<-|[]]].
    + exists [1; 1]%Z. split; [reflexivity|exact HS].
    + exists [0; 1]%Z. split; [reflexivity|]. intros j Hj. do 6 (destruct j as [|j]; [exists 0%Z; reflexivity|]). lia.
  - intros K h im HC b Hb. assert (Bb : binary [b]) by (constructor; [exact Hb|constructor]).
    destruct (C105_sign_partial K h im (Strings flipped_code) 3 1 c [1; 1; 0; 0; 0; 1]%Z [1; 1]%Z [b] HC HI HV HE eq_refl Bb eq_refl) as (A & EA & M).
    + repeat (constructor; [auto|]); constructor.
    + reflexivity.
    + rewrite EN. exact HS.
    + exists A. rewrite ES. split; [exact EA|]. split.
      { exact (proj1 (proj2 (C15_encoding K h im (Strings flipped_code) 3 1 c [b] HC HI HV HE eq_refl Bb))). }
      rewrite EN in M. split; [exact M|].
      destruct (C18_syndrome K h im 3 c [1; 1; 0; 0; 0; 1]%Z (AsString (str "XXZ")) (encode h im 3 c [b]) false true false HC ltac:(lia) En eq_refl) as (A' & EA' & X).
      * repeat (constructor; [auto|]); constructor.
      * right. eexists. split; reflexivity.
      * rewrite EA in EA'. injection EA' as <-. exact (proj2 (proj2 (proj2 (X M)))).
Qed.
Print Assumptions C105_up_to_sign_partial.
Print Assumptions C105_sign_partial.
Print Assumptions C105_fixed_partial.
Print Assumptions C105_css_partial.
Print Assumptions C105_refuted.
(** the Steane code has such generators *)
Example C105_case : exists c, init (Rows (rows_of steane)) 7 1 None = Ok c /\ valid_generators 7 1 (zd (stab c)) /\ Forall (css_row 7) (zd (stab c)).
Proof.
  eexists; split; [compute_it|]. split; [valid|].
  repeat (constructor; [first [left; intros j Hj; do 7 (destruct j as [|j]; [reflexivity|]); lia | right; intros j Hj; do 7 (destruct j as [|j]; [reflexivity|]); lia]|]). constructor.
Qed.
(** a code with mixed generators that meets the condition of C105_fixed_partial *)
Example C105_case_mixed : exists c, init (Strings [str "XXXX"; str "XZZX"]) 4 2 None = Ok c /\ valid_generators 4 2 (zd (stab c)) /\ forallb (fun r => Nat.even (y_count 4 r)) (zd (stab c)) = true /\ forallb (fun r => forallb (fun s => Z.even (zx_dot 4 r s)) (zd (stab c))) (zd (stab c)) = true.
Proof. eexists; split; [compute_it|]. split; [valid|]. split; compute_it. Qed.
