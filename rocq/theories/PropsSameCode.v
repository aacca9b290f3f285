(** C111: the states encoding_circuit prepares and the columns of the matrix
    encode_krauss_operators returns.  Specification: SameCodeSpec.v, CodesSpec.v,
    CircuitSpec.v.  Model: CircuitModel.v, PauliModel.v. *)
From Verif Require Import Py ZMat CodesModel RankSpec CodesSpec CodesProofs PropsCodes Scalar PauliModel PauliSpec PropsPauli
  CircuitModel CircuitSpec PropsCircuits EncodedSpec EncodedProofs PropsEncoded SameCodeSpec SameCodeProofs.
From Coq Require Import Reals Lia Bool.
Open Scope nat_scope.
Add Ring CCring54 : (s_rt CC).

(** In general the encoded states become the columns' span after one Pauli operator
    and the relabelling p of C07. *)
Theorem C111_exact_partial eigh (h im : CC) g n k c : eigh_ok eigh -> qubit_constants h im ->
  init g n k None = Ok c -> valid_generators n k (zd (stab c)) -> even_ys n (zd (stab c)) ->
  exists E p w Q, encode_krauss_operators eigh c = Ok (MA (2 ^ n) (2 ^ k) E) /\ qubit_perm n p /\
  (forall v, in_rowspace n (map (relabel n p) (zd (stab c))) v <-> in_rowspace n (zd (normal_form c)) v) /\
  length w = 2 * n /\ binary w /\ binary_rep_to_pauli_mat (ZM 1 (2 * n) [w]) = Ok [MA (2 ^ n) (2 ^ n) Q] /\
  forall psi phi, matrix_maps n Q psi phi ->
    (encoded_by n k (encode h im n c) psi <-> in_columns n (2 ^ k) E (move_qubits n p phi)).
Proof. intros EO HC HI HV HE. exact (same_exact eigh EO h im HC g n k c HI HV HE). Qed.
(** They span the same space exactly when every given generator fixes every encoded state. *)
Theorem C111_exactly_partial eigh (h im : CC) g n k c : eigh_ok eigh -> qubit_constants h im ->
  init g n k None = Ok c -> valid_generators n k (zd (stab c)) -> even_ys n (zd (stab c)) ->
  exists E, encode_krauss_operators eigh c = Ok (MA (2 ^ n) (2 ^ k) E) /\
  ((forall psi, encoded_by n k (encode h im n c) psi <-> in_columns n (2 ^ k) E psi) <->
   (forall r st, In r (zd (stab c)) -> length st = k -> binary st -> exists A : array CC,
      binary_rep_to_pauli_mat (ZM 1 (2 * n) [r]) = Ok [MA (2 ^ n) (2 ^ n) A] /\ matrix_fixes n A (encode h im n c st))).
Proof. intros EO HC HI HV HE. exact (same_iff eigh EO h im HC g n k c HI HV HE). Qed.
(** That is so when normal_form spans the given generators without a relabelling and
    z_r . x_s is even for all of them. *)
Theorem C111_guarded_partial eigh (h im : CC) g n k c : eigh_ok eigh -> qubit_constants h im ->
  init g n k None = Ok c -> valid_generators n k (zd (stab c)) -> even_ys n (zd (stab c)) ->
  (forall r, In r (zd (stab c)) -> in_rowspace n (zd (normal_form c)) r) ->
  (forall r s, In r (zd (stab c)) -> In s (zd (stab c)) -> Z.even (zx_dot n r s) = true) ->
  exists E, encode_krauss_operators eigh c = Ok (MA (2 ^ n) (2 ^ k) E) /\
  forall psi, encoded_by n k (encode h im n c) psi <-> in_columns n (2 ^ k) E psi.
Proof. intros EO HC HI HV HE. exact (same_guarded eigh EO h im HC g n k c HI HV HE). Qed.

(** Where a generator anticommutes with a row of normal_form, only the zero vector is in both. *)
Theorem C111_disjoint_partial eigh (h im : CC) g n k c r s : eigh_ok eigh -> qubit_constants h im ->
  init g n k None = Ok c -> valid_generators n k (zd (stab c)) -> even_ys n (zd (stab c)) ->
  In r (zd (stab c)) -> In s (zd (normal_form c)) -> inner_prod r s = 1%Z ->
  exists E, encode_krauss_operators eigh c = Ok (MA (2 ^ n) (2 ^ k) E) /\
  forall psi : @state CC, encoded_by n k (encode h im n c) psi -> in_columns n (2 ^ k) E psi -> eqs n psi (fun _ => s0).
Proof. intros EO HC HI HV HE. exact (disjoint eigh EO h im g n k c HI HV HE r s). Qed.

(** The five-qubit code: every encoded state is orthogonal to every column. *)
Theorem C111_refuted : exists c, init (Strings five_qubit) 5 1 None = Ok c /\ valid_generators 5 1 (zd (stab c)) /\ even_ys 5 (zd (stab c)) /\
  forall eigh (h im : CC), eigh_ok eigh -> qubit_constants h im -> exists E, encode_krauss_operators eigh c = Ok (MA (2 ^ 5) (2 ^ 1) E) /\
  forall b : Z, b = 0%Z \/ b = 1%Z -> inner 5 (encode h im 5 c [b]) (encode h im 5 c [b]) = s1 /\
    off_columns 5 (2 ^ 1) E (encode h im 5 c [b]) /\ ~ in_columns 5 (2 ^ 1) E (encode h im 5 c [b]).
Proof.
  destruct (init (Strings five_qubit) 5 1 None) as [c|e] eqn:HI; [|vm_compute in HI; discriminate]. exists c. split; [reflexivity|].
  assert (Ec : Ok c = init (Strings five_qubit) 5 1 None) by (symmetry; exact HI).
  assert (ES : zd (stab c) = [[1; 0; 0; 1; 0; 0; 1; 1; 0; 0]; [0; 1; 0; 0; 1; 0; 0; 1; 1; 0]; [1; 0; 1; 0; 0; 0; 0; 0; 1; 1]; [0; 1; 0; 1; 0; 1; 0; 0; 0; 1]]%Z) by (vm_compute in Ec; injection Ec as ->; reflexivity).
  assert (EN : zd (normal_form c) = [[1; 0; 0; 0; 1; 1; 1; 0; 1; 1]; [0; 1; 0; 0; 1; 0; 0; 1; 1; 0]; [0; 0; 1; 0; 1; 1; 1; 0; 0; 0]; [0; 0; 0; 1; 1; 1; 0; 1; 1; 1]]%Z) by (vm_compute in Ec; injection Ec as ->; reflexivity).
  assert (HV : valid_generators 5 1 (zd (stab c))) by (rewrite ES; valid).
  assert (HE : even_ys 5 (zd (stab c))) by (rewrite ES; repeat (constructor; [reflexivity|]); constructor).
  split; [exact HV|]. split; [exact HE|]. intros eigh h im EO HC.
  assert (HS : forall j, j < 2 * 5 -> (2 | nth j [1; 0; 1; 0; 0; 0; 0; 0; 1; 1] 0 - lcomb [1; 0; 1; 0] (zd (normal_form c)) j)%Z).
  { rewrite EN. intros j Hj. do 10 (destruct j as [|j]; [first [exists 0%Z; reflexivity | exists (-1)%Z; reflexivity]|]). lia. }
  assert (G : forall b : Z, b = 0%Z \/ b = 1%Z -> exists E, encode_krauss_operators eigh c = Ok (MA (2 ^ 5) (2 ^ 1) E) /\ inner 5 (encode h im 5 c [b]) (encode h im 5 c [b]) = s1 /\ off_columns 5 (2 ^ 1) E (encode h im 5 c [b])).
  { intros b Hb. assert (Bb : binary [b]) by (constructor; [exact Hb|constructor]).
    destruct (C105_sign_partial CC h im _ 5 1 c [1; 0; 1; 0; 0; 0; 0; 0; 1; 1]%Z [1; 0; 1; 0]%Z [b] HC HI HV HE eq_refl Bb eq_refl ltac:(repeat (constructor; [auto|]); constructor) eq_refl HS) as (A & EA & M).
    rewrite EN in M.
    destruct (opposite_off eigh EO h im HC _ 5 1 c HI HV HE _ _ A ltac:(rewrite ES; right; right; left; reflexivity) EA M) as (E & EE & O).
    exists E. split; [exact EE|]. split; [|exact O]. exact (proj1 (proj2 (C15_encoding CC h im _ 5 1 c [b] HC HI HV HE eq_refl Bb))). }
  destruct (G 0%Z (or_introl eq_refl)) as (E & EE & _). exists E. split; [exact EE|]. intros b Hb. destruct (G b Hb) as (E' & EE' & N & O).
  rewrite EE in EE'. injection EE' as <-. split; [exact N|]. split; [exact O|]. apply off_not_in; assumption.
Qed.
(** The Steane code: the two have only the zero vector in common. *)
Theorem C111_steane_refuted : exists c, init (Rows (rows_of steane)) 7 1 None = Ok c /\ valid_generators 7 1 (zd (stab c)) /\ even_ys 7 (zd (stab c)) /\
  forall eigh (h im : CC), eigh_ok eigh -> qubit_constants h im -> exists E, encode_krauss_operators eigh c = Ok (MA (2 ^ 7) (2 ^ 1) E) /\
  forall psi : @state CC, encoded_by 7 1 (encode h im 7 c) psi -> in_columns 7 (2 ^ 1) E psi -> eqs 7 psi (fun _ => s0).
Proof.
  destruct (init (Rows (rows_of steane)) 7 1 None) as [c|e] eqn:HI; [|vm_compute in HI; discriminate]. exists c. split; [reflexivity|].
  assert (Ec : Ok c = init (Rows (rows_of steane)) 7 1 None) by (symmetry; exact HI).
  assert (HV : valid_generators 7 1 (zd (stab c))) by (vm_compute in Ec; injection Ec as ->; valid).
  assert (HE : even_ys 7 (zd (stab c))) by (vm_compute in Ec; injection Ec as ->; repeat (constructor; [reflexivity|]); constructor).
  assert (X : exists r s, In r (zd (stab c)) /\ In s (zd (normal_form c)) /\ inner_prod r s = 1%Z).
  { exists (nth 0 (zd (stab c)) []), (nth 5 (zd (normal_form c)) []). split; [apply nth_In; destruct HV as (P & _); exact P|]. split; [apply nth_In|]; vm_compute in Ec; injection Ec as ->; [cbn; lia|reflexivity]. }
  split; [exact HV|]. split; [exact HE|]. destruct X as (r & s & Hr & Hs & Hip). intros eigh h im EO HC. exact (C111_disjoint_partial eigh h im _ 7 1 c r s EO HC HI HV HE Hr Hs Hip).
Qed.
Print Assumptions C111_exact_partial.
Print Assumptions C111_exactly_partial.
Print Assumptions C111_guarded_partial.
Print Assumptions C111_disjoint_partial.
Print Assumptions C111_refuted.
Print Assumptions C111_steane_refuted.
(** the condition of C111_guarded_partial holds of a code with X and Z generators *)
Example C111_case : exists c, init (Strings [str "XXXX"; str "ZZZZ"]) 4 2 None = Ok c /\ valid_generators 4 2 (zd (stab c)) /\ even_ys 4 (zd (stab c)) /\
  (forall r, In r (zd (stab c)) -> in_rowspace 4 (zd (normal_form c)) r) /\
  (forall r s, In r (zd (stab c)) -> In s (zd (stab c)) -> Z.even (zx_dot 4 r s) = true).
Proof.
  destruct (init (Strings [str "XXXX"; str "ZZZZ"]) 4 2 None) as [c|e] eqn:HI; [|vm_compute in HI; discriminate]. exists c. split; [reflexivity|].
  assert (Ec : Ok c = init (Strings [str "XXXX"; str "ZZZZ"]) 4 2 None) by (symmetry; exact HI). clear HI.
  assert (ES : zd (stab c) = [[1; 1; 1; 1; 0; 0; 0; 0]; [0; 0; 0; 0; 1; 1; 1; 1]]%Z) by (vm_compute in Ec; injection Ec as ->; reflexivity).
  assert (EN : zd (normal_form c) = [[1; 1; 1; 1; 0; 0; 0; 0]; [0; 0; 0; 0; 1; 1; 1; 1]]%Z) by (vm_compute in Ec; injection Ec as ->; reflexivity).
  split; [rewrite ES; valid|]. split; [rewrite ES; repeat (constructor; [reflexivity|]); constructor|]. rewrite ES, EN. split.
  - intros r [<-|[<-|[]]]; [exists [1; 0]%Z|exists [0; 1]%Z]; (split; [reflexivity|]; intros j Hj; do 8 (destruct j as [|j]; [exists 0%Z; reflexivity|]); lia).
  - intros r s [<-|[<-|[]]] [<-|[<-|[]]]; reflexivity.
Qed.
