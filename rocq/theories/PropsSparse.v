(** Properties of the sparse representations of codes.py: C117.
    Specification: CsrSpec.v.  Model: CsrModel.v, PauliModel.v. *)
From Verif Require Import Py ZMat CodesModel CodesSpec CodesProofs PropsCodes Scalar PauliModel PauliSpec PauliProofs EncoderProofs EighExists PropsPauli KrausSpec CsrModel CsrSpec CsrProofs.
From Coq Require Import Reals Lra.
Open Scope nat_scope.

(** ** C117: sparse=True changes the storage, not the matrices *)
(** Every array of integers, well-formed or not. *)
Theorem C117_paulis (K : StarRing) M : same_outcome (Forall2 represents) (binary_rep_to_pauli_csr (K := K) M) (binary_rep_to_pauli_mat M).
Proof. exact (rows_sparse M). Qed.
(** For rows of 2n bits the call returns, one 2^n x 2^n matrix for each row, with 2^n stored entries each. *)
Theorem C117_shapes (K : StarRing) n M : 1 <= n -> zc M = 2 * n -> Forall (fun r => length r = 2 * n) (zd M) -> Forall binary (zd M) ->
  exists Ss, binary_rep_to_pauli_csr (K := K) M = Ok Ss /\ length Ss = length (zd M) /\
    Forall (fun S => sr S = 2 ^ n /\ sc S = 2 ^ n /\ list_sum (map (fun i => length (srow S i)) (seq 0 (2 ^ n))) = 2 ^ n) Ss.
Proof.
  intros Hn ZC L B. pose proof (rows_sparse (K := K) M) as H. unfold binary_rep_to_pauli_mat in H. rewrite ZC, CodesProofs.div2_double in H.
  destruct (PauliProofs2.rowmats (K := K) n (zd M) Hn L B) as (Ms & EM & FM). rewrite EM in H. destruct (binary_rep_to_pauli_csr M) as [Ss|e]; [|contradiction H]. cbn [same_outcome] in H.
  exists Ss. split; [reflexivity|]. clear EM ZC L B. revert Ss H. generalize dependent (zd M). induction Ms as [|A Ms IH]; intros rows FM Ss H; inversion H as [|S ? Ss' ? H1 H2]; inversion FM as [|r ? rows' ? G1 G2]; subst; [split; [reflexivity|constructor]|].
  destruct (IH rows' G2 Ss' H2) as [I1 I2]. split; [cbn; congruence|]. constructor; [|exact I2].
  destruct H1 as ((X1 & X2 & _) & OE). destruct G1 as (Y1 & Y2 & _). change (sr S = mr A) in X1. change (sc S = mc A) in X2. rewrite Y1 in X1. rewrite Y2 in X2. split; [exact X1|]. split; [exact X2|].
  assert (G : forall m, m <= 2 ^ n -> list_sum (map (fun i => length (srow S i)) (seq 0 m)) = m).
  { induction m as [|m IHm]; intros Hm; [reflexivity|]. rewrite seq_S, map_app, list_sum_app, IHm by lia. cbn [map list_sum fold_right Nat.add]. destruct (OE m ltac:(lia)) as (j & v & E & _). rewrite E. cbn. lia. }
  apply G. lia.
Qed.
(** The sparse encoder has the entries of the dense one and fails when that fails. *)
Theorem C117_encoder eigh c : same_outcome (fun S E => same_mat (todense S) E) (encode_krauss_operators_sparse eigh c) (encode_krauss_operators eigh c).
Proof. unfold encode_krauss_operators_sparse. destruct (encode_krauss_operators eigh c) as [E|e]; cbn [bind same_outcome]; [apply csr_dense|reflexivity]. Qed.
Print Assumptions C117_paulis.
Print Assumptions C117_shapes.
Print Assumptions C117_encoder.
(** the five-qubit code returns four matrices, an entry 2 raises ValueError, an empty row IndexError *)
Example C117_case : exists c Ss E eigh, init (Strings five_qubit) 5 1 None = Ok c /\ binary_rep_to_pauli_csr (K := CC) (stab c) = Ok Ss /\ length Ss = 4 /\
  eigh_ok eigh /\ encode_krauss_operators_sparse eigh c = Ok E.
Proof.
  destruct C13_case_contract as (eigh & HE). destruct C13_case_code as (c & I & V & Y). pose proof V as (V0 & V1 & V2 & V3 & V4 & V5).
  destruct (C13_encoder_isometry eigh _ 5 1 None c HE I) as (_ & m & E & _ & EE & _); [lia|exact V3|apply Forall_forall, forallb_forall, Y|].
  assert (ZC : zc (stab c) = 2 * 5) by (destruct (init_inv _ _ _ _ _ I) as (M & _ & _ & ZC & -> & _); exact ZC).
  destruct (C117_shapes CC 5 (stab c)) as (Ss & ES & LS & _); [lia|exact ZC|exact V2|exact V3|].
  exists c, Ss, (csr_matrix (MA (2 ^ 5) m E)), eigh. split; [exact I|]. split; [exact ES|]. split; [rewrite LS, V1; reflexivity|]. split; [exact HE|]. unfold encode_krauss_operators_sparse. rewrite EE. reflexivity.
Qed.
Example C117_case_errors : binary_rep_to_pauli_csr (K := CC) (ZM 1 4 [[0; 2; 0; 1]%Z]) = Err ValueError /\ binary_rep_to_pauli_mat (K := CC) (ZM 1 4 [[0; 2; 0; 1]%Z]) = Err ValueError /\
  binary_rep_to_pauli_csr (K := CC) (ZM 1 0 [[]]) = Err IndexError.
Proof. repeat split; reflexivity. Qed.
