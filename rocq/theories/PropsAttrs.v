(** Properties of the attributes of StabilizerCode: C136.  Specification: CodesSpec.v.  Model: AttrModel.v, CodesModel.v. *)
From Verif Require Import Py ZMat CodesModel RankSpec CodesSpec CodesProofs CodesProofs2 PropsCodes AttrModel.
Open Scope nat_scope.

Lemma init_body_fields M n k ops c : init_body M n k ops = Ok c ->
  cn c = n /\ ck c = k /\ stab c = M /\ mapM binary_rep_to_pauli_str (zd M) = Ok (pauli_stab c) /\
  (forall lx lz, ops = Some (lx, lz) -> logical_x c = lx /\ logical_z c = lz).
Proof.
  intros H. unfold init_body in H. apply bind_ok in H; destruct H as (u & _ & H). apply bind_ok in H; destruct H as (ps & EP & H). apply bind_ok in H; destruct H as ([F rk] & _ & H).
  apply bind_ok in H; destruct H as ([lx lz] & EL & H). injection H as <-. cbn. split; [reflexivity|]. split; [reflexivity|]. split; [reflexivity|]. split; [exact EP|].
  intros a b ->. apply bind_ok in EL; destruct EL as (? & _ & EL). apply bind_ok in EL; destruct EL as (? & _ & EL). injection EL as -> ->. split; reflexivity.
Qed.

(** ** C136: the attributes of a code are the arguments it was made from *)
(** A code made from an array of 2n columns, ... *)
Theorem C136_rows l n k ops c : init (Rows l) n k ops = Ok c -> Forall binary l ->
  cn c = n /\ ck c = k /\ zd (stab c) = l /\ numb_stab c = length l /\ length l = n - k /\ dim_code_space c = Z.of_nat k /\
  length (pauli_stab c) = length l /\ pauli_str_to_binary_representation (pauli_stab c) = Ok (stab c).
Proof.
  intros I B. destruct (init_inv _ _ _ _ _ I) as (M & [WL WR] & RL & ZC & EM & Hk & POS & HB & E1 & E2). subst M.
  destruct (init_body_fields _ _ _ _ _ HB) as (F1 & F2 & F3 & F4 & _). rewrite E1 in WL, WR, F4.
  assert (LN : l <> []) by (intros ->; cbn in WL; lia). rewrite ZC in WR.
  destruct (C02_rows_roundtrip l n LN WR B) as (ss & ES & LS & EB). rewrite ES in F4. injection F4 as F4. subst ss.
  split; [exact F1|]. split; [exact F2|]. split; [exact E1|]. unfold dim_code_space, numb_stab. rewrite F1, <- WL, E2. split; [reflexivity|]. split; [reflexivity|]. split; [lia|].
  split; [lia|]. rewrite EB, WL. destruct (stab c) as [a b z]. cbn in *. congruence.
Qed.
(** ... from a list of strings of length n, ... *)
Theorem C136_strings l n k ops c : init (Strings l) n k ops = Ok c -> Forall (fun p => length p = n) l ->
  cn c = n /\ ck c = k /\ pauli_str_to_binary_representation l = Ok (stab c) /\ numb_stab c = length l /\ dim_code_space c = (Z.of_nat n - Z.of_nat (length l))%Z /\ pauli_stab c = l.
Proof.
  intros I L. destruct (init_inv _ _ _ _ _ I) as (M & [WL WR] & RL & ZC & EM & Hk & POS & HB & E1 & E2). subst M.
  destruct (init_body_fields _ _ _ _ _ HB) as (F1 & F2 & F3 & F4 & _).
  assert (LN : l <> []) by (intros ->; discriminate E1).
  assert (R : Forall (fun p => length p = n /\ Forall pauli_letter p) l).
  { destruct l as [|p0 l]; [contradiction|]. pose proof (Forall_inv L) as L0. cbn in L0. pose proof (proj1 (C02_strings_accepted_iff p0 l) (ex_intro _ _ E1)) as R. rewrite L0 in R.
    apply Forall_forall. intros p Hp. rewrite Forall_forall in L, R. specialize (L p Hp). destruct (R p Hp) as [_ R2]. split; [exact L|]. rewrite <- L, firstn_all in R2. exact R2. }
  destruct (C01_string_roundtrip l n LN R) as (M & EM & ZR & _ & _ & EB). rewrite E1 in EM. injection EM as EM. subst M. rewrite EB in F4. injection F4 as F4.
  unfold dim_code_space, numb_stab. rewrite F1, ZR. repeat split; congruence.
Qed.
(** ... the logical operators of the caller are kept, and a for loop over the code sees the rows of its normal form:
    as many as there are generators, each of 2n bits, generating the same group up to the order of the qubits. *)
Theorem C136_logical g n k lx lz c : init g n k (Some (lx, lz)) = Ok c -> logical_x c = lx /\ logical_z c = lz.
Proof. intros I. destruct (init_inv _ _ _ _ _ I) as (M & _ & _ & _ & _ & _ & _ & HB & _). destruct (init_body_fields _ _ _ _ _ HB) as (_ & _ & _ & _ & F). exact (F lx lz eq_refl). Qed.
Theorem C136_iteration g n k ops c : init g n k ops = Ok c -> Forall binary (zd (stab c)) ->
  length (code_iter c) = numb_stab c /\ Forall (fun r => length r = 2 * n /\ binary r) (code_iter c) /\ all_commute n (code_iter c) /\
  exists p, qubit_perm n p /\ forall v, in_rowspace n (map (relabel n p) (zd (stab c))) v <-> in_rowspace n (code_iter c) v.
Proof.
  intros I B. destruct (init_inv _ _ _ _ _ I) as (M & [WL _] & _ & _ & EM & _). subst M. destruct (C07_normal_form_same_code g n k ops c I B) as (A1 & A2 & A3 & A4 & A5). unfold code_iter, numb_stab.
  split; [congruence|]. split; [apply Forall_forall; intros r Hr; rewrite Forall_forall in A2, A3; split; auto|]. split; assumption.
Qed.
(** The dimension of the code space is k when the code finds its own logical operators.  With logical operators of the caller
    the number of strings is not checked: three strings are accepted for a [[3, 1]] code, whose dim_code_space is 0. *)
Theorem C136_dimension g n k c : init g n k None = Ok c -> Forall (fun p => length p = n) (match g with Strings l => l | Rows _ => [] end) -> dim_code_space c = Z.of_nat k.
Proof.
  intros I L. destruct (init_inv _ _ _ _ _ I) as (M & [WL WR] & RL & ZC & EM & Hk & POS & HB & E). subst M.
  destruct (init_body_fields _ _ _ _ _ HB) as (F1 & _). unfold dim_code_space, numb_stab. rewrite F1.
  destruct g as [l|l]; [|destruct E as [E1 E2]; rewrite <- WL, E1, E2; lia].
  destruct (C136_strings l n k None c I L) as (_ & _ & _ & F4 & _). pose proof (C27_count_enforced_partial l n k c I) as C. unfold numb_stab in F4. lia.
Qed.
Theorem C136_dimension_given : exists ops c, init (Strings [str "ZZI"; str "IZZ"; str "ZIZ"]) 3 1 (Some ops) = Ok c /\ ck c = 1 /\ dim_code_space c = 0%Z.
Proof.
  exists (ZM 1 6 [[1; 1; 1; 0; 0; 0]%Z], ZM 1 6 [[0; 0; 0; 1; 0; 0]%Z]). eexists. split; [run|]. split; reflexivity.
Qed.
Print Assumptions C136_rows.
Print Assumptions C136_strings.
Print Assumptions C136_logical.
Print Assumptions C136_iteration.
Print Assumptions C136_dimension.
Print Assumptions C136_dimension_given.
Example C136_case : exists c d e, init (Rows (rows_of steane)) 7 1 None = Ok c /\ Forall binary (rows_of steane) /\ init (Strings steane) 7 1 None = Ok d /\ Forall (fun p => length p = 7) steane /\
  init (Strings rep3) 3 1 (Some (ZM 1 6 [[1; 1; 1; 0; 0; 0]%Z], ZM 1 6 [[0; 0; 0; 1; 0; 0]%Z])) = Ok e.
Proof.
  eexists. eexists. eexists. split; [run|]. split; [assert (V : valid_generators 7 1 (rows_of steane)) by valid; apply V|]. split; [run|]. split; [repeat constructor|run].
Qed.
