(** C134: what the sparse branch of kraus_operators_correcting_errors would compute if the outcome of
    [np.all(abs(s) < 1e-5)] were the entrywise comparison: the operators of the dense call.  So that test is the only
    thing wrong with the branch.  Specification: CsrSpec.v.  Model: SparseBranchModel.v, PauliModel.v. *)
From Verif Require Import Py ZMat CodesModel CodesSpec CodesProofs Scalar PauliModel KrausSpec KrausProofs CsrModel CsrSpec CsrProofs PropsCodes PropsPauli PropsSparse SparseBranchModel PropsSparseBranch.
From Coq Require Import Reals.
Open Scope nat_scope.

(** every stored entry is in one of the columns *)
Definition in_columns {K : StarRing} (A : csr K) : Prop := forall i, i < sr A -> Forall (fun p => fst p < sc A) (srow A i).
(** the sparse matrix S has the shape and the entries of A *)
Definition denotes {K : StarRing} (S : csr K) (A : marr K) : Prop := same_mat (todense S) A /\ in_columns S.
(** abs(s) < 1e-5 in every entry *)
Definition entrywise (s : csr CC) : res bool :=
  Ok (forallb (fun i => forallb (fun j => below (Cmod (me (todense s) i j)) tol5) (seq 0 (sc s))) (seq 0 (sr s))).

Section Ops.
Context {K : StarRing}.
Add Ring KringSB2 : (s_rt K).
Open Scope K_scope.
Definition total (j : nat) (l : list (nat * K)) : K := fold_right sadd 0 (map (fun p => if Nat.eqb (fst p) j then snd p else 0) l).
Lemma total_app j l m : total j (l ++ m) = total j l + total j m.
Proof. unfold total. induction l as [|p l IH]; cbn [List.app map fold_right]; [ring|]. rewrite IH. ring. Qed.
Lemma total_scale j a l : total j (map (fun q => (fst q, a * snd q)) l) = a * total j l.
Proof. unfold total. induction l as [|p l IH]; cbn [map fold_right fst snd]; [ring|]. rewrite IH. destruct (Nat.eqb (fst p) j); ring. Qed.
Lemma total_bind j d (B : nat -> list (nat * K)) l : Forall (fun p => (fst p < d)%nat) l ->
  total j (flat_map (fun p => map (fun q => (fst q, snd p * snd q)) (B (fst p))) l) = bsum d (fun t => total t l * total j (B t)).
Proof.
  induction l as [|p l IH]; intros F.
  - cbn. symmetry. apply bsum_zero. intros. unfold total at 1. cbn. ring.
  - inversion F as [|? ? P F']; subst. cbn [flat_map]. rewrite total_app, total_scale, (IH F').
    rewrite (bsum_ext d (fun t => total t (p :: l) * total j (B t)) (fun t => (if Nat.eqb t (fst p) then snd p * total j (B t) else 0) + total t l * total j (B t))).
    + rewrite bsum_add, (bsum_delta d (fst p) (fun t => snd p * total j (B t)) P). reflexivity.
    + intros t _. change (total t (p :: l)) with ((if Nat.eqb (fst p) t then snd p else 0) + total t l). rewrite (Nat.eqb_sym t). destruct (Nat.eqb (fst p) t); ring.
Qed.

(** p.dot(q) is the matrix product, and raises when np.dot does *)
Lemma dot_denotes S T (A B : marr K) : denotes S A -> denotes T B -> same_outcome denotes (csr_dot S T) (np_dot A B).
Proof.
  intros ((S1 & S2 & S3) & SC) ((T1 & T2 & T3) & TC). cbn [todense mr mc] in S1, S2, S3, T1, T2, T3.
  unfold csr_dot, np_dot. rewrite <- S2, <- T1. destruct (Nat.eqb_spec (sc S) (sr T)) as [Q|]; [|reflexivity]. cbn [same_outcome]. split.
  - split; [exact S1|]. split; [exact T2|]. cbn [todense mr mc me sr sc srow]. intros i j Hi Hj.
    transitivity (bsum (sc S) (fun t => total t (srow S i) * total j (srow T t))); [apply (total_bind j (sc S) (srow T) (srow S i) (SC i Hi))|].
    unfold mm. apply bsum_ext. intros t Ht. rewrite <- (S3 i t Hi Ht), <- (T3 t j ltac:(lia) Hj). reflexivity.
  - intros i Hi. cbn [sr sc srow] in *. apply Forall_forall. intros q Hq. apply in_flat_map in Hq. destruct Hq as (p & Hp & Hq).
    apply in_map_iff in Hq. destruct Hq as (r & <- & Hr). cbn [fst]. pose proof (proj1 (Forall_forall _ _) (SC i Hi) p Hp) as P. cbv beta in P.
    exact (proj1 (Forall_forall _ _) (TC (fst p) ltac:(lia)) r Hr).
Qed.
(** p + q is the sum of the entries *)
Lemma add_denotes S T (A B : marr K) : denotes S A -> denotes T B -> mr A = mr B -> mc A = mc B ->
  exists U, csr_add S T = Ok U /\ denotes U (MA (mr A) (mc A) (fun i j => me A i j + me B i j)).
Proof.
  intros ((S1 & S2 & S3) & SC) ((T1 & T2 & T3) & TC) R C. cbn [todense mr mc] in S1, S2, S3, T1, T2, T3.
  unfold csr_add. replace (sr T) with (sr S) by congruence. replace (sc T) with (sc S) by congruence. rewrite !Nat.eqb_refl. cbn [andb].
  eexists. split; [reflexivity|]. split.
  - split; [exact S1|]. split; [exact S2|]. cbn [todense mr mc me sr sc srow]. intros i j Hi Hj.
    rewrite <- (S3 i j Hi Hj), <- (T3 i j ltac:(congruence) ltac:(congruence)). apply total_app.
  - intros i Hi. cbn [sr sc srow] in *. apply Forall_app. split; [apply SC, Hi|]. replace (sc S) with (sc T) by congruence. apply TC. congruence.
Qed.
Lemma represents_denotes S (A : marr K) : represents S A -> denotes S A.
Proof. intros (H & O). split; [exact H|]. intros i Hi. destruct (O i Hi) as (j & v & -> & J & _). constructor; [exact J|constructor]. Qed.
End Ops.

Lemma forallb_eq {A} (f g : A -> bool) l : (forall x, In x l -> f x = g x) -> forallb f l = forallb g l.
Proof. induction l as [|x l IH]; intros H; [reflexivity|]. cbn. rewrite (H x (or_introl eq_refl)), IH; [reflexivity|]. intros; apply H; right; assumption. Qed.
Lemma entrywise_dense s (A B : marr CC) : denotes s (MA (mr A) (mc A) (fun i j => sadd (me A i j) (me B i j))) -> entrywise s = Ok (all_sum_small A B).
Proof.
  intros ((R & C & E) & _). cbn [todense mr mc me] in R, C, E. unfold entrywise, all_sum_small. f_equal. rewrite R, C.
  apply forallb_eq. intros i Hi. apply forallb_eq. intros j Hj. apply in_seq in Hi, Hj. rewrite <- E by lia. reflexivity.
Qed.
Lemma correct_denotes d : forall Ss Ms S A, Forall2 denotes Ss Ms -> Forall (is_square d) Ms -> denotes S A -> is_square d A ->
  same_outcome denotes (correct_error_with entrywise Ss S) (correct_error Ms A).
Proof.
  intros Ss Ms S A F Q D QA. revert Q. induction F as [|P M Ss Ms DP F IH]; intros Q; [exact D|].
  inversion Q as [|? ? QM Q']; subst. destruct QA as (A1 & A2), QM as (M1 & M2). cbn [correct_error_with correct_error].
  pose proof (dot_denotes _ _ _ _ DP D) as H1. pose proof (dot_denotes _ _ _ _ D DP) as H2.
  assert (E1 : np_dot M A = Ok (MA d d (mm d (me M) (me A)))) by (unfold np_dot; rewrite M1, M2, A1, A2, Nat.eqb_refl; reflexivity).
  assert (E2 : np_dot A M = Ok (MA d d (mm d (me A) (me M)))) by (unfold np_dot; rewrite M1, M2, A1, A2, Nat.eqb_refl; reflexivity).
  rewrite E1 in *. rewrite E2 in *. destruct (csr_dot P S) as [p|e]; [|contradiction H1]. destruct (csr_dot S P) as [q|e]; [|contradiction H2].
  cbn [same_outcome] in H1, H2. cbn [bind mr mc]. rewrite Nat.eqb_refl. cbn [andb].
  destruct (add_denotes _ _ _ _ H2 H1 eq_refl eq_refl) as (s & ES & DS). rewrite ES. cbn [bind]. rewrite (entrywise_dense _ _ _ DS). cbn [bind].
  destruct (all_sum_small _ _); [exact H1|exact (IH Q')].
Qed.

(** With the entrywise test the sparse call returns, for sparse matrices of the size of the code, the operators of the dense call. *)
Theorem C134_test_partial g n k ops c Es errors : init g n k ops = Ok c -> 1 <= n -> Forall binary (zd (stab c)) ->
  Forall2 denotes Es errors -> Forall (is_square (2 ^ n)) errors ->
  exists Ks Ms, correcting_errors_with entrywise c Es = Ok Ks /\ kraus_operators_correcting_errors c errors = Ok Ms /\ Forall2 denotes Ks Ms.
Proof.
  intros I Hn B F Q. destruct (init_inv _ _ _ _ _ I) as (M & [WL WR] & RL & ZC & EM & _). subst M.
  assert (RW : Forall (fun r => length r = (2 * n)%nat) (zd (stab c))) by (rewrite <- ZC; exact WR).
  destruct (C117_shapes CC n (stab c) Hn ZC RW B) as (Ss & ES & _ & SH). pose proof (C117_paulis CC (stab c)) as H. rewrite ES in H.
  unfold correcting_errors_with, kraus_operators_correcting_errors. rewrite ES.
  destruct (binary_rep_to_pauli_mat (stab c)) as [Ms|]; [|contradiction]. cbn [same_outcome bind] in *.
  assert (D : Forall2 denotes Ss Ms) by (clear - H; induction H; constructor; [apply represents_denotes; assumption|assumption]).
  assert (SQ : Forall (is_square (2 ^ n)) Ms).
  { clear - D SH. induction D as [|S A Ss Ms ((R & C & _) & _) D IH]; [constructor|]. inversion SH as [|? ? (S1 & S2 & _) SH']; subst. cbn [todense mr mc] in R, C. constructor; [split; congruence|exact (IH SH')]. }
  revert Q. induction F as [|S A Es errors DS F IH]; intros Q; [exists [], []; repeat split; constructor|].
  inversion Q as [|? ? QA Q']; subst. destruct (IH Q') as (Ks & Ns & E1 & E2 & FK). pose proof (correct_denotes _ _ _ _ _ D SQ DS QA) as X.
  cbn [mapM].
  assert (TOT : exists N, correct_error Ms A = Ok N).
  { clear - SQ QA. destruct QA as (A1 & A2). induction Ms as [|M Ms IHM]; [eexists; reflexivity|]. inversion SQ as [|? ? (M1 & M2) SQ']; subst. cbn [correct_error].
    unfold np_dot. rewrite M1, M2, A1, A2, Nat.eqb_refl. cbn [bind mr mc]. rewrite Nat.eqb_refl. cbn [andb]. destruct (all_sum_small _ _); [eexists; reflexivity|exact (IHM SQ')]. }
  destruct TOT as (N & EN). rewrite EN in *. destruct (correct_error_with entrywise Ss S) as [K0|]; [|contradiction X]. cbn [same_outcome] in X.
  rewrite E1, E2. cbn [bind]. exists (K0 :: Ks), (N :: Ns). repeat split. constructor; assumption.
Qed.
Print Assumptions C134_test_partial.

(** The five-qubit code and the error X on the first qubit meet the hypotheses. *)
Example C134_case_test : exists c (E : marr CC) Es, init (Strings five_qubit) 5 1 None = Ok c /\ Forall binary (zd (stab c)) /\
  binary_rep_to_pauli_csr (ZM 1 10 [[1; 0; 0; 0; 0; 0; 0; 0; 0; 0]%Z]) = Ok [Es] /\ Forall2 denotes [Es] [E] /\ Forall (is_square (2 ^ 5)) [E].
Proof.
  destruct C13_case_code as (c & I & (_ & _ & _ & V3 & _) & _).
  assert (BX : Forall binary [[1; 0; 0; 0; 0; 0; 0; 0; 0; 0]%Z]) by (repeat constructor; auto).
  destruct (C117_shapes CC 5 (ZM 1 10 [[1; 0; 0; 0; 0; 0; 0; 0; 0; 0]%Z]) ltac:(lia) eq_refl ltac:(repeat constructor) BX) as (Ss & ES & LS & SH).
  pose proof (C117_paulis CC (ZM 1 10 [[1; 0; 0; 0; 0; 0; 0; 0; 0; 0]%Z])) as H. rewrite ES in H.
  destruct (binary_rep_to_pauli_mat (ZM 1 10 [[1; 0; 0; 0; 0; 0; 0; 0; 0; 0]%Z])) as [Ms|] eqn:EM; [|contradiction]. cbn [same_outcome] in H.
  destruct Ss as [|Es [|? ?]]; try discriminate LS. inversion H as [|? E ? Ms' R H']; subst. inversion H'; subst.
  inversion SH as [|? ? (S1 & S2 & _) _]; subst. exists c, E, Es. split; [exact I|]. split; [exact V3|]. split; [exact ES|].
  pose proof (represents_denotes _ _ R) as D. split; [repeat constructor; apply D|]. destruct R as ((R1 & R2 & _) & _). cbn [todense mr mc] in R1, R2. repeat constructor; congruence.
Qed.
