(** Proofs about sparse Pauli matrices and the sparse encoder (C117). *)
From Verif Require Import Py ZMat CodesModel CodesSpec Scalar PauliModel EncoderProofs KrausSpec KrausProofs CsrModel CsrSpec.
Open Scope nat_scope.

Section Csr.
Context {K : StarRing}.
Add Ring KringCsr : (s_rt K).
Open Scope K_scope.

Lemma entry_one (A : csr K) i j v t : srow A i = [(j, v)] -> me (todense A) i t = if Nat.eqb j t then v else 0.
Proof. intros H. cbn [todense me]. rewrite H. cbn. destruct (Nat.eqb j t); ring. Qed.
Lemma pauli_sparse x z : same_outcome represents (index_to_qubit_pauli_sparse (K := K) x z) (index_to_qubit_pauli x z).
Proof.
  assert (G : forall (a b : nat * K) (B : marr K), (fst a < 2)%nat -> (fst b < 2)%nat -> (snd a = 1 \/ snd a = - (1)) -> (snd b = 1 \/ snd b = - (1)) -> mr B = 2%nat -> mc B = 2%nat ->
    (forall j, (j < 2)%nat -> me B O j = if Nat.eqb (fst a) j then snd a else 0) -> (forall j, (j < 2)%nat -> me B 1%nat j = if Nat.eqb (fst b) j then snd b else 0) -> represents (two_rows a b) B).
  { intros [ja va] [jb vb] B Ha Hb Va Vb R C H0 H1. cbn [fst snd] in *. split.
    - split; [symmetry; exact R|]. split; [symmetry; exact C|]. intros i j Hi Hj. cbn [todense mr mc two_rows sr sc] in Hi, Hj.
      destruct i as [|[|i]]; [| |lia]; [rewrite (entry_one (two_rows (ja, va) (jb, vb)) O ja va j eq_refl), H0 by exact Hj|rewrite (entry_one (two_rows (ja, va) (jb, vb)) 1%nat jb vb j eq_refl), H1 by exact Hj]; reflexivity.
    - intros i Hi. cbn in Hi. destruct i as [|[|i]]; [| |lia]; cbn; eauto 6. }
  unfold index_to_qubit_pauli_sparse, index_to_qubit_pauli. destruct (_ && _)%bool; [|destruct (_ && _)%bool; [|destruct (_ && _)%bool; [|destruct (_ && _)%bool]]]; cbn [same_outcome]; try reflexivity;
    apply G; cbn; auto; intros [|[|j]] Hj; cbn; try reflexivity; lia.
Qed.
Lemma kron_represents S T (A B : marr K) : represents S A -> represents T B -> represents (csr_kron S T) (np_kron A B).
Proof.
  intros ((S1 & S2 & S3) & SO) ((T1 & T2 & T3) & TO). change (sr S = mr A) in S1. change (sc S = mc A) in S2. change (sr T = mr B) in T1. change (sc T = mc B) in T2.
  assert (G : forall i, (i < sr S * sr T)%nat -> exists ja va jb vb, srow S (i / sr T)%nat = [(ja, va)] /\ srow T (i mod sr T)%nat = [(jb, vb)] /\ (ja < sc S)%nat /\ (jb < sc T)%nat /\
     (va = 1 \/ va = - (1)) /\ (vb = 1 \/ vb = - (1)) /\ (i / sr T < sr S)%nat /\ (i mod sr T < sr T)%nat).
  { intros i Hi. assert (sr T <> 0)%nat by (intros E; rewrite E in Hi; lia). assert (X : (i / sr T < sr S)%nat) by (apply Nat.div_lt_upper_bound; lia). assert (Y : (i mod sr T < sr T)%nat) by (apply Nat.mod_upper_bound; assumption).
    destruct (SO _ X) as (ja & va & E1 & E2 & E3). destruct (TO _ Y) as (jb & vb & F1 & F2 & F3). exists ja, va, jb, vb. auto 10. }
  split.
  - unfold np_kron. split; [cbn; congruence|]. split; [cbn; congruence|]. cbn [todense csr_kron mr mc me sr sc]. intros i j Hi Hj.
    destruct (G i Hi) as (ja & va & jb & vb & E & F & Ja & Jb & _ & _ & X & Y).
    assert (sc T <> 0)%nat by lia. assert (X' : (j / sc T < sc S)%nat) by (apply Nat.div_lt_upper_bound; lia). assert (Y' : (j mod sc T < sc T)%nat) by (apply Nat.mod_upper_bound; assumption).
    rewrite <- T1, <- T2. rewrite <- (S3 (i / sr T)%nat (j / sc T)%nat), <- (T3 (i mod sr T)%nat (j mod sc T)%nat) by assumption. rewrite (entry_one S _ ja va _ E), (entry_one T _ jb vb _ F).
    unfold csr_kron; cbn [srow]. rewrite E, F. cbn [flat_map map List.app fst snd fold_right].
    assert (D : (ja * sc T + jb =? j)%nat = ((ja =? j / sc T) && (jb =? j mod sc T))%nat%bool).
    { pose proof (Nat.div_mod j (sc T) ltac:(assumption)) as DM. destruct (Nat.eqb_spec ja (j / sc T)) as [->|N1]; cbn [andb].
      - destruct (Nat.eqb_spec jb (j mod sc T)) as [->|N2]; [apply Nat.eqb_eq; lia|apply Nat.eqb_neq; lia].
      - apply Nat.eqb_neq. intros Q. apply N1. symmetry. rewrite <- Q. rewrite Nat.div_add_l, (Nat.div_small jb) by assumption. lia. }
    rewrite D. destruct (ja =? j / sc T)%nat, (jb =? j mod sc T)%nat; cbn [andb]; ring.
  - intros i Hi. cbn [csr_kron sr] in Hi. destruct (G i Hi) as (ja & va & jb & vb & E & F & Ja & Jb & Va & Vb & _).
    exists (ja * sc T + jb)%nat, (va * vb). cbn [csr_kron srow sc]. rewrite E, F. split; [reflexivity|]. split; [nia|].
    destruct Va as [->| ->], Vb as [->| ->]; [left|right|right|left]; ring.
Qed.
Lemma row_sparse n row : same_outcome represents (pauli_row_csr (K := K) n row) (pauli_row_mat n row).
Proof.
  unfold pauli_row_csr, pauli_row_mat. destruct (nth_error row 0) as [x|]; cbn [bind]; [|reflexivity]. destruct (nth_error row n) as [z|]; cbn [bind]; [|reflexivity].
  pose proof (pauli_sparse x z) as H. destruct (index_to_qubit_pauli_sparse x z) as [S|e], (index_to_qubit_pauli x z) as [A|f]; cbn [same_outcome bind] in *; try contradiction; try assumption.
  generalize (seq 1 (n - 1)). intros l. revert S A H. induction l as [|j l IH]; intros S A H; cbn [foldM]; [exact H|].
  pose proof (pauli_sparse (nth j row 0%Z) (nth (j + n) row 0%Z)) as G.
  destruct (index_to_qubit_pauli_sparse (nth j row 0%Z) _) as [T|e], (index_to_qubit_pauli (nth j row 0%Z) _) as [B|f]; cbn [same_outcome bind] in *; try contradiction; try assumption.
  apply IH, kron_represents; assumption.
Qed.
Theorem rows_sparse M : same_outcome (Forall2 represents) (binary_rep_to_pauli_csr (K := K) M) (binary_rep_to_pauli_mat M).
Proof.
  unfold binary_rep_to_pauli_csr, binary_rep_to_pauli_mat. generalize (Nat.div (zc M) 2). intros n. induction (zd M) as [|r rows IH]; [constructor|]. cbn [mapM].
  pose proof (row_sparse n r) as G. destruct (pauli_row_csr n r) as [T|e], (pauli_row_mat n r) as [B|f]; cbn [same_outcome bind] in *; try contradiction; try assumption.
  destruct (mapM (pauli_row_csr n) rows) as [Ts|e], (mapM (pauli_row_mat n) rows) as [Bs|f]; cbn [same_outcome bind] in *; try contradiction; try assumption. constructor; assumption.
Qed.
End Csr.

From Coq Require Import Reals Lra.
Lemma csr_dense (A : marr CC) : same_mat (todense (csr_matrix A)) A.
Proof.
  split; [reflexivity|]. split; [reflexivity|]. cbn [todense csr_matrix mr mc me sr sc srow]. intros i j Hi Hj.
  transitivity (ksum (map (fun t => if Nat.eqb t j then me A i t else s0 (s := CC)) (seq 0 (mc A)))).
  - generalize (seq 0 (mc A)). intros l. induction l as [|t l IH]; [reflexivity|]. cbn [flat_map map]. rewrite map_app. rewrite ksum_cons, <- IH.
    destruct (Req_EM_T (fst (me A i t)) 0) as [E|E]; [destruct (Req_EM_T (snd (me A i t)) 0) as [E'|E']|]; cbn [map List.app fold_right fst snd]; try reflexivity.
    assert (Z : me A i t = s0) by (destruct (me A i t); cbn in E, E'; subst; reflexivity). rewrite Z. destruct (Nat.eqb t j); (match goal with |- ?a = sadd s0 ?a => destruct a end); apply EncoderProofs.CC_eq; cbn; ring.
  - rewrite ksum_seq. rewrite (bsum_one (mc A) j); [rewrite Nat.eqb_refl; reflexivity|exact Hj|]. intros t _ Hne. destruct (Nat.eqb_spec t j); [congruence|reflexivity].
Qed.
