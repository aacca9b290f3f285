(** Concrete channels, used to show that the hypotheses of the theorems can be met and as
    counterexamples. *)
From Verif Require Import Py Scalar PauliModel PauliSpec KrausModel KrausSpec KrausProofs KrausProofs2 KrausProofs3 KrausProofs8 KrausProofs11 ChoiModel ChannelModel ChannelSpec.
From Coq Require Import Reals Lra.
Open Scope nat_scope.
Definition unit_mat {K : StarRing} (r c i j : nat) : marr K := MA r c (fun a b => if (Nat.eqb a i && Nat.eqb b j)%bool then s1 else s0).
(** reset to |0>, measurement of a qutrit, identity *)
Definition reset_ops {K : StarRing} : kraus_arg K := OpList [unit_mat 2 2 0 0; unit_mat 2 2 0 1].
Definition measure3 {K : StarRing} : kraus_arg K := OpList [unit_mat 3 3 0 0; unit_mat 3 3 1 1; unit_mat 3 3 2 2].
Definition ident {K : StarRing} (d : nat) : kraus_arg K := OpList [MA d d eye].
Definition diag_mat {K : StarRing} (l : list K) : marr K := MA (length l) (length l) (fun a b => if Nat.eqb a b then nth a l s0 else s0).
(** the entries of a matrix, for printing *)
Definition entries {K : StarRing} (A : marr K) : list (list K) := map (fun i => map (me A i) (seq 0 (mc A))) (seq 0 (mr A)).
Section X.
Context {K : StarRing}.
Add Ring KX : (s_rt K).
Open Scope K_scope.
Ltac small i := destruct i as [|[|i]]; [| |exfalso; lia].
Lemma reset_tp : trace_preserving (K := K) 2 (arg_matrices reset_ops).
Proof.
  intros i j Hi Hj. cbn [reset_ops arg_matrices map]. rewrite !ksum_cons, ksum_nil. unfold mm, adj, unit_mat, eye. cbn [mr me].
  small i; small j; cbn; rewrite ?sconj_0, ?sconj_1; ring.
Qed.
Lemma ident_tp d : trace_preserving (K := K) d (arg_matrices (ident d)).
Proof.
  intros i j Hi Hj. cbn [ident arg_matrices map mr me]. rewrite ksum_cons, ksum_nil. transitivity (mm d (adj eye) (eye (K := K)) i j); [ring|]. rewrite mm_eye_r by exact Hj. apply adj_eye.
Qed.
Lemma measure3_tp : trace_preserving (K := K) 3 (arg_matrices measure3).
Proof.
  intros i j Hi Hj. cbn [measure3 arg_matrices map]. rewrite !ksum_cons, ksum_nil. unfold mm, adj, unit_mat, eye. cbn [mr me].
  destruct i as [|[|[|i]]]; [| | |exfalso; lia]; destruct j as [|[|[|j]]]; [| | |exfalso; lia| | | |exfalso; lia| | | |exfalso; lia]; cbn; rewrite ?sconj_0, ?sconj_1; ring.
Qed.
Lemma reset_init sp : exists o, kraus_init (K := K) sp reset_ops (1, 1)%nat 2 2 [] = Ok o. Proof. destruct sp; eexists; reflexivity. Qed.
Lemma ident_init sp nq din dout orthogonal : (din ^ fst nq = dout ^ snd nq)%nat -> exists o, kraus_init (K := K) sp (ident (din ^ fst nq)) nq din dout orthogonal = Ok o.
Proof.
  intros E. eexists. apply kraus_init_ok. eexists. split; [reflexivity|]. split; [|reflexivity]. constructor; [|constructor]. split; [exact E|reflexivity].
Qed.
End X.
Lemma ident_chan nq din dout orthogonal sp : (din ^ fst nq = dout ^ snd nq)%nat -> exists c, chan_init (ident (din ^ fst nq)) nq din dout orthogonal sp = Ok c.
Proof.
  intros E. apply chan_init_iff; [discriminate|]. split; [constructor; [|constructor]; split; [exact E|reflexivity]|]. apply tp_nearly, ident_tp.
Qed.
Lemma reset_chan sp : exists c, chan_init reset_ops (1, 1) 2 2 [] sp = Ok c.
Proof. apply chan_init_iff; [discriminate|]. split; [repeat constructor|]. apply tp_nearly, reset_tp. Qed.

(** the pure state (|0> + |1>)(<0| + <1|)/2 *)
Definition plus : marr CC := MA 2 2 (fun _ _ => ((/ 2, 0)%R : CC)).
Lemma Cmod_real x : (0 <= x)%R -> Cmod ((x, 0%R) : CC) = x.
Proof. intros H. unfold Cmod. cbn [fst snd]. rewrite Rmult_0_l, Rplus_0_r. apply sqrt_square, H. Qed.
Lemma plus_density : density 2 (me plus).
Proof.
  split; [|split].
  - intros i j _ _. unfold adj. cbn [me plus]. apply injective_projections; cbn; lra.
  - intros v. exists ((fst (v 0%nat) + fst (v 1%nat)) ^ 2 / 2 + (snd (v 0%nat) + snd (v 1%nat)) ^ 2 / 2)%R. split; [apply Rplus_le_le_0_compat; apply Rmult_le_pos; [apply pow2_ge_0|lra|apply pow2_ge_0|lra]|]. apply injective_projections; cbn; field.
  - apply injective_projections; cbn; field.
Qed.
Lemma plus_fidelity : density 2 (me plus) /\ exists o s, kraus_init false (ident 2) (1, 1) 2 2 [] = Ok o /\ kraus_init true (ident 2) (1, 1) 2 2 [] = Ok s /\
  ensemble (entanglement_fidelity (arg_matrices (ident 2))) [1%R] [plus] = 1%R /\
  kraus_fidelity o [1%R] [plus] = Ok 4%R /\ kraus_fidelity s [1%R] [plus] = Ok (/ 2)%R.
Proof.
  split; [exact plus_density|].
  destruct (kraus_init false (ident (K := CC) 2) (1, 1) 2 2 []) as [o|] eqn:Eo; [|discriminate Eo]. destruct (kraus_init true (ident (K := CC) 2) (1, 1) 2 2 []) as [s|] eqn:Es; [|discriminate Es].
  exists o, s. split; [reflexivity|]. split; [reflexivity|]. split; [|split].
  - unfold ensemble, entanglement_fidelity, reals_sum. cbn [ident arg_matrices map combine fold_right fst snd mr mc me].
    replace (tr 2 (mm 2 eye (me plus)) : CC) with ((1, 0)%R : CC). rewrite Cmod_real by lra. lra. apply injective_projections; cbn; field.
  - rewrite (fidelity_dense _ _ _ _ _ _ [1%R] [plus] Eo); [|discriminate|reflexivity|repeat constructor]. f_equal.
    unfold ensemble, all_entries_fidelity, reals_sum. cbn [ident arg_matrices map combine fold_right fst snd mr mc me].
    replace (bsum 2 _ : CC) with ((2, 0)%R : CC). rewrite Cmod_real by lra. lra. apply injective_projections; cbn; field.
  - rewrite (fidelity_sparse _ _ _ _ _ _ [1%R] [plus] Es); [|discriminate|reflexivity|repeat constructor]. f_equal.
    unfold ensemble, diagonal_fidelity, reals_sum. cbn [ident arg_matrices map combine fold_right fst snd mr mc me length seq plus].
    replace (bsum _ _ : CC) with ((/ 2, 0)%R : CC). replace (bsum _ _ : CC) with ((/ 2, 0)%R : CC). rewrite Cmod_real by lra. lra. apply injective_projections; cbn; field. apply injective_projections; cbn; field.
Qed.
