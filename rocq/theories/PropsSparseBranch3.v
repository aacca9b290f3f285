(** C135: up to the objective, optimize_decoder_stabilizers(sparse=True) computes the operators of the call with
    sparse=False; it goes wrong when the objective is formed.  Specification: CsrSpec.v, PropsSparseBranch2.v ([denotes]).
    Model: SparseBranchModel.v, AvgFidModel.v. *)
From Verif Require Import Py ZMat CodesModel CodesSpec PropsCodes Scalar PauliModel EncoderProofs KrausModel KrausSpec KrausProofs ChannelModel FindModel FindSpec FindProofs
  AvgFidModel AvgFidSpec AvgFidExample AvgFidExample2 PropsAvgFid CsrModel CsrSpec CsrProofs SparseBranchModel PropsSparseBranch PropsSparseBranch2 PauliSpec.
From Coq Require Import Reals.
Open Scope nat_scope.

Lemma csr_matrix_denotes (A B : marr CC) : same_mat A B -> denotes (csr_matrix A) B.
Proof.
  intros (R & C & E). destruct (csr_dense A) as (R' & C' & E'). split.
  - split; [exact R|]. split; [exact C|]. intros i j Hi Hj. rewrite (E' i j Hi Hj). apply E; assumption.
  - intros i Hi. apply Forall_forall. intros p Hp. cbn [csr_matrix srow sc] in *. apply in_flat_map in Hp. destruct Hp as (j & Hj & Hp). apply in_seq in Hj.
    destruct (Req_EM_T _ _); [destruct (Req_EM_T _ _)|]; destruct Hp as [<-|[]] || destruct Hp; cbn [fst]; lia.
Qed.
Lemma products_denote S (E : marr CC) : denotes S E -> forall l m, Forall2 same_mat l m ->
  same_outcome (Forall2 denotes) (mapM (fun x => csr_dot (csr_matrix x) S) l) (mapM (fun x => np_dot x E) m).
Proof.
  intros D l m F. induction F as [|x y l m H F IH]; [constructor|]. cbn [mapM].
  pose proof (dot_denotes _ _ _ _ (csr_matrix_denotes x y H) D) as X.
  destruct (csr_dot (csr_matrix x) S) as [a|e], (np_dot y E) as [b|f]; cbn [same_outcome] in X; try contradiction; [|exact X]. cbn [bind].
  destruct (mapM _ l) as [p|e], (mapM _ m) as [q|f]; cbn [same_outcome] in IH; try contradiction; [|exact IH]. cbn [bind same_outcome]. constructor; assumption.
Qed.
Lemma same_both (l m p : list (marr CC)) : same_ops l p -> same_ops m p -> same_ops l m.
Proof.
  intros H. revert m. induction H as [|x y l p X H IH]; intros m M; inversion M as [|z ? m' ? Z M']; subst; constructor; [|exact (IH _ M')].
  destruct X as (X1 & X2 & X3), Z as (Z1 & Z2 & Z3). split; [congruence|]. split; [congruence|]. intros i j Hi Hj. rewrite (X3 i j Hi Hj). symmetry. apply Z3; congruence.
Qed.

(** For every code and every trace-preserving single-qubit channel both calls come to the same operators, or raise the same exception before. *)
Theorem C135_operators_partial eigh g n k errors : 1 <= k -> k <= n ->
  arg_matrices errors <> [] -> fits 2 2 (arg_matrices errors) -> trace_preserving 2 (arg_matrices errors) ->
  same_outcome (Forall2 denotes) (encoded_operators_sparse eigh g n k errors) (encoded_operators eigh g n k errors).
Proof.
  intros Hk Hn NE F T. destruct (error_channel_sparse_power errors n k NE F T Hk Hn) as (o & EO & SO). destruct (error_channel_power errors n k NE F T Hk Hn) as (d & ED & SD).
  unfold encoded_operators_sparse, encoded_operators. destruct (init g n k None) as [c|e]; [|reflexivity]. cbn [bind]. rewrite EO, ED. cbn [bind].
  unfold encode_krauss_operators_sparse. destruct (encode_krauss_operators eigh c) as [E|e]; [|reflexivity]. cbn [bind].
  apply products_denote; [|exact (same_both _ _ _ SO SD)]. apply csr_matrix_denotes. split; [reflexivity|]. split; [reflexivity|]. intros i j _ _. reflexivity.
Qed.
Print Assumptions C135_operators_partial.

(** The repetition code on three qubits and the bit flip channel: both calls come as far as the operators. *)
Example C135_case_operators : exists eigh ks Ks, eigh_ok eigh /\ fits 2 2 (arg_matrices flips) /\ trace_preserving 2 (arg_matrices flips) /\
  encoded_operators eigh (Strings rep3) 3 1 flips = Ok ks /\ encoded_operators_sparse eigh (Strings rep3) 3 1 flips = Ok Ks /\ Forall2 denotes Ks ks.
Proof.
  destruct C77_refuted as (eigh & solve & c & kraus & d & Rs & HE & HS & I & V & FF & FT & EK & H).
  assert (NE : arg_matrices flips <> []) by (intros Q; cbn in Q; discriminate Q).
  pose proof (C135_operators_partial eigh (Strings rep3) 3 1 flips ltac:(lia) ltac:(lia) NE FF FT) as X. rewrite EK in X.
  destruct (encoded_operators_sparse eigh (Strings rep3) 3 1 flips) as [Ks|] eqn:ES; [|contradiction X]. cbn [same_outcome] in X. exists eigh, kraus, Ks. repeat (split; [assumption || reflexivity|]). exact X.
Qed.
