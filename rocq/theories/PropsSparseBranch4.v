(** C135: the vectors whose outer products make the objective, in the sparse and in the dense branch of
    avg_fidelity.py L206-220.  Both list the conjugated entries of an operator, but in different orders: the sparse branch
    leaves out the transpose.  So the objective would not be the dense one even if np.outer worked on sparse columns. *)
From Verif Require Import Py Scalar PauliModel KrausSpec CsrModel CsrSpec AvgFidModel SparseBranchModel PropsSparseBranch2.
From Coq Require Import Reals.
Open Scope nat_scope.
Open Scope K_scope.

Lemma column_total {K : StarRing} j (l : list (nat * K)) :
  total O (map (fun q => (O, (snd q)^*)) (filter (fun q => Nat.eqb (fst q) j) l)) = (total j l)^*.
Proof.
  unfold total. induction l as [|p l IH]; [symmetry; apply sconj_0|]. cbn [filter map fold_right]. rewrite sconj_add, <- IH.
  destruct (Nat.eqb (fst p) j); cbn [map fold_right fst snd Nat.eqb]; [reflexivity|]. rewrite sconj_0. symmetry. apply (Radd_0_l (s_rt K)).
Qed.
(** Entry (i, j) of an operator is, conjugated, at position j * rows + i of the sparse branch's column and at
    position i * columns + j of the dense branch's vector. *)
Theorem C135_columns_partial (K : StarRing) S (A : marr K) i j : denotes S A -> (i < mr A)%nat -> (j < mc A)%nat ->
  sr (conj_column S) = (mr A * mc A)%nat /\ sc (conj_column S) = 1%nat /\
  me (todense (conj_column S)) (j * mr A + i)%nat O = (me A i j)^* /\ ravel_F (np_dagger A) (i * mc A + j)%nat = (me A i j)^*.
Proof.
  intros ((R & C & E) & _) Hi Hj. cbn [todense mr mc] in R, C, E. cbn [conj_column sr sc]. rewrite R, C. split; [reflexivity|]. split; [reflexivity|].
  assert (D : forall a b c, (b < c)%nat -> ((a * c + b) / c)%nat = a /\ ((a * c + b) mod c)%nat = b).
  { intros a b c H. assert (c <> 0)%nat by lia. split; [rewrite Nat.div_add_l, Nat.div_small by lia; lia|rewrite Nat.add_comm, Nat.mod_add, Nat.mod_small by lia; reflexivity]. }
  split.
  - rewrite <- (E i j) by lia. cbn [todense conj_column me srow]. rewrite R. destruct (D j i (mr A) Hi) as [-> ->]. apply column_total.
  - unfold ravel_F, np_dagger, adj. cbn [mr mc me]. destruct (D i j (mc A) Hj) as [-> ->]. reflexivity.
Qed.
(** The matrix with a single 1 in row 0 and column 1: the two vectors differ, and so do their outer products. *)
Theorem C135_objective_refuted : exists (S : csr CC) A, denotes S A /\ is_square 2 A /\
  let v := fun p => me (todense (conj_column S)) p O in
  me (outer 4 4 v v) 1%nat 1%nat <> me (outer 4 4 (ravel_F (np_dagger A)) (ravel_F (np_dagger A))) 1%nat 1%nat.
Proof.
  exists (CSR 2 2 (fun i => match i with O => [(1%nat, s1)] | _ => [] end)), (MA 2 2 (fun i j => if (Nat.eqb i 0%nat && Nat.eqb j 1%nat)%bool then s1 else s0)).
  split; [|split; [split; reflexivity|]].
  - split; [split; [reflexivity|split; [reflexivity|]]|].
    + intros [|[|i]] [|[|j]] Hi Hj; cbn in Hi, Hj; try lia; cbn; try reflexivity; apply injective_projections; cbn; ring.
    + intros [|[|i]] Hi; cbn in Hi |- *; try lia; repeat constructor.
  - cbn. intros H. apply (f_equal fst) in H. cbn in H. revert H. match goal with |- ?a = ?b -> False => replace a with 0%R by ring; replace b with 1%R by ring end. intros H. symmetry in H. exact (R1_neq_R0 H).
Qed.
Print Assumptions C135_columns_partial.
Print Assumptions C135_objective_refuted.
