(** The three-qubit repetition code with bit flips: material for the examples of
    PropsAvgFid.v. *)
From Verif Require Import Py ZMat CodesModel RankSpec CodesSpec CodesProofs PropsCodes Scalar PauliModel PauliSpec EncoderProofs EighExists KrausModel KrausSpec KrausProofs KrausProofs2 KrausProofs8 KrausProofs10 KrausExamples
  Spectral SpectralProofs SpectralExists ChoiModel ChoiSpec ChoiProofs ChoiProofs2 ChannelModel FindModel FindSpec FindProofs PropsPauli AvgFidModel AvgFidSpec AvgFidProofs AvgFidProofs2 AvgFidProofs3.
From Coq Require Import Reals Lra ClassicalChoice.
Open Scope nat_scope.
Open Scope K_scope.
Add Ring CCring28 : (s_rt CC).

(** an eigh that leaves diagonal matrices alone *)
Definition diagonal_op (d : nat) (A : array CC) : Prop := forall i j, (i < d)%nat -> (j < d)%nat -> A i j = if Nat.eqb i j then rc (fst (A i i)) else 0.
Definition keeps_diagonal (eigh : marr CC -> (nat -> R) * marr CC) : Prop :=
  forall M, mr M = mc M -> diagonal_op (mr M) (me M) -> eigh M = (fun i => fst (me M i i), MA (mr M) (mr M) eye).
Lemma diagonal_eigen d A : diagonal_op d A -> eigen_decomposition d A (fun i => fst (A i i)) eye.
Proof.
  intros H. split; [split; intros i j Hi Hj|intros i t Hi Ht].
  - unfold mm. rewrite (bsum_one d i); [|exact Hi|]; unfold adj, eye; [rewrite Nat.eqb_refl, sconj_1; destruct (Nat.eqb i j); ring|].
    intros l _ N. destruct (Nat.eqb_spec l i); [contradiction|]. rewrite sconj_0. ring.
  - unfold mm. rewrite (bsum_one d i); [|exact Hi|]; unfold adj, eye.
    + rewrite Nat.eqb_refl, Nat.eqb_sym. destruct (Nat.eqb i j); rewrite ?sconj_1, ?sconj_0; ring.
    + intros l _ N. destruct (Nat.eqb_spec i l); [congruence|]. ring.
  - unfold mm. rewrite (bsum_one d t); [|exact Ht|].
    + unfold eye. rewrite Nat.eqb_refl, (H i t Hi Ht). destruct (Nat.eqb_spec i t) as [->|N]; unfold rc; apply CC_eq; cbn; ring.
    + intros l _ N. unfold eye. destruct (Nat.eqb_spec l t); [contradiction|]. ring.
Qed.
Theorem diagonal_eigh : exists eigh, eigh_ok eigh /\ keeps_diagonal eigh.
Proof.
  destruct C13_case_contract as (eigh0 & H0).
  destruct (choice (fun (M : marr CC) r => (mr M = mc M -> diagonal_op (mr M) (me M) -> r = (fun i => fst (me M i i), MA (mr M) (mr M) eye)) /\
    (~ (mr M = mc M /\ diagonal_op (mr M) (me M)) -> r = eigh0 M))) as (eigh & H).
  { intros M. destruct (classic (mr M = mc M /\ diagonal_op (mr M) (me M))) as [Y|N].
    - eexists. split; [intros _ _; reflexivity|]. intros N. contradiction.
    - exists (eigh0 M). split; [intros A B; exfalso; apply N; split; assumption|]. reflexivity. }
  exists eigh. split; [|intros M A B; apply (proj1 (H M)); assumption].
  intros d A HA IA. destruct (H (MA d d A)) as [D1 D2]. cbn [mr mc me] in D1, D2. destruct (classic (diagonal_op d A)) as [Y|N].
  - rewrite (D1 eq_refl Y). cbn [fst snd mr mc me]. split; [reflexivity|]. split; [reflexivity|]. apply diagonal_eigen, Y.
  - rewrite D2 by (intros [_ Y]; contradiction). apply H0; assumption.
Qed.

(** selecting the eigenvalue one *)
Lemma near_one : below (Rabs (1 - 1)) tol5 = true.
Proof. unfold below, tol5. destruct (Rlt_dec _ _) as [|N]; [reflexivity|]. exfalso. apply N. rewrite Rminus_diag_eq, Rabs_R0 by reflexivity. apply Rinv_0_lt_compat. lra. Qed.
Lemma far_one : below (Rabs (-1 - 1)) tol5 = false.
Proof. unfold below, tol5. destruct (Rlt_dec _ _) as [L|]; [|reflexivity]. exfalso. rewrite Rabs_left in L by lra. assert (/ 100000 < 1)%R by (rewrite <- Rinv_1; apply Rinv_1_lt_contravar; lra). lra. Qed.
Definition sgR (b : bool) : R := if b then 1%R else (-1)%R.
Lemma select (e : nat -> R) (b : nat -> bool) m : (forall t, (t < m)%nat -> e t = sgR (b t)) ->
  filter (fun t => below (Rabs (e t - 1)) tol5) (seq 0 m) = filter b (seq 0 m).
Proof.
  intros H. apply filter_ext_in. intros t Ht. apply in_seq in Ht. rewrite (H t) by lia. destruct (b t); cbn [sgR]; [apply near_one|apply far_one].
Qed.

Definition keeps1 (i : nat) : bool := match i with 0 | 1 | 6 | 7 => true | _ => false end%nat.
Definition keeps2 (i : nat) : bool := match i with 0 | 3 | 4 | 7 => true | _ => false end%nat.
Definition diag_pm (b : nat -> bool) (S : marr CC) : Prop := is_square 8 S /\ forall i j, (i < 8)%nat -> (j < 8)%nat -> me S i j = if Nat.eqb i j then rc (sgR (b i)) else 0.
Lemma rep3_matrices c : init (Strings rep3) 3 1 None = Ok c -> exists S1 S2, binary_rep_to_pauli_mat (stab c) = Ok [S1; S2] /\ diag_pm keeps1 S1 /\ diag_pm keeps2 S2.
Proof.
  intros I. vm_compute in I. injection I as <-. eexists. eexists. split; [reflexivity|].
  split; (split; [split; reflexivity|]); intros i j Hi Hj.
  - do 8 (destruct i as [|i]; [do 8 (destruct j as [|j]; [apply CC_eq; cbn; ring|]); lia|]). lia.
  - do 8 (destruct i as [|i]; [do 8 (destruct j as [|j]; [apply CC_eq; cbn; ring|]); lia|]). lia.
Qed.

Lemma mm_diag d (A B : array CC) i j : (forall l, (l < d)%nat -> l <> i -> A i l = 0) -> (i < d)%nat -> mm d A B i j = A i i * B i j.
Proof. intros H Hi. unfold mm. apply (bsum_one d i); [exact Hi|]. intros l Hl N. rewrite (H l Hl N). ring. Qed.
(** column t of the encoder is the basis state |000> or |111> *)
Theorem rep3_encoder eigh c : keeps_diagonal eigh -> init (Strings rep3) 3 1 None = Ok c ->
  exists E, encode_krauss_operators eigh c = Ok (MA 8 2 E) /\ forall i t, (i < 8)%nat -> (t < 2)%nat -> E i t = eye i (7 * t)%nat.
Proof.
  intros HK I. destruct (rep3_matrices c I) as (S1 & S2 & EB & ((R1 & R2) & D1) & ((R3 & R4) & D2)).
  unfold encode_krauss_operators. rewrite EB. cbn [bind]. rewrite HK.
  2: congruence.
  2: { rewrite R1. intros i j Hi Hj. rewrite (D1 i j Hi Hj), (D1 i i Hi Hi), Nat.eqb_refl. destruct (Nat.eqb i j); reflexivity. }
  unfold obtain_eigenspace_one at 2. cbn [mr mc me]. rewrite R1.
  rewrite (select _ keeps1 8) by (intros t Ht; rewrite (D1 t t Ht Ht), Nat.eqb_refl; reflexivity).
  change (filter keeps1 (seq 0 8)) with [0; 1; 6; 7]%nat. set (E1 := MA 8 (length [0; 1; 6; 7]%nat) (fun i t => eye i (nth t [0; 1; 6; 7]%nat 0%nat)) : marr CC).
  cbn [foldM]. unfold np_dot at 1. rewrite R4. cbn [mr mc E1 length Nat.eqb bind]. unfold np_dot at 1. cbn [np_dagger mr mc E1 Nat.eqb]. rewrite R3. cbn [Nat.eqb bind me].
  match goal with |- context [eigh ?M] => set (cj := M) end.
  assert (DC : forall t u, (t < 4)%nat -> (u < 4)%nat -> me cj t u = if Nat.eqb t u then rc (sgR (keeps2 (nth t [0; 1; 6; 7] 0)%nat)) else 0).
  { intros t u Ht Hu. subst cj. cbn [me]. unfold mm at 1. rewrite (bsum_one 8 (nth t [0; 1; 6; 7] 0)%nat).
    - rewrite mm_diag.
      + unfold adj. rewrite D2, Nat.eqb_refl by (do 4 (destruct t as [|t]; [cbn; lia|]); lia).
        do 4 (destruct t as [|t]; [do 4 (destruct u as [|u]; [apply CC_eq; cbn; ring|]); lia|]); lia.
      + intros l Hl N. rewrite D2; [|do 4 (destruct t as [|t]; [cbn; lia|]); lia|exact Hl]. destruct (Nat.eqb_spec (nth t [0; 1; 6; 7] 0)%nat l); [congruence|reflexivity].
      + do 4 (destruct t as [|t]; [cbn; lia|]); lia.
    - do 4 (destruct t as [|t]; [cbn; lia|]); lia.
    - intros l _ N. unfold np_dagger, adj, E1, eye. cbn [me]. destruct (Nat.eqb_spec l (nth t [0; 1; 6; 7] 0)%nat); [contradiction|]. rewrite (sconj_0 (K := CC)). ring. }
  rewrite HK.
  2: reflexivity.
  2: { cbn [cj mr]. intros i j Hi Hj. rewrite (DC i j Hi Hj), (DC i i Hi Hi), Nat.eqb_refl. destruct (Nat.eqb i j); reflexivity. }
  unfold obtain_eigenspace_one. cbn [mr mc cj]. fold cj.
  rewrite (select _ (fun t => keeps2 (nth t [0; 1; 6; 7] 0)%nat) 4) by (intros t Ht; rewrite (DC t t Ht Ht), Nat.eqb_refl; reflexivity).
  change (filter (fun t => keeps2 (nth t [0; 1; 6; 7] 0)%nat) (seq 0 4)) with [0; 3]%nat. unfold np_dot. cbn [mr mc me length Nat.eqb bind]. eexists. split; [reflexivity|].
  intros i t Hi Ht. unfold mm, eye. destruct t as [|[|t]]; [| |lia]; do 8 (destruct i as [|i]; [apply CC_eq; cbn; ring|]); lia.
Qed.

(** bit flips with probability 9/25 *)
Definition flips : kraus_arg CC :=
  OpList [MA 2 2 (fun i j => (if Nat.eqb i j then (4 / 5)%R else 0%R, 0%R) : CC); MA 2 2 (fun i j => (if Nat.eqb i j then 0%R else (3 / 5)%R, 0%R) : CC)].
Lemma flips_fits : fits 2 2 (arg_matrices flips). Proof. repeat constructor. Qed.
Lemma flips_tp : trace_preserving 2 (arg_matrices flips).
Proof.
  intros i j Hi Hj. destruct i as [|[|i]]; [| |lia]; (destruct j as [|[|j]]; [| |lia]); unfold ksum, adj, mm, eye; cbn; apply CC_eq; cbn; lra.
Qed.
(** the encoder followed by flips of the qubits in the set b, with amplitude w *)
Definition one_flip (b : nat) (w : R) : marr CC := MA (K := CC) 8 2 (fun i t => (if Nat.eqb i (Nat.lxor b (7 * t)) then w else 0%R, 0%R)).
Definition flipped : list (marr CC) :=
  [one_flip 0 (64 / 125); one_flip 1 (48 / 125); one_flip 2 (48 / 125); one_flip 3 (36 / 125);
   one_flip 4 (48 / 125); one_flip 5 (36 / 125); one_flip 6 (36 / 125); one_flip 7 (27 / 125)]%R.
Definition likeliest : R := ((16 / 25) ^ 3)%R.
Lemma flipped_ok : same_ops (map (fun W : marr CC => MA 8 2 (fun i t => me W i (7 * t)%nat)) (power_ops (arg_matrices flips) 3)) flipped.
Proof.
  unfold same_ops. repeat (apply Forall2_cons; [split; [reflexivity|]; split; [reflexivity|]; intros i t Hi Ht; cbn [mr mc] in Hi, Ht;
    destruct t as [|[|t]]; [| |lia]; do 8 (destruct i as [|i]; [apply CC_eq; cbn; [lra|ring]|]); lia|]). apply Forall2_nil.
Qed.
Lemma flipped_fits : fits 8 2 flipped. Proof. repeat constructor. Qed.
Lemma flipped_real : real_matrices flipped.
Proof. unfold real_matrices. repeat (apply Forall_cons; [intros i j _ _; reflexivity|]). apply Forall_nil. Qed.
Lemma flip_term b w b' w' t i : adj (me (one_flip b w)) t i * me (one_flip b' w') i t =
  if (Nat.eqb i (Nat.lxor b (7 * t)) && Nat.eqb i (Nat.lxor b' (7 * t)))%bool then rc (w * w')%R else 0.
Proof. unfold adj, one_flip. cbn [me]. destruct (Nat.eqb i (Nat.lxor b (7 * t))), (Nat.eqb i (Nat.lxor b' (7 * t))); apply CC_eq; cbn; ring. Qed.
Lemma flip_orth b w b' w' : b <> b' -> tr 2 (mm 8 (adj (me (one_flip b w))) (me (one_flip b' w'))) = 0.
Proof.
  intros N. unfold tr. apply bsum_zero. intros t _. unfold mm. apply bsum_zero. intros i _. rewrite flip_term.
  destruct (Nat.eqb_spec i (Nat.lxor b (7 * t))) as [E|]; [|reflexivity]. destruct (Nat.eqb_spec i (Nat.lxor b' (7 * t))) as [E'|]; [|reflexivity]. exfalso. apply N.
  rewrite E in E'. apply (f_equal (fun x => Nat.lxor x (7 * t))) in E'. rewrite !Nat.lxor_assoc, Nat.lxor_nilpotent, !Nat.lxor_0_r in E'. exact E'.
Qed.
Lemma flip_norm b w : (b < 8)%nat -> tr 2 (mm 8 (adj (me (one_flip b w))) (me (one_flip b w))) = rc (2 * (w * w))%R.
Proof.
  intros Hb. unfold tr. rewrite (bsum_ext 2 _ (fun _ => rc (w * w)%R)).
  - cbn [bsum]. apply CC_eq; cbn; ring.
  - intros t Ht. unfold mm. rewrite (bsum_one 8 (Nat.lxor b (7 * t))).
    + rewrite flip_term, Nat.eqb_refl. reflexivity.
    + destruct t as [|[|t]]; [| |lia]; do 8 (destruct b as [|b]; [cbn; lia|]); lia.
    + intros i _ N. rewrite flip_term. destruct (Nat.eqb_spec i (Nat.lxor b (7 * t))); [contradiction|reflexivity].
Qed.
Lemma flipped_orth : ForallOrdPairs (fun A B : marr CC => tr 2 (mm 8 (adj (me A)) (me B)) = 0) flipped.
Proof. repeat (apply FOP_cons; [repeat (apply Forall_cons; [apply flip_orth; discriminate|]); apply Forall_nil|]). apply FOP_nil. Qed.
Lemma flipped_norm : Forall (fun A : marr CC => (fst (tr 2 (mm 8 (adj (me A)) (me A))) <= likeliest * INR 2)%R) flipped.
Proof. repeat (apply Forall_cons; [rewrite flip_norm by lia; unfold likeliest, rc; cbn; lra|]). apply Forall_nil. Qed.
