(** Distances of codes (C153, C154).  Specification: CodesSpec.v, QecSpec.v (distance_at_least, weight).  Model: CodesModel.v. *)
From Verif Require Import Py ZMat CodesModel RankSpec CodesSpec BoolLin Rank Gauss Gauss2 Logical CodesProofs CodesProofs2 ConcatProofs ConcatSpec ConcatAbs ConcatProofs2 StringsProofs Scalar CircuitModel CircuitSpec QecSpec QecProofs EncodedProofs PropsCodes PropsConcat DistProofs.
From Coq Require Import Permutation.
Open Scope nat_scope.
Ltac calc := vm_compute; reflexivity.

(** ** C153: the hypotheses on the logical operators are those of C22 *)
Theorem C153_distance g1 g2 o1 o2 n k m c1 c2 lx lz c d1 d2 :
  init g1 n k o1 = Ok c1 -> init g2 m 1 o2 = Ok c2 -> valid_generators n k (zd (stab c1)) -> valid_generators m 1 (zd (stab c2)) ->
  nth_error (zd (logical_x c2)) 0 = Some lx -> nth_error (zd (logical_z c2)) 0 = Some lz ->
  length lx = 2 * m -> length lz = 2 * m -> binary lx -> binary lz ->
  (forall r, In r (zd (stab c2)) -> commute m r (x_only m lx) /\ commute m r (z_only m lz)) -> ~ commute m (x_only m lx) (z_only m lz) ->
  distance_at_least n (zd (stab c1)) d1 -> distance_at_least m (zd (stab c2)) d2 ->
  concatenate_codes c1 c2 = Ok (Some c) -> distance_at_least (n * m) (zd (stab c)) (d1 * d2).
Proof.
  intros I1 I2 V1 V2 EX EZ LX LZ BX BZ HC HA D1 D2 CO. destruct (C22_rows g1 g2 o1 o2 n k m c1 c2 lx lz I1 I2 (proj1 (proj2 (proj2 (proj2 V1)))) EX EZ LX LZ BX BZ) as (rows & CC & E).
  rewrite E in CO. apply bind_ok in CO. destruct CO as (c' & I & [= ->]). destruct (C06_accepted_rows rows (n * m) k None c I) as (-> & _).
  apply (concatenation_distance n k m (x_only m lx) (z_only m lz) (zd (stab c1)) (zd (stab c2)) rows d1 d2 V1); try assumption.
  destruct (init_inv _ _ _ _ _ I1) as (M1 & _ & _ & _ & _ & Hk1 & _). exact Hk1.
Qed.
Print Assumptions C153_distance.

(** For an outer code that detects single errors and an inner code that computed its own logical operators, it is enough that
    concatenate_codes returns a code. *)
Theorem C153_returned g1 g2 o1 n k m c1 c2 c d1 d2 : init g1 n k o1 = Ok c1 -> init g2 m 1 None = Ok c2 -> valid_generators n k (zd (stab c1)) -> valid_generators m 1 (zd (stab c2)) ->
  1 <= k -> 2 <= d1 -> distance_at_least n (zd (stab c1)) d1 -> distance_at_least m (zd (stab c2)) d2 ->
  concatenate_codes c1 c2 = Ok (Some c) -> distance_at_least (n * m) (zd (stab c)) (d1 * d2).
Proof.
  intros I1 I2 V1 V2 K1 HD D1 D2 CO. destruct (C10_logical_relations g2 m 1 c2 I2 V2) as (NX & NZ & SH & _ & AC). destruct (init_logical g2 m 1 c2 I2 V2) as (_ & _ & _ & FZ).
  destruct (zd (logical_x c2)) as [|lx [|]] eqn:EX; try discriminate NX. destruct (zd (logical_z c2)) as [|lz [|]] eqn:EZ; try discriminate NZ.
  destruct (SH lx (or_introl (or_introl eq_refl))) as [LX BX]. destruct (SH lz (or_intror (or_introl eq_refl))) as [LZ BZ]. destruct (AC 0 0 ltac:(lia) ltac:(lia)) as [AN _]. cbn [nth] in AN.
  assert (HA : ~ commute m (x_only m lx) (z_only m lz)).
  { assert (ND : ~ commute m lx lz) by (intros Q; apply AN in Q; lia). intros Q. apply ND. rewrite commute_ip in *. rewrite <- Q. clear Q.
    assert (Z0 : forall j, j < m -> brow lz j = false).
    { intros j Hj. specialize (FZ 0 j ltac:(lia) ltac:(lia)). unfold fz in FZ. destruct (Nat.ltb_spec j m); [|lia]. unfold bz, get in FZ. rewrite EZ in FZ. exact FZ. }
    unfold ip. apply xsum_ext. intros j Hj. rewrite !brow_x_only, !brow_z_only by (assumption || lia). rewrite (Z0 j Hj). destruct (Nat.ltb_spec j m); [|lia]. destruct (Nat.leb_spec m (m + j)); [|lia]. destruct (Nat.leb_spec m j); [lia|]. cbn [andb]. rewrite !andb_false_r. reflexivity. }
  destruct (C22_rows g1 g2 o1 None n k m c1 c2 lx lz I1 I2 (proj1 (proj2 (proj2 (proj2 V1)))) ltac:(rewrite EX; reflexivity) ltac:(rewrite EZ; reflexivity) LX LZ BX BZ) as (rows & CC & E).
  destruct (init_inv _ _ _ _ _ I1) as (M1 & _ & _ & _ & _ & Hk1 & _).
  assert (HC : forall r, In r (zd (stab c2)) -> commute m r (x_only m lx) /\ commute m r (z_only m lz)).
  { rewrite E in CO. apply bind_ok in CO. destruct CO as (c' & I & [= ->]). destruct (C06_accepted_rows rows (n * m) k None c I) as (ER & _).
    apply (rows_force n k m (x_only m lx) (z_only m lz) (zd (stab c1)) (zd (stab c2)) rows d1 V1 (conj K1 Hk1) V2 CC HD D1). rewrite <- ER. exact (C06_accepted_commute _ _ _ _ _ I). }
  apply (C153_distance g1 g2 o1 None n k m c1 c2 lx lz c d1 d2); try assumption; [rewrite EX|rewrite EZ]; reflexivity.
Qed.
Print Assumptions C153_returned.
(** the five-qubit code inside the Steane code: a code on 35 qubits of distance 9 *)
Example C153_case : exists c1 c2 lx lz c, init (Strings five_qubit) 5 1 None = Ok c1 /\ init (Strings steane) 7 1 (Some (ZM 1 14 [repeat 1%Z 7 ++ repeat 0%Z 7], ZM 1 14 [repeat 0%Z 7 ++ repeat 1%Z 7])) = Ok c2 /\
  valid_generators 5 1 (zd (stab c1)) /\ valid_generators 7 1 (zd (stab c2)) /\ nth_error (zd (logical_x c2)) 0 = Some lx /\ nth_error (zd (logical_z c2)) 0 = Some lz /\
  (length lx = 14 /\ length lz = 14 /\ binary lx /\ binary lz) /\
  (forall r, In r (zd (stab c2)) -> commute 7 r (x_only 7 lx) /\ commute 7 r (z_only 7 lz)) /\ ~ commute 7 (x_only 7 lx) (z_only 7 lz) /\
  distance_at_least 5 (zd (stab c1)) 3 /\ distance_at_least 7 (zd (stab c2)) 3 /\ concatenate_codes c1 c2 = Ok (Some c) /\ cn c = 35 /\ ck c = 1.
Proof.
  eexists _, _, _, _, _. split; [calc|]. split; [calc|]. split; [valid|]. split; [valid|]. split; [reflexivity|]. split; [reflexivity|]. split; [split; [reflexivity|]; split; [reflexivity|]; split; bits|].
  split; [cbn [zd stab]; intros r Hr; repeat (destruct Hr as [<-|Hr]; [split; apply decide_commute; reflexivity|]); destruct Hr|]. split; [apply decide_not_commute; reflexivity|].
  split; [apply distanceb_ok; calc|]. split; [apply distanceb_ok; calc|]. split; [calc|]. split; reflexivity.
Qed.
(** the five-qubit code inside the repetition code with its computed logical operators *)
Example C153_case_returned : exists c1 c2 c, init (Strings five_qubit) 5 1 None = Ok c1 /\ init (Strings rep3) 3 1 None = Ok c2 /\ valid_generators 5 1 (zd (stab c1)) /\ valid_generators 3 1 (zd (stab c2)) /\
  distance_at_least 5 (zd (stab c1)) 3 /\ distance_at_least 3 (zd (stab c2)) 1 /\ concatenate_codes c1 c2 = Ok (Some c) /\ cn c = 15.
Proof. eexists _, _, _. split; [calc|]. split; [calc|]. split; [valid|]. split; [valid|]. split; [apply distanceb_ok; calc|]. split; [apply distanceb_ok; calc|]. split; [calc|reflexivity]. Qed.

(** ** C154 *)
Lemma filter_perm {A} (f : A -> bool) l l' : Permutation l l' -> length (filter f l) = length (filter f l').
Proof. induction 1; cbn [filter]; [reflexivity|destruct (f x); cbn [length]; lia|destruct (f x), (f y); reflexivity|lia]. Qed.
Lemma filter_map_len {A B} (g : A -> B) f l : length (filter f (map g l)) = length (filter (fun x => f (g x)) l).
Proof. induction l as [|x l IH]; [reflexivity|]. cbn [map filter]. destruct (f (g x)); cbn [length]; lia. Qed.
Lemma nodup_map_in {A B} (f : A -> B) l : (forall x y, In x l -> In y l -> f x = f y -> x = y) -> NoDup l -> NoDup (map f l).
Proof.
  intros H N. induction N as [|x l NI N IH]; [constructor|]. cbn [map]. constructor; [|apply IH; intros y z Hy Hz; apply H; right; assumption].
  intros I. apply in_map_iff in I. destruct I as (y & E & Hy). apply NI. rewrite (H x y); [exact Hy|left; reflexivity|right; exact Hy|symmetry; exact E].
Qed.
Lemma weight_relabel n p q v : perm n p q -> weight n (relabel n p v) = weight n v.
Proof.
  intros P. unfold weight at 2. rewrite (filter_perm _ (seq 0 n) (map p (seq 0 n))).
  - rewrite filter_map_len. unfold weight. f_equal. apply filter_ext_in. intros j Hj. apply in_seq in Hj. unfold relabel. rewrite !(nth_map_seq (fun j => nth _ v 0%Z)) by lia.
    destruct (Nat.ltb_spec j n); [|lia]. destruct (Nat.ltb_spec (n + j) n); [lia|]. replace (n + j - n) with j by lia. reflexivity.
  - apply NoDup_Permutation; [apply seq_NoDup| |].
    + apply nodup_map_in; [|apply seq_NoDup]. intros x y Hx Hy E. apply in_seq in Hx, Hy. apply (perm_inj n p q P); [lia|lia|exact E].
    + intros x. rewrite in_map_iff, in_seq. split; [intros Hx; exists (q x)|intros (y & <- & Hy); apply in_seq in Hy]; [|destruct (P y ltac:(lia)); lia]. destruct (P x ltac:(lia)) as (_ & Q & E & _). split; [exact E|apply in_seq; lia].
Qed.
Lemma commute_relabel n p u v : qubit_perm n p -> commute n (relabel n p u) (relabel n p v) <-> commute n u v.
Proof.
  intros P. destruct (qubit_perm_inv n p P) as (q & Q). rewrite !commute_ip. rewrite <- (ip_lift n p q (brow u) (brow v) Q).
  rewrite (ip_ext n (brow (relabel n p u)) (fun j => brow u (Gauss.lift n p j)) (brow (relabel n p v)) (fun j => brow v (Gauss.lift n p j))); [reflexivity| |]; intros j Hj; apply brow_relabel; exact Hj.
Qed.
Lemma perm_sym n p q : perm n p q -> perm n q p.
Proof. intros P i Hi. destruct (P i Hi) as (A & B & C & D). auto. Qed.
Lemma relabel_back n p q v j : perm n p q -> j < 2 * n -> brow (relabel n p (relabel n q v)) j = brow v j.
Proof. intros P Hj. destruct (lift_perm n p q P j Hj) as (A & B & C & D). rewrite brow_relabel, brow_relabel by assumption. rewrite D. reflexivity. Qed.
Lemma commute_brow n u u' v v' : (forall j, j < 2 * n -> brow u j = brow u' j) -> (forall j, j < 2 * n -> brow v j = brow v' j) -> commute n u v -> commute n u' v'.
Proof. intros U V. rewrite !commute_ip. rewrite (ip_ext n (brow u) (brow u') (brow v) (brow v') U V). auto. Qed.
Lemma in_rowspace_relabel n p q rows v : perm n p q -> in_rowspace n rows v -> in_rowspace n (map (relabel n p) rows) (relabel n p v).
Proof.
  intros P. rewrite !in_rowspace_b, map_length. intros S. pose proof (inspan_lift n p q _ _ _ P S) as (a & A). exists a. intros j Hj. rewrite brow_relabel by exact Hj. rewrite (A j Hj). apply comb_ext; [reflexivity|]. intros i Hi. symmetry. apply brows_relabel; assumption.
Qed.
Lemma in_rowspace_back n p q rows v : perm n p q -> in_rowspace n (map (relabel n p) rows) (relabel n p v) -> in_rowspace n rows v.
Proof.
  intros P. rewrite !in_rowspace_b, map_length. intros S. pose proof (inspan_lift n q p _ _ _ (perm_sym n p q P) S) as (a & A). exists a. intros j Hj. destruct (lift_perm n p q P j Hj) as (X1 & X2 & X3 & X4).
  specialize (A j Hj). rewrite brow_relabel in A by assumption. rewrite X3 in A. rewrite A. apply comb_ext; [reflexivity|]. intros i Hi. rewrite brows_relabel by assumption. rewrite X3. reflexivity.
Qed.
Lemma in_row n rows r : In r rows -> in_rowspace n rows r.
Proof. intros H. apply (In_nth _ _ []) in H. destruct H as (i & Hi & <-). apply in_rowspace_b. apply (inspan_row (brows rows)). exact Hi. Qed.
(** the normal form, which the circuits use, has the distance of the generators *)
Theorem C154_distance g n k ops c d : init g n k ops = Ok c -> Forall binary (zd (stab c)) ->
  distance_at_least n (zd (normal_form c)) d <-> distance_at_least n (zd (stab c)) d.
Proof.
  intros I B. destruct (C07_normal_form_same_code g n k ops c I B) as (_ & _ & _ & _ & p & P & RS). destruct (qubit_perm_inv n p P) as (q & Q).
  split; intros D v L BV C W.
  - apply (in_rowspace_back n p q); [exact Q|]. apply RS. apply D; [apply relabel_length|apply relabel_binary; exact BV| |rewrite (weight_relabel n p q v Q); exact W].
    intros r Hr. apply (commute_rowspace n (map (relabel n p) (zd (stab c)))); [|apply RS, in_row, Hr]. intros r' Hr'. apply in_map_iff in Hr'. destruct Hr' as (r0 & <- & H0). apply commute_relabel; [exact P|apply C, H0].
  - apply RS. pose proof (perm_sym n p q Q) as Q'.
    assert (IN : in_rowspace n (zd (stab c)) (relabel n q v)).
    { apply D; [apply relabel_length|apply relabel_binary; exact BV| |rewrite (weight_relabel n q p v Q'); exact W].
      intros r Hr. apply (commute_relabel n p r (relabel n q v) P). apply (commute_brow n (relabel n p r) _ v _); [reflexivity|intros j Hj; symmetry; apply relabel_back; assumption|].
      apply (commute_rowspace n (zd (normal_form c))); [exact C|]. apply RS, in_row, in_map, Hr. }
    pose proof (in_rowspace_relabel n p q _ _ Q IN) as S. apply in_rowspace_b in S. apply in_rowspace_b. apply (inspan_ext _ _ _ (brow (relabel n p (relabel n q v)))); [intros j Hj; apply relabel_back; assumption|exact S].
Qed.
Print Assumptions C154_distance.
(** the Steane code, whose qubits are relabelled in the normal form *)
Example C154_case : exists c, init (Strings steane) 7 1 None = Ok c /\ Forall binary (zd (stab c)) /\ distance_at_least 7 (zd (stab c)) 3 /\ zd (normal_form c) <> zd (stab c).
Proof.
  eexists. split; [calc|]. split; [cbn [zd stab]; repeat (apply Forall_cons; [bits|]); apply Forall_nil|]. split; [apply distanceb_ok; calc|]. vm_compute. discriminate.
Qed.
