(** The stabilizer-code properties that concern the binary representation only
    (C01, C02, C04, C06-C12, C21-C24, C27).  Specification: RankSpec.v, CodesSpec.v.
    Model: CodesModel.v.  Each theorem is followed by cases meeting its hypotheses. *)
From Verif Require Import Py ZMat CodesModel RankSpec CodesSpec CodesProofs CodesProofs2 ConcatProofs.
Open Scope nat_scope.

(** ** Concrete codes used as witnesses *)
Definition rows_of (l : list pystr) : list (list Z) :=
  match pauli_str_to_binary_representation l with Ok M => zd M | Err _ => [] end.
Definition five_qubit : list pystr := [str "XZZXI"; str "IXZZX"; str "XIXZZ"; str "ZXIXZ"].
Definition steane : list pystr :=
  [str "IIIXXXX"; str "IXXIIXX"; str "XIXIXIX"; str "IIIZZZZ"; str "IZZIIZZ"; str "ZIZIZIZ"].
Definition rep3 : list pystr := [str "ZZI"; str "IZZ"].
Definition four2 : list pystr := [str "XXXX"; str "ZZZZ"].

Lemma decide_commute n u v : Z.even (symp n u v) = true -> commute n u v.
Proof. intros H. apply Z.even_spec in H. destruct H as [q E]. exists q. rewrite E. ring. Qed.
Lemma decide_not_commute n u v : Z.odd (symp n u v) = true -> ~ commute n u v.
Proof. intros H [q E]. rewrite E, Z.mul_comm, Z.odd_mul in H. discriminate. Qed.
Lemma decide_letters p : forallb (fun c => existsb (Ascii.eqb c) (str "IXYZ")) p = true -> Forall pauli_letter p.
Proof.
  intros H. apply Forall_forall. intros c Hc. rewrite forallb_forall in H. specialize (H c Hc). cbn in H.
  repeat (apply orb_true_iff in H; destruct H as [H|H]; [apply Ascii.eqb_eq in H; unfold pauli_letter; tauto|]). discriminate.
Qed.
Ltac valid := apply validb_ok; vm_compute; reflexivity.
Ltac run := vm_compute; reflexivity.

(** ** C01 *)
Theorem C01_string_roundtrip l n : l <> [] -> Forall (fun p => length p = n /\ Forall pauli_letter p) l ->
  exists M, pauli_str_to_binary_representation l = Ok M /\ zr M = length l /\ zc M = 2 * n /\ wf M /\
    mapM binary_rep_to_pauli_str (zd M) = Ok l.
Proof. exact (string_roundtrip l n). Qed.
Print Assumptions C01_string_roundtrip.
Example C01_case : five_qubit <> [] /\ Forall (fun p => length p = 5 /\ Forall pauli_letter p) five_qubit.
Proof.
  split; [discriminate|]. apply Forall_forall. cbn [five_qubit In].
  intros p Hp. repeat (destruct Hp as [<-|Hp]); [..|destruct Hp]; (split; [reflexivity|]);
    apply decide_letters; reflexivity.
Qed.

(** ** C02 *)
Theorem C02_rows_roundtrip rows n : rows <> [] -> Forall (fun r => length r = 2 * n) rows -> Forall binary rows ->
  exists l, mapM binary_rep_to_pauli_str rows = Ok l /\ length l = length rows /\
    pauli_str_to_binary_representation l = Ok (ZM (length rows) (2 * n) rows).
Proof. exact (rows_roundtrip rows n). Qed.
Print Assumptions C02_rows_roundtrip.
Theorem C02_strings_accepted_iff p0 l :
  (exists M, pauli_str_to_binary_representation (p0 :: l) = Ok M) <-> Forall (readable (length p0)) (p0 :: l).
Proof. exact (string_conversion_iff p0 l). Qed.
Print Assumptions C02_strings_accepted_iff.
(** the first offending string p decides the exception *)
Theorem C02_strings_errors p0 l1 p l2 : Forall (readable (length p0)) l1 -> p0 :: tl (l1 ++ p :: l2) = l1 ++ p :: l2 ->
  ((exists i, i < length p0 /\ i < length p /\ Forall pauli_letter (firstn i p) /\ ~ pauli_letter (nth i p "I"%char)) ->
     pauli_str_to_binary_representation (l1 ++ p :: l2) = Err ValueError) /\
  (length p < length p0 -> Forall pauli_letter p -> pauli_str_to_binary_representation (l1 ++ p :: l2) = Err IndexError).
Proof. exact (string_conversion_error p0 l1 p l2). Qed.
Print Assumptions C02_strings_errors.
Example C02_case_rows : rows_of steane <> [] /\ Forall (fun r => length r = 2 * 7) (rows_of steane) /\ Forall binary (rows_of steane).
Proof.
  split; [discriminate|]. assert (V : valid_generators 7 1 (rows_of steane)) by valid.
  destruct V as (_ & _ & L & B & _). auto.
Qed.
Example C02_case_bad_letter : pauli_str_to_binary_representation [str "XZ"; str "XQ"] = Err ValueError.
Proof. reflexivity. Qed.
Example C02_case_short : pauli_str_to_binary_representation [str "XZ"; str "X"] = Err IndexError.
Proof. reflexivity. Qed.
Example C02_case_long : exists M, pauli_str_to_binary_representation [str "XZ"; str "XYQQ"] = Ok M /\ zd M = [[1; 0; 0; 1]; [1; 1; 0; 1]]%Z.
Proof. eexists; split; reflexivity. Qed.

(** ** C04 *)
Theorem C04_inner_prod_symmetric n a b : length a = 2 * n -> length b = 2 * n -> inner_prod a b = inner_prod b a.
Proof. exact (inner_prod_sym n a b). Qed.
Theorem C04_inner_prod_alternating n a : length a = 2 * n -> inner_prod a a = 0%Z.
Proof. exact (inner_prod_self n a). Qed.
Theorem C04_inner_prod_additive n a b c : length a = 2 * n -> length b = 2 * n -> length c = 2 * n ->
  inner_prod (map (fun xy => (fst xy + snd xy) mod 2)%Z (combine a b)) c = ((inner_prod a c + inner_prod b c) mod 2)%Z.
Proof. exact (inner_prod_add n a b c). Qed.
Theorem C04_commutes_with_generated n rows u v :
  (forall r, In r rows -> commute n r v) -> in_rowspace n rows u -> commute n u v.
Proof. exact (commute_rowspace n rows u v). Qed.
(** inner_prod computes the symplectic product of the specification *)
Theorem C04_inner_prod_value n u v : length u = 2 * n -> length v = 2 * n -> inner_prod u v = (symp n u v mod 2)%Z.
Proof. exact (inner_prod_symp n u v). Qed.
Print Assumptions C04_inner_prod_symmetric.
Print Assumptions C04_inner_prod_alternating.
Print Assumptions C04_inner_prod_additive.
Print Assumptions C04_commutes_with_generated.
Print Assumptions C04_inner_prod_value.
Example C04_case : inner_prod [1; 0; 0; 1]%Z [0; 0; 1; 0]%Z = 1%Z /\ inner_prod [1; 0; 0; 1]%Z [1; 1; 1; 0]%Z = 0%Z.
Proof. split; reflexivity. Qed.

(** ** C06 *)
Theorem C06_rejects r0 l n k ops : Forall (fun r => length r = length r0) l ->
  length r0 <> 2 * n \/ S (length l) <> n - k \/ ~ all_commute n (r0 :: l) ->
  init (Rows (r0 :: l)) n k ops = Err AssertionError.
Proof. exact (init_rejects r0 l n k ops). Qed.
Theorem C06_accepted_commute g n k ops c : init g n k ops = Ok c -> all_commute n (zd (stab c)).
Proof. exact (init_commutes g n k ops c). Qed.
Theorem C06_accepted_rows l n k ops c : init (Rows l) n k ops = Ok c ->
  zd (stab c) = l /\ length l = n - k /\ Forall (fun r => length r = 2 * n) l.
Proof. exact (init_rows_stab l n k ops c). Qed.
Print Assumptions C06_rejects.
Print Assumptions C06_accepted_commute.
Print Assumptions C06_accepted_rows.
Example C06_case_anticommuting : ~ all_commute 1 [[1; 0]; [0; 1]]%Z.
Proof. intros H. refine (decide_not_commute 1 [1; 0]%Z [0; 1]%Z _ _); [reflexivity|]. apply H; simpl; auto. Qed.
Example C06_case_accepted : exists c, init (Rows (rows_of five_qubit)) 5 1 None = Ok c.
Proof. eexists. run. Qed.

(** ** C07 *)
Theorem C07_normal_form_same_code g n k ops c : init g n k ops = Ok c -> Forall binary (zd (stab c)) ->
  length (zd (normal_form c)) = length (zd (stab c)) /\
  Forall (fun r => length r = 2 * n) (zd (normal_form c)) /\ Forall binary (zd (normal_form c)) /\
  all_commute n (zd (normal_form c)) /\
  exists p, qubit_perm n p /\
    forall v, in_rowspace n (map (relabel n p) (zd (stab c))) v <-> in_rowspace n (zd (normal_form c)) v.
Proof. exact (normal_form_same_code g n k ops c). Qed.
Print Assumptions C07_normal_form_same_code.
Example C07_case : exists c, init (Rows (rows_of steane)) 7 1 None = Ok c /\ valid_generators 7 1 (zd (stab c)).
Proof. eexists; split; [run|]. valid. Qed.

(** ** C08: the block shape.  With [ops = None] acceptance already implies that
    matrix_rank agreed with the GF(2) rank (see C09). *)
Theorem C08_normal_form_blocks g n k ops c : init g n k ops = Ok c -> valid_generators n k (zd (stab c)) ->
  (ops = None \/ is_rank 2 n (x_parts n (zd (stab c))) (crank c)) ->
  let r := crank c in let E := entry (zd (normal_form c)) in
  r <= n - k /\ is_rank 2 n (x_parts n (zd (stab c))) r /\ length (zd (normal_form c)) = n - k /\
  (forall i j, i < r -> j < r -> E i j = if Nat.eqb i j then 1%Z else 0%Z) /\
  (forall i j, r <= i < n - k -> j < n -> E i j = 0%Z) /\
  (forall i j, r <= i < n - k -> r <= j < n - k -> E i (n + j) = if Nat.eqb i j then 1%Z else 0%Z).
Proof. exact (normal_form_blocks g n k ops c). Qed.
Print Assumptions C08_normal_form_blocks.
Example C08_case : exists c, init (Strings steane) 7 1 None = Ok c /\ valid_generators 7 1 (zd (stab c)) /\ crank c = 3.
Proof. eexists; split; [run|]. split; [valid|run]. Qed.

(** ** C09: the claim is false; the constructor succeeds exactly when the rank over
    the rationals (what matrix_rank computes) is the GF(2) rank of the X block. *)
Theorem C09_refuted : exists rows, valid_generators 4 1 rows /\ init (Rows rows) 4 1 None = Err AssertionError.
Proof. exists (rows_of [str "XXII"; str "XIXI"; str "IXXZ"]). split; [valid|run]. Qed.
Theorem C09_accepts_iff_partial rows n k : valid_generators n k rows ->
  (exists r, is_rank 0 n (x_parts n rows) r /\ is_rank 2 n (x_parts n rows) r /\
             exists c, init (Rows rows) n k None = Ok c) \/
  (exists r r', is_rank 0 n (x_parts n rows) r /\ is_rank 2 n (x_parts n rows) r' /\ r' < r /\
             init (Rows rows) n k None = Err AssertionError).
Proof. exact (constructor_accepts_iff rows n k). Qed.
Print Assumptions C09_refuted.
Print Assumptions C09_accepts_iff_partial.
Example C09_case : valid_generators 5 1 (rows_of five_qubit) /\ valid_generators 4 2 (rows_of four2).
Proof. split; valid. Qed.

(** ** C10 *)
Theorem C10_logical_relations g n k c : init g n k None = Ok c -> valid_generators n k (zd (stab c)) ->
  length (zd (logical_x c)) = k /\ length (zd (logical_z c)) = k /\
  (forall l, In l (zd (logical_x c)) \/ In l (zd (logical_z c)) -> length l = 2 * n /\ binary l) /\
  (forall l r, In l (zd (logical_x c)) \/ In l (zd (logical_z c)) -> In r (zd (normal_form c)) -> commute n l r) /\
  (forall i j, i < k -> j < k ->
     (commute n (nth i (zd (logical_x c)) []) (nth j (zd (logical_z c)) []) <-> i <> j) /\
     commute n (nth i (zd (logical_x c)) []) (nth j (zd (logical_x c)) []) /\
     commute n (nth i (zd (logical_z c)) []) (nth j (zd (logical_z c)) [])).
Proof. exact (logical_relations g n k c). Qed.
Print Assumptions C10_logical_relations.
Example C10_case : exists c, init (Strings four2) 4 2 None = Ok c /\ valid_generators 4 2 (zd (stab c)) /\ length (zd (logical_x c)) = 2.
Proof. eexists; split; [run|]. split; [valid|run]. Qed.

(** ** C11: false when the normal form permutes qubits; true after undoing the
    permutation, hence whenever the given rows lie in the normal form's row space. *)
Theorem C11_refuted : exists c l r, init (Strings [str "IZ"]) 2 1 None = Ok c /\ valid_generators 2 1 (zd (stab c)) /\
  In l (zd (logical_x c)) /\ In r (zd (stab c)) /\ ~ commute 2 l r.
Proof.
  destruct (init (Strings [str "IZ"]) 2 1 None) as [c|e] eqn:E; [|vm_compute in E; discriminate].
  vm_compute in E. injection E as <-. eexists _, [0; 1; 0; 0]%Z, [0; 0; 0; 1]%Z. split; [reflexivity|].
  split; [valid|]. cbn. split; [auto|]. split; [auto|]. apply decide_not_commute. reflexivity.
Qed.
Theorem C11_relabelled_partial g n k c : init g n k None = Ok c -> valid_generators n k (zd (stab c)) ->
  exists p, qubit_perm n p /\
    (forall v, in_rowspace n (map (relabel n p) (zd (stab c))) v <-> in_rowspace n (zd (normal_form c)) v) /\
    forall l r, In l (zd (logical_x c)) \/ In l (zd (logical_z c)) -> In r (zd (stab c)) -> commute n (relabel n p r) l.
Proof. exact (logical_commute_relabelled g n k c). Qed.
Theorem C11_same_rowspace_partial g n k c : init g n k None = Ok c -> valid_generators n k (zd (stab c)) ->
  (forall r, In r (zd (stab c)) -> in_rowspace n (zd (normal_form c)) r) ->
  forall l r, In l (zd (logical_x c)) \/ In l (zd (logical_z c)) -> In r (zd (stab c)) -> commute n l r.
Proof. exact (logical_commute_same_rowspace g n k c). Qed.
Print Assumptions C11_refuted.
Print Assumptions C11_relabelled_partial.
Print Assumptions C11_same_rowspace_partial.
Example C11_case : exists c, init (Strings four2) 4 2 None = Ok c /\ forall r, In r (zd (stab c)) -> In r (zd (normal_form c)).
Proof. eexists; split; [run|]. cbn. tauto. Qed.

(** ** C12 *)
Theorem C12_normaliser_complete g n k c : init g n k None = Ok c -> valid_generators n k (zd (stab c)) ->
  (forall v, length v = 2 * n -> (forall r, In r (zd (normal_form c)) -> commute n r v) ->
     in_rowspace n (zd (normal_form c) ++ zd (logical_x c) ++ zd (logical_z c)) v) /\
  indep 2 (2 * n) (zd (normal_form c) ++ zd (logical_x c) ++ zd (logical_z c)) /\
  (forall v, in_rowspace n (zd (logical_x c) ++ zd (logical_z c)) v -> in_rowspace n (zd (normal_form c)) v ->
     forall j, j < 2 * n -> (2 | nth j v 0)%Z).
Proof. exact (normaliser_complete g n k c). Qed.
Print Assumptions C12_normaliser_complete.
Example C12_case : exists c, init (Strings five_qubit) 5 1 None = Ok c /\ valid_generators 5 1 (zd (stab c)).
Proof. eexists; split; [run|valid]. Qed.

(** ** C21: never returns; and even with the missing method the loop would collect
    N(S), generators included, not N(S) - S. *)
Theorem C21_refuted g n k ops c : init g n k ops = Ok c ->
  normalizer c = Err AttributeError /\ undetectable_errors c = Err AttributeError.
Proof. exact (normalizer_fails g n k ops c). Qed.
Theorem C21_repaired_partial attrs g n k ops c : In (str "_commute") attrs -> init g n k ops = Ok c ->
  exists l, normalizer_with attrs c = Ok l /\
    forall v, In v l <-> length v = 2 * n /\ binary v /\ forall r, In r (zd (stab c)) -> commute n r v.
Proof. exact (normalizer_repaired attrs g n k ops c). Qed.
Print Assumptions C21_refuted.
Print Assumptions C21_repaired_partial.
Example C21_case : exists c, init (Strings rep3) 3 1 None = Ok c /\ normalizer c = Err AttributeError.
Proof. eexists; split; run. Qed.

(** ** C22: concatenation with an [[m,1]] code.  The code uses the X part of
    logical_x and the Z part of logical_z only; for an X-only logical_x and a
    Z-only logical_z, [x_only m lx = lx] and [z_only m lz = lz]. *)
Theorem C22_concatenation_rows g1 g2 o1 o2 n k m c1 c2 lx lz :
  init g1 n k o1 = Ok c1 -> init g2 m 1 o2 = Ok c2 ->
  valid_generators n k (zd (stab c1)) -> valid_generators m 1 (zd (stab c2)) ->
  nth_error (zd (logical_x c2)) 0 = Some lx -> nth_error (zd (logical_z c2)) 0 = Some lz ->
  length lx = 2 * m -> length lz = 2 * m -> binary lx -> binary lz ->
  (forall r, In r (zd (stab c2)) -> commute m r (x_only m lx) /\ commute m r (z_only m lz)) ->
  ~ commute m (x_only m lx) (z_only m lz) ->
  exists rows, valid_generators (n * m) k rows /\
    concatenate_codes c1 c2 = (do c <- init (Rows rows) (n * m) k None; Ok (Some c)).
Proof. exact (concat1_valid g1 g2 o1 o2 n k m c1 c2 lx lz). Qed.
Print Assumptions C22_concatenation_rows.
Example C22_case : exists c1 c2 lx lz, init (Strings five_qubit) 5 1 None = Ok c1 /\ init (Strings rep3) 3 1 None = Ok c2 /\
  valid_generators 5 1 (zd (stab c1)) /\ valid_generators 3 1 (zd (stab c2)) /\
  nth_error (zd (logical_x c2)) 0 = Some lx /\ nth_error (zd (logical_z c2)) 0 = Some lz /\
  (forall r, In r (zd (stab c2)) -> commute 3 r (x_only 3 lx) /\ commute 3 r (z_only 3 lz)) /\
  ~ commute 3 (x_only 3 lx) (z_only 3 lz).
Proof.
  eexists _, _, _, _. split; [run|]. split; [run|]. split; [valid|]. split; [valid|].
  split; [reflexivity|]. split; [reflexivity|]. split; [|apply decide_not_commute; reflexivity].
  cbn [zd stab]. intros r [<-|[<-|[]]]; split; apply decide_commute; reflexivity.
Qed.

(** ** C23: concatenate_codes returns None instead of raising. *)
Theorem C23_refuted c1 c2 : 2 <= ck c2 -> cn c1 mod ck c2 <> 0 -> concatenate_codes c1 c2 = Ok None.
Proof. exact (concat_not_dividing c1 c2). Qed.
Print Assumptions C23_refuted.
Example C23_case : exists c1 c2, init (Strings rep3) 3 1 None = Ok c1 /\ init (Strings four2) 4 2 None = Ok c2 /\
  2 <= ck c2 /\ cn c1 mod ck c2 <> 0.
Proof. eexists _, _. split; [run|]. split; [run|]. cbn. lia. Qed.

(** ** C24 *)
Theorem C24_refuted : exists c, init (Strings five_qubit) 5 1 None = Ok c /\ valid_generators 5 1 (zd (stab c)) /\
  concatenate_codes c c = Err AssertionError.
Proof. eexists; split; [run|]. split; [valid|]. run. Qed.
Print Assumptions C24_refuted.

(** ** C27: false when logical operators are supplied; without them the number of
    strings is enforced, by other exceptions than the documented one. *)
Theorem C27_refuted : exists ops c, init (Strings [str "ZZI"; str "IZZ"; str "ZIZ"]) 3 1 (Some ops) = Ok c.
Proof.
  eexists (ZM 1 6 [[1; 1; 1; 0; 0; 0]]%Z, ZM 1 6 [[0; 0; 0; 1; 1; 1]]%Z), _. run.
Qed.
Theorem C27_exception_refuted : init (Strings [str "ZZI"; str "IZZ"; str "ZIZ"]) 3 1 None = Err ValueError.
Proof. run. Qed.
Theorem C27_count_enforced_partial l n k c :
  init (Strings l) n k None = Ok c -> length l = n - k.
Proof. exact (strings_count_checked_without_ops l n k c). Qed.
Print Assumptions C27_exception_refuted.
Print Assumptions C27_refuted.
Print Assumptions C27_count_enforced_partial.
Example C27_case : exists c, init (Strings five_qubit) 5 1 None = Ok c.
Proof. eexists; run. Qed.
