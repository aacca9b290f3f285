(** Proofs of C04 and C06-C12: from the boolean level to the statements. *)
From Verif Require Import Py ZMat CodesModel RankSpec CodesSpec BoolLin Rank Gauss Gauss2 Logical.
Open Scope nat_scope.

Definition brows (rows : list (list Z)) (i : nat) : nat -> bool := brow (nth i rows []).

(** ** Bridges *)
Lemma Forall2_length {A B} {R : A -> B -> Prop} {l l'} : Forall2 R l l' -> length l = length l'.
Proof. intros H; induction H; simpl; congruence. Qed.

Lemma fold_add_zsum (g : nat -> Z) m : fold_right Z.add 0%Z (map g (seq 0 m)) = zsum m g.
Proof.
  assert (A : forall l l', fold_right Z.add 0%Z (l ++ l') = (fold_right Z.add 0 l + fold_right Z.add 0 l')%Z).
  { induction l as [|x l IH]; intros l'; cbn [fold_right app]; [reflexivity|]. rewrite IH; lia. }
  induction m as [|m IH]; [reflexivity|]. rewrite seq_S, map_app, A, IH. cbn [map fold_right zsum Nat.add]. lia.
Qed.

Lemma symp_zsum n u v : symp n u v = zsum n (fun j => nth j u 0 * nth (n + j) v 0 + nth (n + j) u 0 * nth j v 0)%Z.
Proof. apply fold_add_zsum. Qed.

Lemma odd_symp n u v : Z.odd (symp n u v) = ip n (brow u) (brow v).
Proof.
  rewrite symp_zsum, odd_zsum. apply xsum_ext; intros j Hj.
  rewrite Z.odd_add, !Z.odd_mul. reflexivity.
Qed.

Lemma commute_ip n u v : commute n u v <-> ip n (brow u) (brow v) = false.
Proof. unfold commute. rewrite divide2_odd, odd_symp. reflexivity. Qed.

Lemma zsum_add m f g : zsum m (fun i => f i + g i)%Z = (zsum m f + zsum m g)%Z.
Proof. induction m as [|m IH]; cbn [zsum]; [reflexivity|]. rewrite IH; lia. Qed.
Lemma zsum_S_l m f : zsum (S m) f = (f O + zsum m (fun i => f (S i)))%Z.
Proof. induction m as [|m IH]; [cbn [zsum]; lia|]. cbn [zsum] in *. rewrite IH. lia. Qed.

Lemma dotl_zsum a b m : length a = m -> length b = m -> dotl a b = zsum m (fun i => nth i a 0 * nth i b 0)%Z.
Proof.
  revert b m; induction a as [|x a IH]; intros [|y b] m La Lb; simpl in La, Lb; subst m; try discriminate; [reflexivity|].
  rewrite zsum_S_l. cbn [dotl nth]. rewrite (IH b (length a)) by lia. reflexivity.
Qed.

Lemma nth_firstn {A} m (l : list A) i d : i < m -> nth i (firstn m l) d = nth i l d.
Proof.
  revert l i; induction m as [|m IH]; intros [|x l] [|i] H; simpl; try lia; try reflexivity. apply IH; lia.
Qed.
Lemma nth_skipn {A} m (l : list A) i d : nth i (skipn m l) d = nth (m + i) l d.
Proof.
  revert l; induction m as [|m IH]; intros [|x l]; simpl; try reflexivity; [destruct i; reflexivity|apply IH].
Qed.

Lemma div2_double n : Nat.div (2 * n) 2 = n.
Proof. rewrite Nat.mul_comm. apply Nat.div_mul. lia. Qed.

Lemma inner_prod_symp n u v : length u = 2 * n -> length v = 2 * n ->
  inner_prod u v = (symp n u v mod 2)%Z.
Proof.
  intros Lu Lv. unfold inner_prod. rewrite Lu, div2_double, symp_zsum. f_equal. rewrite zsum_add.
  f_equal; rewrite (dotl_zsum _ _ n) by (rewrite ?firstn_length, ?skipn_length; lia);
    apply zsum_ext; intros i Hi; rewrite nth_firstn, nth_skipn by exact Hi; reflexivity.
Qed.

Lemma inner_prod_ip n u v : length u = 2 * n -> length v = 2 * n ->
  inner_prod u v = Z.b2z (ip n (brow u) (brow v)).
Proof.
  intros Lu Lv. rewrite (inner_prod_symp n) by assumption. rewrite Zmod_odd, odd_symp. destruct (ip n _ _); reflexivity.
Qed.

Lemma in_rowspace_b n rows v : in_rowspace n rows v <-> inspan (brows rows) (length rows) (2 * n) (brow v).
Proof.
  split.
  - intros (c & Lc & H). exists (fun i => Z.odd (nth i c 0%Z)). intros j Hj.
    specialize (H j Hj). rewrite divide2_odd, Z.odd_sub, odd_lcomb in H by exact Lc.
    unfold comb, brow at 1. apply xorb_eq in H. exact H.
  - intros (a & Ha). exists (map (fun i => Z.b2z (a i)) (seq 0 (length rows))).
    split; [rewrite map_length, seq_length; reflexivity|]. intros j Hj.
    rewrite divide2_odd, Z.odd_sub, odd_lcomb by (rewrite map_length, seq_length; reflexivity).
    specialize (Ha j Hj). unfold brow at 1 in Ha. rewrite Ha. unfold comb.
    rewrite (xsum_ext _ (fun i => Z.odd (nth i (map _ _) 0%Z) && _) (fun i => a i && brows rows i j)).
    + apply xorb_nilpotent.
    + intros i Hi. rewrite (nth_map_seq (fun i => Z.b2z (a i))) by exact Hi.
      unfold brows, brow. destruct (a i); reflexivity.
Qed.

Lemma bz_brows M i j : bz M i j = brows (zd M) i j.
Proof. reflexivity. Qed.

Lemma in_nth_brow n rows : (forall u v, In u rows -> In v rows -> commute n u v) <->
  (forall i j, i < length rows -> j < length rows -> ip n (brows rows i) (brows rows j) = false).
Proof.
  split.
  - intros H i j Hi Hj. apply commute_ip, H; apply nth_In; assumption.
  - intros H u v Hu Hv. apply (In_nth _ _ []) in Hu, Hv. destruct Hu as (i & Hi & <-), Hv as (j & Hj & <-).
    apply commute_ip. apply H; assumption.
Qed.

Lemma okm_rows n rows : Forall (fun r => length r = 2 * n) rows -> Forall binary rows ->
  okm n (length rows) (ZM (length rows) (2 * n) rows).
Proof.
  intros L B. split; [split; [reflexivity|exact L]|]. split; [reflexivity|]. split; [reflexivity|].
  intros i j Hi Hj. simpl in Hi, Hj. unfold get; simpl. rewrite Forall_forall in L, B.
  assert (Hin : In (nth i rows []) rows) by (apply nth_In; exact Hi).
  specialize (B _ Hin). unfold binary in B. rewrite Forall_forall in B. apply B. apply nth_In. rewrite (L _ Hin). exact Hj.
Qed.

Lemma okm_spec n s M : okm n s M ->
  length (zd M) = s /\ Forall (fun r => length r = 2 * n) (zd M) /\ Forall binary (zd M).
Proof.
  intros ((L & W) & Z & C & B). split; [lia|]. split; [rewrite <- C; exact W|].
  rewrite Forall_forall in *. intros r Hr. specialize (W r Hr). apply (In_nth _ _ []) in Hr. destruct Hr as (i & Hi & E).
  apply Forall_forall. intros x Hx. apply (In_nth _ _ 0%Z) in Hx. destruct Hx as (j & Hj & <-).
  specialize (B i j ltac:(lia) ltac:(lia)). unfold get in B. rewrite E in B. exact B.
Qed.

(** ** What a successful construction computes *)
Lemma forallb_seq (P : nat -> bool) m : forallb P (seq 0 m) = true <-> forall i, i < m -> P i = true.
Proof. rewrite forallb_forall. split; intros H i Hi; apply H; [apply in_seq; lia|apply in_seq in Hi; lia]. Qed.

Lemma is_stab_iff n s M : wf M -> zr M = s -> zc M = 2 * n -> (is_stabilizer_code M = true <-> commuting n s (bz M)).
Proof.
  intros (L & W) Z C. unfold is_stabilizer_code. rewrite Z, forallb_seq.
  assert (Lr : forall i, i < s -> length (zrow M i) = 2 * n).
  { intros i Hi. rewrite Forall_forall in W. rewrite W; [exact C|]. apply nth_In. lia. }
  split.
  - intros H i j Hi Hj. specialize (H i Hi). rewrite forallb_seq in H. specialize (H j Hj).
    destruct (Nat.eqb_spec i j) as [->|Hne]; [apply ip_self|]. cbn [negb] in H.
    rewrite (inner_prod_ip n) in H by (apply Lr; assumption).
    change (bz M i) with (brow (zrow M i)). change (bz M j) with (brow (zrow M j)).
    destruct (ip n _ _); [discriminate|reflexivity].
  - intros H i Hi. rewrite forallb_seq. intros j Hj. destruct (Nat.eqb_spec i j) as [->|Hne]; [reflexivity|].
    cbn [negb]. rewrite (inner_prod_ip n) by (apply Lr; assumption).
    specialize (H i j Hi Hj). change (bz M i) with (brow (zrow M i)) in H. change (bz M j) with (brow (zrow M j)) in H.
    rewrite H; reflexivity.
Qed.

Lemma all_commute_iff n M : wf M -> (all_commute n (zd M) <-> commuting n (zr M) (bz M)).
Proof. intros (L & _). unfold all_commute. rewrite in_nth_brow, L. reflexivity. Qed.

Lemma pauli_row_len n p row : pauli_row n p = Ok row -> length row = 2 * n /\ binary row.
Proof.
  unfold pauli_row. intros H. apply bind_ok in H. destruct H as (bits & Hb & E). injection E as <-.
  apply mapM_ok in Hb. split.
  - rewrite app_length, !map_length. apply Forall2_length in Hb. rewrite seq_length in Hb. lia.
  - assert (HB : Forall (fun xz : Z * Z => (fst xz = 0 \/ fst xz = 1)%Z /\ (snd xz = 0 \/ snd xz = 1)%Z) bits).
    { clear - Hb. induction Hb as [|j b l l' Hj Hl IH]; constructor; [|exact IH].
      destruct (nth_error p j) as [c|]; [|discriminate]. unfold char_bits in Hj.
      repeat match type of Hj with (if ?b then _ else _) = _ => destruct b end;
        try discriminate; injection Hj as <-; simpl; auto. }
    unfold binary. apply Forall_app; split; apply Forall_forall; intros x Hx; apply in_map_iff in Hx;
      destruct Hx as (b & <- & Hin); rewrite Forall_forall in HB; apply HB; exact Hin.
Qed.

Lemma pauli_mat_ok l M : pauli_str_to_binary_representation l = Ok M ->
  wf M /\ zr M = length l /\ (exists p0 l', l = p0 :: l' /\ zc M = 2 * length p0) /\ Forall binary (zd M).
Proof.
  destruct l as [|p0 l']; [discriminate|]. unfold pauli_str_to_binary_representation.
  intros H. apply bind_ok in H. destruct H as (rows & Hr & E). injection E as <-.
  apply mapM_ok in Hr. simpl. pose proof (Forall2_length Hr) as L. simpl in L.
  assert (A : Forall (fun r => length r = 2 * length p0 /\ binary r) rows).
  { clear L. revert Hr. generalize (p0 :: l') as q. intros q Hr. induction Hr as [|p row q rows Hp Hq IH]; constructor; [|exact IH].
    apply pauli_row_len in Hp. exact Hp. }
  split; [split; simpl; [lia|]|].
  - eapply Forall_impl; [|exact A]. intros r [Hr' _]; simpl; lia.
  - split; [lia|]. split; [exists p0, l'; split; [reflexivity|simpl; lia]|].
    eapply Forall_impl; [|exact A]. intros r [_ Hr']; exact Hr'.
Qed.

(** the constructor's output in terms of its body *)
Lemma init_inv g n k ops c : init g n k ops = Ok c ->
  exists M, wf M /\ zr M = zr (stab c) /\ zc M = 2 * n /\ stab c = M /\ k <= n /\ 0 < zr M /\
    init_body M n k ops = Ok c /\
    match g with
    | Rows l => zd M = l /\ length l = n - k
    | Strings l => pauli_str_to_binary_representation l = Ok M /\ Forall binary (zd M)
    end.
Proof.
  assert (HB : forall M, init_body M n k ops = Ok c -> stab c = M).
  { intros M H. unfold init_body in H. apply bind_ok in H; destruct H as (u & _ & H).
    apply bind_ok in H; destruct H as (ps & _ & H). apply bind_ok in H; destruct H as ([F rk] & _ & H).
    apply bind_ok in H; destruct H as (lo & _ & H). injection H as <-. reflexivity. }
  destruct g as [l|l]; unfold init.
  - intros H. apply bind_ok in H; destruct H as (M & HM & H).
    destruct (negb (is_stabilizer_code M)); [discriminate|].
    destruct (Nat.eqb_spec (zc M) (2 * n)) as [Ec|]; [|discriminate].
    destruct (Nat.leb_spec k n) as [Hk|]; [|discriminate]. cbn [andb] in H.
    destruct (pauli_mat_ok l M HM) as (W & Z & (p0 & l' & El & _) & B).
    exists M. pose proof (HB M H) as ES. rewrite ES.
    split; [exact W|]. split; [reflexivity|]. split; [exact Ec|]. split; [reflexivity|]. split; [exact Hk|].
    split; [rewrite Z, El; simpl; lia|]. split; [exact H|]. split; [exact HM|exact B].
  - destruct l as [|r0 l]; [discriminate|].
    destruct (forallb _ l) eqn:Ef; [|discriminate]. intros H.
    apply bind_ok in H; destruct H as (u & H1 & H). apply bind_ok in H; destruct H as (u' & H2 & H).
    unfold assert_ in H1, H2. destruct (Nat.eqb_spec (length r0) (2 * n)) as [E1|]; [|discriminate].
    destruct (Nat.eqb_spec (S (length l)) (n - k)) as [E2|]; [|discriminate].
    exists (ZM (S (length l)) (length r0) (r0 :: l)). pose proof (HB _ H) as ES. rewrite ES.
    split. { split; [reflexivity|]. constructor; [reflexivity|]. apply Forall_forall. rewrite forallb_forall in Ef.
             intros r Hr. apply Nat.eqb_eq, Ef, Hr. }
    split; [reflexivity|]. split; [exact E1|]. split; [reflexivity|]. split; [simpl in E2; lia|].
    split; [simpl; lia|]. split; [exact H|]. split; [reflexivity|exact E2].
Qed.

Lemma init_body_inv M n k ops c : init_body M n k ops = Ok c ->
  is_stabilizer_code M = true /\
  standard_normal_form n k M = Ok (normal_form c, crank c) /\
  match ops with
  | None => logical_operators n k (normal_form c) (crank c) = Ok (logical_x c, logical_z c)
  | Some (lx, lz) => logical_x c = lx /\ logical_z c = lz /\ zc lx = 2 * n /\ zc lz = 2 * n
  end /\ cn c = n /\ ck c = k /\ mapM binary_rep_to_pauli_str (zd M) = Ok (pauli_stab c).
Proof.
  intros H. unfold init_body in H. apply bind_ok in H; destruct H as (u & H0 & H).
  apply bind_ok in H; destruct H as (ps & Hps & H). apply bind_ok in H; destruct H as ([F rk] & HF & H).
  apply bind_ok in H; destruct H as ([lx lz] & Hl & H). injection H as <-. cbn.
  split. { destruct (is_stabilizer_code M); [reflexivity|discriminate]. }
  split; [exact HF|]. split; [|auto]. destruct ops as [[ox oz]|]; [|exact Hl].
  apply bind_ok in Hl; destruct Hl as (u1 & H1 & Hl). apply bind_ok in Hl; destruct Hl as (u2 & H2 & Hl).
  injection Hl as -> ->. unfold assert_ in H1, H2.
  destruct (Nat.eqb_spec (zc lx) (2 * n)); [|discriminate].
  destruct (Nat.eqb_spec (zc lz) (2 * n)); [|discriminate]. auto.
Qed.

(** ** C04 *)
Definition row_add (a b : list Z) : list Z := map (fun xy => (fst xy + snd xy) mod 2)%Z (combine a b).

Lemma nth_row_add a b j m : length a = m -> length b = m -> j < m ->
  nth j (row_add a b) 0%Z = ((nth j a 0 + nth j b 0) mod 2)%Z.
Proof.
  intros La Lb Hj. unfold row_add.
  set (h := fun xy : Z * Z => ((fst xy + snd xy) mod 2)%Z).
  rewrite (nth_indep _ 0%Z (h (0, 0)%Z)) by (rewrite map_length, combine_length; lia).
  rewrite map_nth. rewrite combine_nth by lia. reflexivity.
Qed.
Lemma length_row_add a b : length a = length b -> length (row_add a b) = length a.
Proof. intros; unfold row_add; rewrite map_length, combine_length; lia. Qed.

Lemma brow_row_add a b m j : length a = m -> length b = m -> j < m ->
  brow (row_add a b) j = xorb (brow a j) (brow b j).
Proof.
  intros; unfold brow. rewrite (nth_row_add a b j m) by assumption. rewrite odd_mod2, Z.odd_add. reflexivity.
Qed.

Lemma inner_prod_sym n a b : length a = 2 * n -> length b = 2 * n -> inner_prod a b = inner_prod b a.
Proof. intros; rewrite !(inner_prod_ip n) by assumption. rewrite ip_sym; reflexivity. Qed.
Lemma inner_prod_self n a : length a = 2 * n -> inner_prod a a = 0%Z.
Proof. intros; rewrite !(inner_prod_ip n) by assumption. rewrite ip_self; reflexivity. Qed.
Lemma inner_prod_add n a b c : length a = 2 * n -> length b = 2 * n -> length c = 2 * n ->
  inner_prod (row_add a b) c = ((inner_prod a c + inner_prod b c) mod 2)%Z.
Proof.
  intros La Lb Lc. rewrite !(inner_prod_ip n) by (assumption || (rewrite length_row_add; lia)).
  rewrite (ip_ext n (brow (row_add a b)) (fun j => xorb (brow a j) (brow b j)) (brow c) (brow c)); [|intros; apply (brow_row_add a b (2 * n)); assumption|auto].
  rewrite ip_xor_l. destruct (ip n (brow a) _), (ip n (brow b) _); reflexivity.
Qed.

(** commuting with generators = commuting with what they generate *)
Lemma commute_rowspace n rows u v : (forall r, In r rows -> commute n r v) -> in_rowspace n rows u -> commute n u v.
Proof.
  intros H Hu. apply in_rowspace_b in Hu. destruct Hu as (a & Ha). apply commute_ip.
  rewrite (ip_ext n (brow u) (comb (length rows) a (brows rows)) (brow v) (brow v)) by (auto || exact Ha).
  rewrite ip_comb_l. apply xsum_zero; intros i Hi.
  assert (E : ip n (brows rows i) (brow v) = false) by (apply commute_ip, H, nth_In; exact Hi).
  rewrite E. apply andb_false_r.
Qed.

(** ** C06 *)
Lemma init_rejects r0 l n k ops : Forall (fun r => length r = length r0) l ->
  length r0 <> 2 * n \/ S (length l) <> n - k \/ ~ all_commute n (r0 :: l) ->
  init (Rows (r0 :: l)) n k ops = Err AssertionError.
Proof.
  intros L H. unfold init.
  replace (forallb (fun r => length r =? length r0) l) with true.
  2:{ symmetry. apply forallb_forall. rewrite Forall_forall in L. intros r Hr. apply Nat.eqb_eq, L, Hr. }
  destruct (Nat.eqb_spec (length r0) (2 * n)) as [E1|]; [|reflexivity].
  destruct (Nat.eqb_spec (S (length l)) (n - k)) as [E2|]; [|reflexivity].
  unfold assert_ at 1 2. cbn [bind]. unfold init_body.
  set (M := ZM (S (length l)) (length r0) (r0 :: l)).
  assert (W : wf M).
  { split; [reflexivity|]. constructor; [reflexivity|exact L]. }
  destruct (is_stabilizer_code M) eqn:Es; [|reflexivity]. exfalso.
  apply (is_stab_iff n (S (length l)) M W eq_refl E1) in Es. apply (all_commute_iff n M W) in Es.
  destruct H as [H|[H|H]]; [lia|lia|apply H; exact Es].
Qed.

Lemma init_commutes g n k ops c : init g n k ops = Ok c -> all_commute n (zd (stab c)).
Proof.
  intros H. destruct (init_inv _ _ _ _ _ H) as (M & W & Z & C & E & Hk & Hp & HB & _).
  apply init_body_inv in HB. destruct HB as (Es & _). rewrite E. apply all_commute_iff; [exact W|].
  apply (is_stab_iff n (zr M) M W eq_refl C). exact Es.
Qed.

Lemma init_rows_stab l n k ops c : init (Rows l) n k ops = Ok c ->
  zd (stab c) = l /\ length l = n - k /\ Forall (fun r => length r = 2 * n) l.
Proof.
  intros H. destruct (init_inv _ _ _ _ _ H) as (M & W & Z & C & E & Hk & Hp & HB & El & Ll).
  rewrite E, El. split; [reflexivity|]. split; [exact Ll|]. destruct W as [_ W]. rewrite C, El in W. exact W.
Qed.

(** ** C07 *)
Lemma perm_inj n p q : perm n p q -> qubit_perm n p.
Proof.
  intros H; split.
  - intros i Hi; apply H; exact Hi.
  - intros i j Hi Hj E. destruct (H i Hi) as (_ & _ & _ & A). destruct (H j Hj) as (_ & _ & _ & B). congruence.
Qed.

Lemma brow_relabel n p row j : j < 2 * n -> brow (relabel n p row) j = brow row (lift n p j).
Proof. intros Hj. unfold brow, relabel. rewrite (nth_map_seq (fun j => nth _ row 0%Z)) by exact Hj. reflexivity. Qed.

Lemma brows_relabel n p rows i j : i < length rows -> j < 2 * n ->
  brows (map (relabel n p) rows) i j = brows rows i (lift n p j).
Proof.
  intros Hi Hj. unfold brows. rewrite (nth_indep _ [] (relabel n p [])) by (rewrite map_length; exact Hi).
  rewrite map_nth. apply brow_relabel; exact Hj.
Qed.

Lemma rel_rowspace n s M F : okm n s M -> okm n s F -> rel n s (bz M) (bz F) ->
  exists p, qubit_perm n p /\
    forall v, in_rowspace n (map (relabel n p) (zd M)) v <-> in_rowspace n (zd F) v.
Proof.
  intros HM HF (p & q & Hp & A & B). exists p. split; [eapply perm_inj; exact Hp|].
  destruct (okm_spec n s M HM) as (LM & _). destruct (okm_spec n s F HF) as (LF & _).
  intros v. rewrite !in_rowspace_b, map_length, LM, LF. split; intros H.
  - eapply inspan_trans; [exact H|]. intros i Hi. eapply inspan_ext; [|apply B; exact Hi].
    intros j Hj. rewrite brows_relabel by lia. reflexivity.
  - eapply inspan_trans; [exact H|]. intros i Hi.
    eapply inspan_ext_f; [|apply A; exact Hi]. intros l j Hl Hj. rewrite brows_relabel by lia. reflexivity.
Qed.

Lemma init_okm g n k ops c : init g n k ops = Ok c -> Forall binary (zd (stab c)) ->
  okm n (zr (stab c)) (stab c) /\ okm n (zr (stab c)) (normal_form c) /\
  rel n (zr (stab c)) (bz (stab c)) (bz (normal_form c)).
Proof.
  intros H B. destruct (init_inv _ _ _ _ _ H) as (M & W & Z & C & E & Hk & Hp & HB & _).
  rewrite E in *. apply init_body_inv in HB. destruct HB as (_ & HF & _).
  assert (OM : okm n (zr M) M).
  { destruct W as [L W]. rewrite C in W. pose proof (okm_rows n (zd M) W B) as O. rewrite L in O.
    replace M with (ZM (zr M) (2 * n) (zd M)); [exact O|]. destruct M; simpl in *; subst; reflexivity. }
  destruct (normal_form_rel n k (zr M) M _ _ OM HF) as [H1 H2]. auto.
Qed.

Theorem normal_form_same_code g n k ops c : init g n k ops = Ok c -> Forall binary (zd (stab c)) ->
  length (zd (normal_form c)) = length (zd (stab c)) /\
  Forall (fun r => length r = 2 * n) (zd (normal_form c)) /\ Forall binary (zd (normal_form c)) /\
  all_commute n (zd (normal_form c)) /\
  exists p, qubit_perm n p /\
    forall v, in_rowspace n (map (relabel n p) (zd (stab c))) v <-> in_rowspace n (zd (normal_form c)) v.
Proof.
  intros H B. destruct (init_okm _ _ _ _ _ H B) as (O1 & O2 & R).
  destruct (okm_spec _ _ _ O1) as (L1 & _ & _). destruct (okm_spec _ _ _ O2) as (L2 & W2 & B2).
  split; [lia|]. split; [exact W2|]. split; [exact B2|]. split.
  - pose proof O2 as (W & Z & _). apply all_commute_iff; [exact W|]. rewrite Z.
    eapply rel_commuting; [exact R|]. pose proof O1 as (W1 & _). apply all_commute_iff; [exact W1|].
    eapply init_commutes; exact H.
  - eapply rel_rowspace; eassumption.
Qed.

(** ** C08, C09 *)
Lemma valid_bool n k M : wf M -> zc M = 2 * n -> valid_generators n k (zd M) ->
  okm n (zr M) M /\ zr M = n - k /\ commuting n (zr M) (bz M) /\ indepb (bz M) (zr M) (2 * n).
Proof.
  intros W C (P & L & Lr & B & Cm & I). pose proof W as [LM _].
  split; [|split; [lia|split]].
  - pose proof (okm_rows n (zd M) Lr B) as O. rewrite LM in O.
    replace M with (ZM (zr M) (2 * n) (zd M)); [exact O|]. destruct M; simpl in *; subst; reflexivity.
  - apply all_commute_iff; assumption.
  - rewrite <- C. apply indep2_bz; [exact W|]. rewrite C. exact I.
Qed.

Lemma x_parts_xblock n M : wf M -> zc M = 2 * n -> zd (xblock n M) = x_parts n (zd M).
Proof.
  intros [L W] C. unfold xblock, slice, x_parts. simpl. rewrite Nat.min_id, C.
  replace (Nat.min n (2 * n) - 0) with n by lia. rewrite Nat.sub_0_r.
  apply (nth_ext _ _ [] []); [rewrite !map_length, seq_length; lia|].
  intros i Hi. rewrite map_length, seq_length in Hi.
  rewrite (nth_map_seq (fun i => mkrow n (fun j => get M (0 + i) (0 + j)))) by exact Hi.
  rewrite (nth_indep _ [] (firstn n [])) by (rewrite map_length; lia). rewrite map_nth.
  assert (Lr : length (nth i (zd M) []) = 2 * n).
  { rewrite Forall_forall in W. rewrite W; [exact C|apply nth_In; lia]. }
  apply (nth_ext _ _ 0%Z 0%Z); [rewrite length_mkrow, firstn_length; lia|].
  intros j Hj. rewrite length_mkrow in Hj. rewrite nth_mkrow, nth_firstn by exact Hj. reflexivity.
Qed.

Lemma zc_xblock n M : zc M = 2 * n -> zc (xblock n M) = n.
Proof. intros C; simpl; lia. Qed.

Lemma xblock_rank0 n M : wf M -> zc M = 2 * n -> is_rank 0 n (x_parts n (zd M)) (matrix_rank (xblock n M)).
Proof.
  intros W C. rewrite <- (x_parts_xblock n M W C). rewrite <- (zc_xblock n M C) at 1.
  apply matrix_rank_spec. apply wf_mk.
Qed.
Lemma xblock_rank2 n M : wf M -> zc M = 2 * n -> is_rank 2 n (x_parts n (zd M)) (gf2_rank (xblock n M)).
Proof.
  intros W C. rewrite <- (x_parts_xblock n M W C). rewrite <- (zc_xblock n M C) at 1.
  apply gf2_rank_spec. apply wf_mk.
Qed.

(** if the identity assertion passes, the two ranks agree *)
Lemma topleft_rank_ge n s F r : okm n s F -> r <= s -> r <= n -> topleft_identity F r = true -> rank_ge (bz F) s n r.
Proof.
  intros (W & Z & C & B) Hs Hn T. exists (bz F). split; [intros i Hi; apply inspan_row; lia|].
  intros a Ha j Hj. specialize (Ha j ltac:(lia)). unfold comb in Ha.
  rewrite (xsum_ext r _ (fun i => a i && Nat.eqb i j)) in Ha; [rewrite xsum_delta' in Ha by exact Hj; exact Ha|].
  intros i Hi. f_equal. unfold topleft_identity in T. rewrite forallb_seq in T. specialize (T i Hi).
  rewrite forallb_seq in T. specialize (T j Hj). apply Z.eqb_eq in T. unfold bz. rewrite T.
  destruct (Nat.eqb i j); reflexivity.
Qed.

Lemma rank_ge_mono f m c r r' : rank_ge f m c r -> r' <= r -> rank_ge f m c r'.
Proof.
  intros (g & Hg & Ig) H. exists g. split; [intros i Hi; apply Hg; lia|]. intros a Ha i Hi.
  assert (D : (if i <? r' then a i else false) = false).
  { apply (Ig (fun i => if i <? r' then a i else false)); [|lia]. intros j Hj. specialize (Ha j Hj). unfold comb in *.
    replace r with (r' + (r - r')) by lia. rewrite xsum_split, (xsum_zero (r - r')).
    - rewrite xorb_false_r, <- Ha at 1. apply xsum_ext. intros i' Hi'. destruct (Nat.ltb_spec i' r'); [reflexivity|lia].
    - intros i' Hi'. destruct (Nat.ltb_spec (r' + i') r'); [lia|reflexivity]. }
  destruct (Nat.ltb_spec i r'); [exact D|lia].
Qed.

Lemma snf_rank n k M F r : standard_normal_form n k M = Ok (F, r) -> r = matrix_rank (xblock n M).
Proof.
  unfold standard_normal_form, gauss_first. intros H. apply bind_ok in H. destruct H as (u & _ & H). apply bind_ok in H. destruct H as (M2 & _ & H).
  injection H as _ <-. reflexivity.
Qed.

Lemma topleft_of_unit n s r F : okm n s F -> r <= s -> r <= n -> unitx s r (bz F) -> topleft_identity F r = true.
Proof.
  intros (W & Z & C & B) Hs Hn U. unfold topleft_identity. rewrite forallb_seq. intros i Hi. rewrite forallb_seq. intros j Hj.
  rewrite (bin_get F i j B) by lia. rewrite U by lia. destruct (Nat.eqb i j); reflexivity.
Qed.

Lemma snf_exists n k M : okm n (zr M) M -> 0 < zr M -> zr M = n - k -> exists F, standard_normal_form n k M = Ok (F, matrix_rank (xblock n M)).
Proof.
  intros O P Z. destruct (first_rank_bounds n (zr M) M O) as [B1 B2]. fold (xblock n M) in B1, B2. pose proof O as (W & _ & C & _).
  unfold standard_normal_form, gauss_first. fold (xblock n M). rewrite (has_entries_mk (xblock n M)) by (simpl; lia). cbn [guard bind].
  assert (E : exists M2, gauss_second n k (fold_left (first_step n (zr M)) (seq 0 (matrix_rank (xblock n M))) M) (matrix_rank (xblock n M)) = Ok M2).
  { unfold gauss_second.
    assert (Zf : forall l M', zr (fold_left (first_step n (zr M)) l M') = zr M').
    { induction l as [|x l IH]; intros M'; [reflexivity|]. cbn [fold_left]. rewrite IH.
      unfold first_step, clear_col.
      assert (Zg : forall l' p j M', zr (fold_left (fun M i => if negb (i =? p) && negb (get M i j =? 0)%Z then add_row M p i else M) l' M') = zr M').
      { induction l' as [|y l' IH']; intros p j M1; [reflexivity|]. cbn [fold_left]. rewrite IH'. destruct (_ && _); reflexivity. }
      rewrite Zg. destruct (get M' x x =? 0)%Z; [|reflexivity]. rewrite search_swap_find. destruct (find _ _) as [[? ?]|]; reflexivity. }
    assert (Of : okm n (zr M) (fold_left (first_step n (zr M)) (seq 0 (matrix_rank (xblock n M))) M)).
    { apply fold_rel; [exact O|]. intros M' j Hj HM'. apply in_seq in Hj. apply ok_rel_first_step; [exact HM'|lia|lia]. }
    destruct Of as (_ & _ & Cf & _). rewrite Zf. destruct (Nat.eqb_spec (matrix_rank (xblock n M)) (zr M)); [eexists; reflexivity|].
    rewrite has_entries_mk; [|simpl; rewrite ?Zf; lia|simpl; rewrite Cf; lia]. cbn [guard bind]. rewrite Z, Nat.ltb_irrefl. cbn [andb]. eexists; reflexivity. }
  destruct E as (M2 & E). rewrite E. exists M2. reflexivity.
Qed.

(** the string conversion in __init__ succeeds on 0/1 rows *)
Lemma to_str_ok rows : Forall binary rows -> exists ps, mapM binary_rep_to_pauli_str rows = Ok ps.
Proof.
  intros B. induction B as [|r rows Hr B IH]; [exists []; reflexivity|]. destruct IH as (ps & IH). cbn [mapM].
  assert (E : exists p, binary_rep_to_pauli_str r = Ok p).
  { unfold binary_rep_to_pauli_str. generalize (seq 0 (Nat.div (length r) 2)) as l. intros l. induction l as [|i l (p & Ep)]; [exists []; reflexivity|].
    assert (G : forall i, (nth i r 0 = 0 \/ nth i r 0 = 1)%Z).
    { intros i'. destruct (le_lt_dec (length r) i') as [Li|Li]; [left; apply nth_overflow; exact Li|].
      unfold binary in Hr. rewrite Forall_forall in Hr. apply Hr, nth_In, Li. }
    cbn [mapM]. rewrite Ep. destruct (G i) as [-> | ->], (G (Nat.div (length r) 2 + i)) as [-> | ->]; eexists; reflexivity. }
  destruct E as (p & ->). rewrite IH. eexists; reflexivity.
Qed.

Theorem constructor_accepts_iff rows n k : valid_generators n k rows ->
  (exists r, is_rank 0 n (x_parts n rows) r /\ is_rank 2 n (x_parts n rows) r /\
             exists c, init (Rows rows) n k None = Ok c) \/
  (exists r r', is_rank 0 n (x_parts n rows) r /\ is_rank 2 n (x_parts n rows) r' /\ r' < r /\
             init (Rows rows) n k None = Err AssertionError).
Proof.
  intros HV. pose proof HV as (P & L & Lr & B & Cm & I).
  destruct rows as [|r0 l]; [simpl in P; lia|].
  assert (Hk : k <= n) by (simpl in L; lia).
  assert (E0 : length r0 = 2 * n) by (inversion Lr; assumption).
  set (M := ZM (S (length l)) (length r0) (r0 :: l)).
  assert (W : wf M). { split; [reflexivity|]. simpl. rewrite E0. exact Lr. }
  assert (C : zc M = 2 * n) by exact E0.
  destruct (valid_bool n k M W C HV) as (O & Z & Cmb & Ib).
  assert (EI : init (Rows (r0 :: l)) n k None = init_body M n k None).
  { unfold init. replace (forallb (fun r => length r =? length r0) l) with true.
    2:{ symmetry. apply forallb_forall. rewrite Forall_forall in Lr. intros r Hr. rewrite E0. apply Nat.eqb_eq, Lr. right; exact Hr. }
    rewrite E0, Nat.eqb_refl. simpl in L. rewrite L, Nat.eqb_refl. cbn [assert_ bind]. rewrite <- E0, <- L. reflexivity. }
  assert (ES : is_stabilizer_code M = true) by (apply (is_stab_iff n (zr M) M W eq_refl C); exact Cmb).
  destruct (to_str_ok (r0 :: l) B) as (ps & Eps).
  pose proof (xblock_rank0 n M W C) as R0. pose proof (xblock_rank2 n M W C) as R2. change (zd M) with (r0 :: l) in R0, R2.
  pose proof (rank_2_le_0 _ _ _ _ R2 R0) as Hle.
  destruct (first_rank_bounds n (zr M) M O) as [B1 B2]. fold (xblock n M) in B1, B2.
  rewrite EI. unfold init_body. rewrite ES. cbn [assert_ bind]. change (zd M) with (r0 :: l). rewrite Eps. cbn [bind].
  destruct (Nat.eq_dec (gf2_rank (xblock n M)) (matrix_rank (xblock n M))) as [Eq|Ne].
  - left. exists (matrix_rank (xblock n M)). split; [exact R0|]. rewrite Eq in R2. split; [exact R2|].
    destruct (normal_form_block n k (zr M) M O Z ltac:(simpl; lia) Cmb Ib) as (F & HF & OF & RF & Q1 & Q2 & ST & V).
    { rewrite (x_parts_xblock n M W C). exact R2. }
    rewrite HF. cbn [bind]. destruct ST as (U & _).
    destruct (logical_ops_ok n k (zr M) (matrix_rank (xblock n M)) F OF Z Hk Q1) as (LX & LZ & EL & _).
    { apply (topleft_of_unit n (zr M)); assumption. }
    rewrite EL. eexists; reflexivity.
  - right. exists (matrix_rank (xblock n M)), (gf2_rank (xblock n M)). split; [exact R0|]. split; [exact R2|]. split; [lia|].
    destruct (snf_exists n k M O ltac:(simpl; lia) Z) as (F & HF). rewrite HF. cbn [bind].
    destruct (normal_form_rel n k (zr M) M F _ O HF) as [OF RF].
    destruct (topleft_identity F (matrix_rank (xblock n M))) eqn:T; [exfalso|unfold logical_operators; rewrite T; reflexivity].
    pose proof (topleft_rank_ge n (zr M) F _ OF B1 B2 T) as G.
    apply rel_sym in RF. apply (rel_rank_ge _ _ _ _ _ RF) in G.
    assert (Wx : wf (xblock n M)) by apply wf_mk.
    pose proof (is_rank2_ge (xblock n M) (gf2_rank (xblock n M)) Wx) as _.
    pose proof (is_rank2_not_ge (xblock n M) (gf2_rank (xblock n M)) Wx) as N.
    rewrite (zc_xblock n M C), (x_parts_xblock n M W C) in N. apply (N R2).
    assert (Zx : zr (xblock n M) = zr M) by (simpl; lia). rewrite Zx.
    apply (rank_ge_ext (bz M)). { intros i j Hi Hj. unfold xblock. rewrite bz_slice by (simpl in *; lia). reflexivity. }
    apply (rank_ge_mono _ _ _ (matrix_rank (xblock n M))); [exact G|lia].
Qed.
