(** Proofs of C08, C10-C12, C01, C02, C21, C23, C27. *)
From Verif Require Import Py ZMat CodesModel RankSpec CodesSpec BoolLin Rank Gauss Gauss2 Logical CodesProofs.
Open Scope nat_scope.


Lemma init_struct g n k ops c : init g n k ops = Ok c -> valid_generators n k (zd (stab c)) ->
  (ops = None \/ is_rank 2 n (x_parts n (zd (stab c))) (crank c)) ->
  k <= n /\ zr (stab c) = n - k /\ crank c <= n - k /\ okm n (n - k) (stab c) /\ okm n (n - k) (normal_form c) /\
  rel n (n - k) (bz (stab c)) (bz (normal_form c)) /\
  struct n (n - k) (crank c) (bz (normal_form c)) /\ unitz n (n - k) (crank c) (n - k) (bz (normal_form c)) /\
  is_rank 2 n (x_parts n (zd (stab c))) (crank c).
Proof.
  intros H HV Hr. destruct (init_inv _ _ _ _ _ H) as (M & W & Z0 & C & E & Hk & Hp & HB & _).
  rewrite E in *. clear Z0. apply init_body_inv in HB. destruct HB as (ES & HF & HL & _).
  destruct (valid_bool n k M W C HV) as (O & Z & Cmb & Ib).
  pose proof (snf_rank _ _ _ _ _ HF) as Erk.
  destruct (first_rank_bounds n (zr M) M O) as [B1 B2]. fold (xblock n M) in B1, B2. rewrite <- Erk in B1, B2.
  assert (R2 : is_rank 2 n (x_parts n (zd M)) (crank c)).
  { destruct Hr as [->|Hr]; [|exact Hr].
    destruct (normal_form_rel n k (zr M) M _ _ O HF) as [OF RF].
    assert (T : topleft_identity (normal_form c) (crank c) = true).
    { unfold logical_operators in HL. destruct (topleft_identity _ _); [reflexivity|discriminate]. }
    pose proof (topleft_rank_ge n (zr M) _ _ OF B1 B2 T) as G.
    apply rel_sym in RF. apply (rel_rank_ge _ _ _ _ _ RF) in G.
    pose proof (xblock_rank0 n M W C) as R0. pose proof (xblock_rank2 n M W C) as R2.
    pose proof (rank_2_le_0 _ _ _ _ R2 R0) as Hle. rewrite <- Erk in *.
    destruct (Nat.eq_dec (gf2_rank (xblock n M)) (crank c)) as [<-|Ne]; [exact R2|exfalso].
    assert (Wx : wf (xblock n M)) by apply wf_mk.
    pose proof (is_rank2_not_ge (xblock n M) (gf2_rank (xblock n M)) Wx) as N.
    rewrite (zc_xblock n M C), (x_parts_xblock n M W C) in N. apply (N R2).
    assert (Zx : zr (xblock n M) = zr M) by (simpl; lia). rewrite Zx.
    apply (rank_ge_ext (bz M)). { intros i j Hi Hj. unfold xblock. rewrite bz_slice by (simpl in *; lia). reflexivity. }
    apply (rank_ge_mono _ _ _ (crank c)); [exact G|lia]. }
  destruct (normal_form_block n k (zr M) M O Z ltac:(destruct HV as (P0 & _); destruct M as [? ? [|]]; simpl in *; lia) Cmb Ib) as (F & HF' & OF & RF & Q1 & Q2 & ST & V).
  { rewrite (x_parts_xblock n M W C), <- Erk. exact R2. }
  rewrite HF in HF'. injection HF' as E1 E2. rewrite <- E1 in *. rewrite <- E2 in *. rewrite <- Z.
  split; [exact Hk|]. split; [reflexivity|]. split; [exact B1|]. split; [exact O|]. split; [exact OF|]. split; [exact RF|].
  split; [exact ST|]. split; [exact V|exact R2].
Qed.

(** ** C08 *)
Theorem normal_form_blocks g n k ops c : init g n k ops = Ok c -> valid_generators n k (zd (stab c)) ->
  (ops = None \/ is_rank 2 n (x_parts n (zd (stab c))) (crank c)) ->
  let r := crank c in let E := entry (zd (normal_form c)) in
  r <= n - k /\ is_rank 2 n (x_parts n (zd (stab c))) r /\ length (zd (normal_form c)) = n - k /\
  (forall i j, i < r -> j < r -> E i j = if Nat.eqb i j then 1%Z else 0%Z) /\
  (forall i j, r <= i < n - k -> j < n -> E i j = 0%Z) /\
  (forall i j, r <= i < n - k -> r <= j < n - k -> E i (n + j) = if Nat.eqb i j then 1%Z else 0%Z).
Proof.
  intros H HV Hr. destruct (init_struct _ _ _ _ _ H HV Hr) as (Hk & Zs & Hc & _ & OF & _ & (U & Lx & _) & V & R2).
  pose proof OF as (W & Z & C & B). pose proof W as [L _]. cbv zeta. unfold entry.
  split; [exact Hc|]. split; [exact R2|]. split; [lia|].
  change (fun i j : nat => nth j (nth i (zd (normal_form c)) []) 0%Z) with (get (normal_form c)).
  split; [|split]; intros i j Hi Hj; change (nth ?y (nth ?x (zd (normal_form c)) []) 0%Z) with (get (normal_form c) x y); rewrite (bin_get _ _ _ B) by lia.
  - rewrite U by lia. destruct (Nat.eqb i j); reflexivity.
  - rewrite Lx by lia. reflexivity.
  - rewrite V by lia. destruct (Nat.eqb i j); reflexivity.
Qed.

(** ** C10 *)
Lemma init_logical g n k c : init g n k None = Ok c -> valid_generators n k (zd (stab c)) ->
  let s := n - k in let r := crank c in
  okm n k (logical_x c) /\ okm n k (logical_z c) /\
  (forall i j, i < k -> j < 2 * n -> bz (logical_x c) i j = fx n s r (bz (normal_form c)) i j) /\
  (forall i j, i < k -> j < 2 * n -> bz (logical_z c) i j = fz n s r (bz (normal_form c)) i j).
Proof.
  intros H HV s r. destruct (init_struct _ _ _ _ _ H HV (or_introl eq_refl)) as (Hk & Zs & Hc & _ & OF & _ & (U & Lx & _) & V & R2).
  destruct (init_inv _ _ _ _ _ H) as (M & W & Z0 & C & E & _ & Hp & HB & _).
  apply init_body_inv in HB. destruct HB as (_ & _ & HL & _).
  destruct (logical_ops_ok n k s r (normal_form c) OF eq_refl Hk Hc) as (LX & LZ & EL & O1 & O2 & G1 & G2).
  { apply (topleft_of_unit n s); try assumption. unfold s, r in *; lia. }
  unfold r in EL. rewrite HL in EL. injection EL as -> ->. auto.
Qed.

Lemma commute_bz n s s' M N i j : okm n s M -> okm n s' N -> i < s -> j < s' ->
  (commute n (nth i (zd M) []) (nth j (zd N) []) <-> ip n (bz M i) (bz N j) = false).
Proof. intros _ _ _ _. apply commute_ip. Qed.

Theorem logical_relations g n k c : init g n k None = Ok c -> valid_generators n k (zd (stab c)) ->
  length (zd (logical_x c)) = k /\ length (zd (logical_z c)) = k /\
  (forall l, In l (zd (logical_x c)) \/ In l (zd (logical_z c)) -> length l = 2 * n /\ binary l) /\
  (forall l r, In l (zd (logical_x c)) \/ In l (zd (logical_z c)) -> In r (zd (normal_form c)) -> commute n l r) /\
  (forall i j, i < k -> j < k ->
     (commute n (nth i (zd (logical_x c)) []) (nth j (zd (logical_z c)) []) <-> i <> j) /\
     commute n (nth i (zd (logical_x c)) []) (nth j (zd (logical_x c)) []) /\
     commute n (nth i (zd (logical_z c)) []) (nth j (zd (logical_z c)) [])).
Proof.
  intros H HV. destruct (init_struct _ _ _ _ _ H HV (or_introl eq_refl)) as (Hk & Zs & Hc & _ & OF & _ & (U & Lx & Cm & _) & V & R2).
  destruct (init_logical _ _ _ _ H HV) as (OX & OZ & GX & GZ).
  destruct (okm_spec _ _ _ OX) as (LX1 & LX2 & LX3). destruct (okm_spec _ _ _ OZ) as (LZ1 & LZ2 & LZ3).
  destruct (okm_spec _ _ _ OF) as (LF1 & LF2 & LF3).
  set (f := bz (normal_form c)) in *. set (s := n - k) in *. set (r := crank c) in *.
  assert (EX : forall i w, i < k -> ip n w (bz (logical_x c) i) = ip n w (fx n s r f i)).
  { intros i w Hi. apply ip_ext; [auto|]. intros j Hj. apply GX; assumption. }
  assert (EZ : forall i w, i < k -> ip n w (bz (logical_z c) i) = ip n w (fz n s r f i)).
  { intros i w Hi. apply ip_ext; [auto|]. intros j Hj. apply GZ; assumption. }
  split; [exact LX1|]. split; [exact LZ1|]. split; [|split].
  - rewrite Forall_forall in LX2, LX3, LZ2, LZ3. intros l [Hl|Hl]; auto.
  - intros l a [Hl|Hl] Ha; apply (In_nth _ _ []) in Hl, Ha; destruct Hl as (i & Hi & <-), Ha as (a' & Ha & <-);
      apply commute_ip; rewrite ip_sym.
    + change (ip n (f a') (bz (logical_x c) i) = false). rewrite EX by lia. apply (ip_f_fx n k); (assumption || lia || reflexivity).
    + change (ip n (f a') (bz (logical_z c) i) = false). rewrite EZ by lia. apply (ip_f_fz n k); (assumption || lia || reflexivity).
  - intros i j Hi Hj. split; [|split].
    + rewrite commute_ip. change (ip n (bz (logical_x c) i) (bz (logical_z c) j) = false <-> i <> j).
      rewrite EZ, ip_sym, EX, ip_sym, (ip_fx_fz n k) by (assumption || reflexivity). rewrite Nat.eqb_neq. reflexivity.
    + apply commute_ip. change (ip n (bz (logical_x c) i) (bz (logical_x c) j) = false).
      rewrite EX, ip_sym, EX by assumption. apply (ip_fx_fx n k); (assumption || lia || reflexivity).
    + apply commute_ip. change (ip n (bz (logical_z c) i) (bz (logical_z c) j) = false).
      rewrite EZ, ip_sym, EZ by assumption. apply (ip_fz_fz n k); (assumption || lia || reflexivity).
Qed.

(** ** C11 *)
Lemma commute_ext_l n u u' v : (forall j, j < 2 * n -> brow u j = brow u' j) -> commute n u v <-> commute n u' v.
Proof. intros H. rewrite !commute_ip. rewrite (ip_ext n (brow u) (brow u') (brow v) (brow v)) by auto. reflexivity. Qed.

Theorem logical_commute_relabelled g n k c : init g n k None = Ok c -> valid_generators n k (zd (stab c)) ->
  exists p, qubit_perm n p /\
    (forall v, in_rowspace n (map (relabel n p) (zd (stab c))) v <-> in_rowspace n (zd (normal_form c)) v) /\
    forall l r, In l (zd (logical_x c)) \/ In l (zd (logical_z c)) -> In r (zd (stab c)) -> commute n (relabel n p r) l.
Proof.
  intros H HV. pose proof HV as (_ & _ & _ & B & _).
  destruct (normal_form_same_code _ _ _ _ _ H B) as (_ & _ & _ & _ & p & Hp & HR).
  destruct (logical_relations _ _ _ _ H HV) as (_ & _ & _ & HC & _).
  exists p. split; [exact Hp|]. split; [exact HR|]. intros l r Hl Hr.
  apply (commute_rowspace n (zd (normal_form c))).
  - intros r' Hr'. unfold commute. rewrite divide2_odd, odd_symp, ip_sym, <- odd_symp, <- divide2_odd. apply HC; assumption.
  - apply HR. apply in_rowspace_b. apply (in_map (relabel n p)) in Hr. apply (In_nth _ _ []) in Hr. destruct Hr as (i & Hi & E).
    rewrite <- E. apply (inspan_row (brows (map (relabel n p) (zd (stab c))))). exact Hi.
Qed.

Theorem logical_commute_same_rowspace g n k c : init g n k None = Ok c -> valid_generators n k (zd (stab c)) ->
  (forall r, In r (zd (stab c)) -> in_rowspace n (zd (normal_form c)) r) ->
  forall l r, In l (zd (logical_x c)) \/ In l (zd (logical_z c)) -> In r (zd (stab c)) -> commute n l r.
Proof.
  intros H HV HR l r Hl Hr. destruct (logical_relations _ _ _ _ H HV) as (_ & _ & _ & HC & _).
  unfold commute. rewrite divide2_odd, odd_symp, ip_sym, <- odd_symp, <- divide2_odd.
  apply (commute_rowspace n (zd (normal_form c))); [|apply HR; exact Hr].
  intros r' Hr'. unfold commute. rewrite divide2_odd, odd_symp, ip_sym, <- odd_symp, <- divide2_odd. apply HC; assumption.
Qed.

(** ** C12 *)
Theorem normaliser_complete g n k c : init g n k None = Ok c -> valid_generators n k (zd (stab c)) ->
  (forall v, length v = 2 * n -> (forall r, In r (zd (normal_form c)) -> commute n r v) ->
     in_rowspace n (zd (normal_form c) ++ zd (logical_x c) ++ zd (logical_z c)) v) /\
  indep 2 (2 * n) (zd (normal_form c) ++ zd (logical_x c) ++ zd (logical_z c)) /\
  (forall v, in_rowspace n (zd (logical_x c) ++ zd (logical_z c)) v -> in_rowspace n (zd (normal_form c)) v ->
     forall j, j < 2 * n -> (2 | nth j v 0)%Z).
Proof.
  intros H HV. destruct (init_struct _ _ _ _ _ H HV (or_introl eq_refl)) as (Hk & Zs & Hc & _ & OF & _ & (U & Lx & Cm & I) & V & R2).
  destruct (init_logical _ _ _ _ H HV) as (OX & OZ & GX & GZ).
  destruct (okm_spec _ _ _ OX) as (LX1 & LX2 & LX3). destruct (okm_spec _ _ _ OZ) as (LZ1 & LZ2 & LZ3).
  destruct (okm_spec _ _ _ OF) as (LF1 & LF2 & LF3).
  set (f := bz (normal_form c)) in *. set (s := n - k) in *. set (r := crank c) in *.
  assert (ES : forall i j, i < s + 2 * k -> j < 2 * n ->
    brows (zd (normal_form c) ++ zd (logical_x c) ++ zd (logical_z c)) i j = stack n k s r f i j).
  { intros i j Hi Hj. unfold brows, stack.
    destruct (Nat.ltb_spec i s); [rewrite app_nth1 by lia; reflexivity|]. rewrite app_nth2 by lia. rewrite LF1.
    destruct (Nat.ltb_spec i (s + k)); [rewrite app_nth1 by lia; apply GX; lia|]. rewrite app_nth2 by lia. rewrite LX1. apply GZ; lia. }
  assert (LL : length (zd (normal_form c) ++ zd (logical_x c) ++ zd (logical_z c)) = s + 2 * k) by (rewrite !app_length; lia).
  assert (ES2 : forall i j, i < 2 * k -> j < 2 * n ->
    brows (zd (logical_x c) ++ zd (logical_z c)) i j = if i <? k then fx n s r f i j else fz n s r f (i - k) j).
  { intros i j Hi Hj. unfold brows.
    destruct (Nat.ltb_spec i k); [rewrite app_nth1 by lia; apply GX; lia|]. rewrite app_nth2 by lia. rewrite LX1. apply GZ; lia. }
  (* splitting a combination of logical operators *)
  assert (SP : forall a j, j < 2 * n -> xsum (2 * k) (fun i => a i && (if i <? k then fx n s r f i j else fz n s r f (i - k) j)) =
     xorb (comb k a (fx n s r f) j) (comb k (fun i => a (k + i)) (fz n s r f) j)).
  { intros a j Hj. replace (2 * k) with (k + k) by lia. rewrite xsum_split. f_equal; apply xsum_ext; intros i Hi.
    - destruct (Nat.ltb_spec i k); [reflexivity|lia].
    - destruct (Nat.ltb_spec (k + i) k); [lia|]. replace (k + i - k) with i by lia. reflexivity. }
  split; [|split].
  - intros v Lv Hv. apply in_rowspace_b. rewrite LL.
    apply (inspan_ext_f (stack n k s r f)); [intros; symmetry; apply ES; assumption|].
    apply normaliser_span; try (assumption || reflexivity).
    intros a Ha. apply commute_ip. apply (Hv (nth a (zd (normal_form c)) [])). apply nth_In; lia.
  - apply indep2_b. rewrite LL. intros a Ha.
    assert (Hsp : inspan f s (2 * n) (fun j => xorb (comb k (fun i => a (s + i)) (fx n s r f) j) (comb k (fun i => a (s + (k + i))) (fz n s r f) j))).
    { exists a. intros j Hj. specialize (Ha j Hj). unfold comb in Ha.
      rewrite (xsum_ext _ _ (fun i => a i && stack n k s r f i j)) in Ha by (intros i Hi; f_equal; apply ES; assumption).
      rewrite xsum_split in Ha. apply xorb_eq in Ha.
      rewrite (xsum_ext s _ (fun i => a i && f i j)) in Ha.
      2:{ intros i Hi. unfold stack. destruct (Nat.ltb_spec i s); [reflexivity|lia]. }
      unfold comb at 3. rewrite Ha. rewrite <- (SP (fun i => a (s + i)) j Hj). apply xsum_ext; intros i Hi. f_equal.
      unfold stack. destruct (Nat.ltb_spec (s + i) s); [lia|].
      destruct (Nat.ltb_spec (s + i) (s + k)), (Nat.ltb_spec i k); try lia; f_equal; lia. }
    pose proof (logical_nontrivial n k s r eq_refl Hk Hc f U Lx V _ _ Cm Hsp) as N.
    assert (Alow : forall i, i < s -> a i = false).
    { apply I. intros j Hj. specialize (Ha j Hj). unfold comb in Ha.
      rewrite (xsum_ext _ _ (fun i => a i && stack n k s r f i j)) in Ha by (intros i Hi; f_equal; apply ES; assumption).
      rewrite xsum_split in Ha. rewrite (xsum_zero (2 * k)) in Ha.
      - rewrite xorb_false_r in Ha. unfold comb. rewrite <- Ha. apply xsum_ext; intros i Hi.
        unfold stack. destruct (Nat.ltb_spec i s); [reflexivity|lia].
      - intros i Hi. destruct (Nat.ltb_spec i k).
        + destruct (N i ltac:(lia)) as [Nx _]. rewrite Nx; reflexivity.
        + destruct (N (i - k) ltac:(lia)) as [_ Nz]. replace (s + (k + (i - k))) with (s + i) in Nz by lia. rewrite Nz; reflexivity. }
    intros i Hi. destruct (le_lt_dec s i) as [L|L]; [|apply Alow; exact L].
    destruct (le_lt_dec (s + k) i) as [L'|L'].
    + destruct (N (i - s - k) ltac:(lia)) as [_ Nz]. replace (s + (k + (i - s - k))) with i in Nz by lia. exact Nz.
    + destruct (N (i - s) ltac:(lia)) as [Nx _]. replace (s + (i - s)) with i in Nx by lia. exact Nx.
  - intros v Hl Hf j Hj. apply in_rowspace_b in Hl, Hf. rewrite app_length, LX1, LZ1 in Hl. rewrite LF1 in Hf.
    destruct Hl as (a & Ha).
    assert (Ev : forall j, j < 2 * n -> brow v j = xorb (comb k a (fx n s r f) j) (comb k (fun i => a (k + i)) (fz n s r f) j)).
    { intros j' Hj'. rewrite <- SP by exact Hj'. rewrite (Ha j' Hj'). unfold comb. replace (k + k) with (2 * k) by lia.
      apply xsum_ext; intros i Hi. f_equal. apply ES2; assumption. }
    assert (N : forall i, i < k -> a i = false /\ a (k + i) = false).
    { apply (logical_nontrivial n k s r eq_refl Hk Hc f U Lx V a (fun i => a (k + i)) Cm).
      eapply inspan_ext; [exact Ev|exact Hf]. }
    apply divide2_odd. change (Z.odd (nth j v 0%Z)) with (brow v j). rewrite Ev by exact Hj.
    unfold comb. rewrite !xsum_zero; [reflexivity| |]; intros i Hi; destruct (N i Hi) as [N1 N2]; rewrite ?N1, ?N2; reflexivity.
Qed.

(** ** C01, C02 *)

Definition lbits (c : ascii) : Z * Z :=
  if Ascii.eqb c "X" then (1, 0)%Z else if Ascii.eqb c "Z" then (0, 1)%Z
  else if Ascii.eqb c "Y" then (1, 1)%Z else (0, 0)%Z.
Lemma char_bits_letter c : pauli_letter c -> char_bits c = Ok (lbits c) /\
  pauli_char (fst (lbits c)) (snd (lbits c)) = Ok c.
Proof. intros [->|[->|[->| ->]]]; split; reflexivity. Qed.

Definition row_of (p : pystr) : list Z := map (fun c => fst (lbits c)) p ++ map (fun c => snd (lbits c)) p.

Lemma mapM_nth_error {A B} (f : A -> res B) (g : A -> B) (d : A) p n :
  length p = n -> (forall c, In c p -> f c = Ok (g c)) ->
  mapM (fun j => match nth_error p j with Some c => f c | None => Err IndexError end) (seq 0 n) = Ok (map g p).
Proof.
  intros L H. rewrite (mapM_map _ (fun j => g (nth j p d))).
  - f_equal. apply (nth_ext _ _ (g d) (g d)); [rewrite !map_length, seq_length; lia|].
    intros i Hi. rewrite map_length, seq_length in Hi.
    rewrite (nth_map_seq (fun j => g (nth j p d))) by exact Hi. rewrite map_nth; reflexivity.
  - intros j Hj. apply in_seq in Hj. rewrite (nth_error_nth' p d) by lia. apply H, nth_In. lia.
Qed.

Lemma pauli_row_ok n p : length p = n -> Forall pauli_letter p -> pauli_row n p = Ok (row_of p).
Proof.
  intros L H. unfold pauli_row. rewrite Forall_forall in H.
  rewrite (mapM_nth_error char_bits lbits "I"%char) by (try exact L; intros c Hc; apply char_bits_letter, H, Hc).
  cbn [bind]. unfold row_of. rewrite !map_map. reflexivity.
Qed.

Lemma str_row_of p : Forall pauli_letter p -> binary_rep_to_pauli_str (row_of p) = Ok p.
Proof.
  intros H. unfold binary_rep_to_pauli_str.
  assert (L : length (row_of p) = 2 * length p) by (unfold row_of; rewrite app_length, !map_length; lia).
  rewrite L, div2_double. rewrite (mapM_map _ (fun i => nth i p "I"%char)).
  - f_equal. apply (nth_ext _ _ "I"%char "I"%char); [rewrite map_length, seq_length; reflexivity|].
    intros i Hi. rewrite map_length, seq_length in Hi. rewrite (nth_map_seq (fun i => nth i p "I"%char)) by exact Hi. reflexivity.
  - intros i Hi. apply in_seq in Hi. unfold row_of.
    rewrite app_nth1 by (rewrite map_length; lia). rewrite app_nth2 by (rewrite map_length; lia).
    rewrite map_length. replace (length p + i - length p) with i by lia.
    rewrite (nth_indep (map (fun c => fst (lbits c)) p) 0%Z (fst (lbits "I"%char))) by (rewrite map_length; lia).
    rewrite (nth_indep (map (fun c => snd (lbits c)) p) 0%Z (snd (lbits "I"%char))) by (rewrite map_length; lia).
    rewrite (map_nth (fun c => fst (lbits c))), (map_nth (fun c => snd (lbits c))).
    rewrite Forall_forall in H. apply char_bits_letter, H, nth_In. lia.
Qed.

Theorem string_roundtrip l n : l <> [] -> Forall (fun p => length p = n /\ Forall pauli_letter p) l ->
  exists M, pauli_str_to_binary_representation l = Ok M /\ zr M = length l /\ zc M = 2 * n /\ wf M /\
    mapM binary_rep_to_pauli_str (zd M) = Ok l.
Proof.
  intros Hne H. destruct l as [|p0 l']; [contradiction|].
  pose proof (Forall_inv H) as [L0 _].
  exists (ZM (length (p0 :: l')) (2 * n) (map row_of (p0 :: l'))).
  unfold pauli_str_to_binary_representation. rewrite L0.
  rewrite (mapM_map _ row_of).
  2:{ intros p Hp. rewrite Forall_forall in H. destruct (H p Hp). apply pauli_row_ok; assumption. }
  cbn [bind]. split; [reflexivity|]. split; [reflexivity|]. split; [reflexivity|]. split.
  - split; [cbn [zd zr]; rewrite map_length; reflexivity|]. cbn [zd zc]. apply Forall_forall. intros r Hr.
    apply in_map_iff in Hr. destruct Hr as (p & <- & Hp). rewrite Forall_forall in H. destruct (H p Hp) as [Lp _].
    unfold row_of. rewrite app_length, !map_length. lia.
  - cbn [zd]. clear Hne L0. induction (p0 :: l') as [|p q IH]; [reflexivity|]. inversion H as [|? ? [_ Hp] Hq]; subst.
    cbn [map mapM]. rewrite str_row_of by exact Hp. rewrite IH by exact Hq. reflexivity.
Qed.

(** rows to strings and back *)
Definition cchar (x z : Z) : ascii :=
  if (x =? 1)%Z then (if (z =? 1)%Z then "Y"%char else "X"%char) else (if (z =? 1)%Z then "Z"%char else "I"%char).
Definition str_of (n : nat) (r : list Z) : pystr := map (fun i => cchar (nth i r 0%Z) (nth (n + i) r 0%Z)) (seq 0 n).

Lemma binary_nth r i : binary r -> (nth i r 0 = 0 \/ nth i r 0 = 1)%Z.
Proof.
  intros B. destruct (le_lt_dec (length r) i) as [L|L]; [left; apply nth_overflow; exact L|].
  unfold binary in B; rewrite Forall_forall in B. apply B, nth_In, L.
Qed.

Lemma to_str_row n r : length r = 2 * n -> binary r -> binary_rep_to_pauli_str r = Ok (str_of n r).
Proof.
  intros L B. unfold binary_rep_to_pauli_str. rewrite L, div2_double. apply mapM_map. intros i _.
  destruct (binary_nth r i B) as [-> | ->], (binary_nth r (n + i) B) as [-> | ->]; reflexivity.
Qed.

Lemma row_of_str n r : length r = 2 * n -> binary r -> row_of (str_of n r) = r.
Proof.
  intros L B. apply (nth_ext _ _ 0%Z 0%Z).
  - unfold row_of, str_of. rewrite app_length, !map_length, seq_length. lia.
  - intros i Hi. unfold row_of, str_of in *. rewrite app_length, !map_length, seq_length in Hi. rewrite !map_map.
    destruct (le_lt_dec n i) as [Li|Li].
    + rewrite app_nth2 by (rewrite map_length, seq_length; exact Li). rewrite map_length, seq_length.
      rewrite (nth_map_seq (fun x => snd (lbits (cchar (nth x r 0%Z) (nth (n + x) r 0%Z))))) by lia.
      replace (n + (i - n)) with i by lia.
      destruct (binary_nth r i B) as [-> | ->], (binary_nth r (i - n) B) as [-> | ->]; reflexivity.
    + rewrite app_nth1 by (rewrite map_length, seq_length; exact Li).
      rewrite (nth_map_seq (fun x => fst (lbits (cchar (nth x r 0%Z) (nth (n + x) r 0%Z))))) by lia.
      destruct (binary_nth r i B) as [-> | ->], (binary_nth r (n + i) B) as [-> | ->]; reflexivity.
Qed.

Lemma str_of_letters n r : binary r -> length (str_of n r) = n /\ Forall pauli_letter (str_of n r).
Proof.
  intros B. unfold str_of. rewrite map_length, seq_length. split; [reflexivity|]. apply Forall_forall. intros c Hc.
  apply in_map_iff in Hc. destruct Hc as (i & <- & _). unfold cchar, pauli_letter.
  destruct (nth i r 0 =? 1)%Z, (nth (n + i) r 0 =? 1)%Z; auto.
Qed.

Theorem rows_roundtrip rows n : rows <> [] -> Forall (fun r => length r = 2 * n) rows -> Forall binary rows ->
  exists l, mapM binary_rep_to_pauli_str rows = Ok l /\ length l = length rows /\
    pauli_str_to_binary_representation l = Ok (ZM (length rows) (2 * n) rows).
Proof.
  intros Hne L B. exists (map (str_of n) rows). split; [|split].
  - apply mapM_map. intros r Hr. rewrite Forall_forall in L, B. apply to_str_row; auto.
  - apply map_length.
  - destruct rows as [|r0 rows]; [contradiction|]. unfold pauli_str_to_binary_representation. cbn [map].
    rewrite (proj1 (str_of_letters n r0 (Forall_inv B))).
    rewrite Forall_forall in L, B.
    assert (E : forall q, (forall r, In r q -> length r = 2 * n /\ binary r) -> mapM (pauli_row n) (map (str_of n) q) = Ok q).
    { induction q as [|r q IH]; intros H; [reflexivity|]. cbn [map mapM].
      destruct (H r (or_introl eq_refl)) as [Lr Br]. destruct (str_of_letters n r Br) as [S1 S2].
      rewrite (pauli_row_ok n _ S1 S2), row_of_str by assumption. rewrite IH by (intros r' Hr'; apply H; right; exact Hr'). reflexivity. }
    change (str_of n r0 :: map (str_of n) rows) with (map (str_of n) (r0 :: rows)).
    rewrite E by (intros r Hr; split; [apply L|apply B]; exact Hr). cbn [bind]. rewrite map_length. reflexivity.
Qed.

(** which lists of strings convert, and what is raised otherwise *)
Lemma char_bits_bad c : ~ pauli_letter c -> char_bits c = Err ValueError.
Proof.
  intros H. unfold char_bits. 
  destruct (Ascii.eqb_spec c "X"); [exfalso; apply H; unfold pauli_letter; auto|].
  destruct (Ascii.eqb_spec c "Z"); [exfalso; apply H; unfold pauli_letter; auto|].
  destruct (Ascii.eqb_spec c "Y"); [exfalso; apply H; unfold pauli_letter; auto|].
  destruct (Ascii.eqb_spec c "I"); [exfalso; apply H; unfold pauli_letter; auto|reflexivity].
Qed.


Lemma pauli_letter_dec c : {pauli_letter c} + {~ pauli_letter c}.
Proof.
  unfold pauli_letter.
  destruct (ascii_dec c "I"); [left; auto|]. destruct (ascii_dec c "X"); [left; auto|].
  destruct (ascii_dec c "Y"); [left; auto|]. destruct (ascii_dec c "Z"); [left; auto|].
  right; intuition.
Qed.

Lemma mapM_seq_from (p : pystr) : forall m a,
  mapM (fun j => match nth_error p j with Some c => char_bits c | None => Err IndexError end) (seq a m) =
  mapM (fun j => match nth_error (skipn a p) j with Some c => char_bits c | None => Err IndexError end) (seq 0 m).
Proof.
  intros m a. 
  assert (E : forall a0 m0, mapM (fun j => match nth_error p j with Some c => char_bits c | None => Err IndexError end) (seq (a + a0) m0) =
     mapM (fun j => match nth_error (skipn a p) j with Some c => char_bits c | None => Err IndexError end) (seq a0 m0)).
  { intros a0 m0. revert a0; induction m0 as [|m0 IH]; intros a0; [reflexivity|]. cbn [seq mapM].
    replace (nth_error (skipn a p) a0) with (nth_error p (a + a0)).
    - rewrite <- (IH (S a0)). replace (S (a + a0)) with (a + S a0) by lia. reflexivity.
    - clear. revert p; induction a as [|a IH]; intros p; [reflexivity|]. destruct p; [destruct a0; reflexivity|]. apply IH. }
  specialize (E 0 m). rewrite Nat.add_0_r in E. exact E.
Qed.

(** reading one string: the first problem decides *)
Lemma pauli_row_result n p :
  (readable n p /\ pauli_row n p = Ok (row_of (firstn n p))) \/
  ((exists i, i < n /\ i < length p /\ Forall pauli_letter (firstn i p) /\ ~ pauli_letter (nth i p "I"%char)) /\
     pauli_row n p = Err ValueError) \/
  (length p < n /\ Forall pauli_letter p /\ pauli_row n p = Err IndexError).
Proof.
  assert (G : forall q n,
    (readable n q /\ mapM (fun j => match nth_error q j with Some c => char_bits c | None => Err IndexError end) (seq 0 n) = Ok (map lbits (firstn n q))) \/
    ((exists i, i < n /\ i < length q /\ Forall pauli_letter (firstn i q) /\ ~ pauli_letter (nth i q "I"%char)) /\
      mapM (fun j => match nth_error q j with Some c => char_bits c | None => Err IndexError end) (seq 0 n) = Err ValueError) \/
    (length q < n /\ Forall pauli_letter q /\ mapM (fun j => match nth_error q j with Some c => char_bits c | None => Err IndexError end) (seq 0 n) = Err IndexError)).
  { induction q as [|c q IH]; intros m.
    - destruct m as [|m]; [left; split; [split; [simpl; lia|constructor]|reflexivity]|].
      right; right. split; [simpl; lia|]. split; [constructor|reflexivity].
    - destruct m as [|m]; [left; split; [split; [simpl; lia|constructor]|reflexivity]|].
      cbn [seq mapM nth_error]. destruct (pauli_letter_dec c) as [Hc|Hc].
      + destruct (char_bits_letter c Hc) as [-> _]. cbn [bind].
        rewrite (mapM_seq_from (c :: q) m 1). cbn [skipn].
        destruct (IH m) as [((R1 & R2) & ->)|[((i & I1 & I2 & I3 & I4) & ->)|(R1 & R2 & ->)]]; cbn [bind firstn map].
        * left. split; [split; [simpl; lia|constructor; assumption]|reflexivity].
        * right; left. split; [|reflexivity]. exists (S i). split; [lia|]. split; [simpl; lia|]. split; [cbn [firstn]; constructor; assumption|exact I4].
        * right; right. split; [simpl; lia|]. split; [constructor; assumption|reflexivity].
      + rewrite (char_bits_bad c Hc). cbn [bind]. right; left. split; [|reflexivity]. exists 0.
        split; [lia|]. split; [simpl; lia|]. split; [constructor|exact Hc]. }
  unfold pauli_row. destruct (G p n) as [(R & ->)|[(R & ->)|(R1 & R2 & ->)]]; cbn [bind].
  - left. split; [exact R|]. unfold row_of. rewrite !map_map. reflexivity.
  - right; left; auto.
  - right; right; auto.
Qed.

Theorem string_conversion_iff p0 l :
  (exists M, pauli_str_to_binary_representation (p0 :: l) = Ok M) <-> Forall (readable (length p0)) (p0 :: l).
Proof.
  unfold pauli_str_to_binary_representation. split.
  - intros (M & H). apply bind_ok in H. destruct H as (rows & H & _). apply mapM_ok in H.
    induction H as [|p r q rows Hp Hq IH]; constructor; [|exact IH].
    destruct (pauli_row_result (length p0) p) as [(R & _)|[(_ & E)|(_ & _ & E)]]; [exact R| |]; rewrite E in Hp; discriminate.
  - intros H. rewrite (mapM_map _ (fun p => row_of (firstn (length p0) p))); [eexists; reflexivity|].
    intros p Hp. rewrite Forall_forall in H. specialize (H p Hp).
    destruct (pauli_row_result (length p0) p) as [(_ & E)|[((i & I1 & I2 & I3 & I4) & _)|(E & _)]]; [exact E| |destruct H; lia].
    exfalso. destruct H as [_ HF]. rewrite Forall_forall in HF. apply I4.
    apply HF. rewrite <- (nth_firstn (length p0) p i "I"%char I1). apply nth_In. rewrite firstn_length. lia.
Qed.

(** the first string that cannot be read decides the exception *)
Theorem string_conversion_error p0 l1 p l2 : Forall (readable (length p0)) l1 -> p0 :: tl (l1 ++ p :: l2) = l1 ++ p :: l2 ->
  ((exists i, i < length p0 /\ i < length p /\ Forall pauli_letter (firstn i p) /\ ~ pauli_letter (nth i p "I"%char)) ->
     pauli_str_to_binary_representation (l1 ++ p :: l2) = Err ValueError) /\
  (length p < length p0 -> Forall pauli_letter p -> pauli_str_to_binary_representation (l1 ++ p :: l2) = Err IndexError).
Proof.
  intros H1 E.
  assert (EP : forall e, pauli_row (length p0) p = Err e -> pauli_str_to_binary_representation (l1 ++ p :: l2) = Err e).
  { intros e He. rewrite <- E. unfold pauli_str_to_binary_representation. rewrite E.
    assert (G : mapM (pauli_row (length p0)) (l1 ++ p :: l2) = Err e); [|rewrite G; reflexivity].
    clear E. induction H1 as [|q l1 Hq H1 IH]; cbn [app mapM]; [rewrite He; reflexivity|].
    destruct (pauli_row_result (length p0) q) as [(_ & E)|[((i & I1 & I2 & I3 & I4) & _)|(E & _)]]; [|exfalso|destruct Hq; lia].
    - rewrite E. cbn [bind]. rewrite IH. reflexivity.
    - destruct Hq as [_ HF]. rewrite Forall_forall in HF. apply I4.
      apply HF. rewrite <- (nth_firstn (length p0) q i "I"%char I1). apply nth_In. rewrite firstn_length. lia. }
  split.
  - intros (i & I1 & I2 & I3 & I4). apply EP.
    destruct (pauli_row_result (length p0) p) as [((_ & HF) & _)|[(_ & R)|(R1 & R2 & _)]]; [exfalso|exact R|exfalso].
    + rewrite Forall_forall in HF. apply I4. apply HF. rewrite <- (nth_firstn (length p0) p i "I"%char I1). apply nth_In. rewrite firstn_length; lia.
    + rewrite Forall_forall in R2. apply I4, R2, nth_In, I2.
  - intros HL HF. apply EP.
    destruct (pauli_row_result (length p0) p) as [((R & _) & _)|[((i & I1 & I2 & I3 & I4) & _)|(_ & _ & R)]]; [lia|exfalso|exact R].
    rewrite Forall_forall in HF. apply I4, HF, nth_In, I2.
Qed.

(** ** C27 *)
Theorem strings_count_checked_without_ops l n k c :
  init (Strings l) n k None = Ok c -> length l = n - k.
Proof.
  intros H. destruct (init_inv _ _ _ _ _ H) as (M & W & Z & C & E & Hk & Hp & HB & Hs & B).
  destruct (pauli_mat_ok l M Hs) as (_ & Zl & _).
  assert (BS : Forall binary (zd (stab c))) by (rewrite E; exact B).
  destruct (init_okm _ _ _ _ _ H BS) as (O1 & O2 & R). rewrite E in *.
  apply init_body_inv in HB. destruct HB as (_ & HF & HLo & _).
  pose proof O2 as (WF & ZF & CF & _).
  pose proof (snf_rank _ _ _ _ _ HF) as Erk.
  destruct (first_rank_bounds n (zr M) M O1) as [B1 B2]. fold (xblock n M) in B1, B2. rewrite <- Erk in B1, B2.
  unfold logical_operators in HLo. apply bind_ok in HLo. destruct HLo as (u & _ & HLo).
  apply bind_ok in HLo. destruct HLo as (ec & Hec & HLo). apply bind_ok in HLo. destruct HLo as (ec2 & _ & HLo).
  apply bind_ok in HLo. destruct HLo as (lx & _ & HLo). apply bind_ok in HLo. destruct HLo as (u' & Hg & _).
  unfold guard in Hg. destruct (Nat.leb_spec (crank c) (n - k)) as [Lg|]; [|discriminate].
  unfold zdot in Hec. cbn [zr zc ztrans slice mk] in Hec.
  match type of Hec with (if Nat.eqb ?a ?b then _ else _) = _ => destruct (Nat.eqb_spec a b) as [Ee|]; [|discriminate] end.
  rewrite CF, ZF in Ee. transitivity (zr M); [symmetry; exact Zl|]. clear - Ee Lg B1 Hk. lia.
Qed.
