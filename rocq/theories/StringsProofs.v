(** C27: strings whose length is not n.  The general constructor agrees with the one of
    CodesModel.v on strings of length n. *)
From Verif Require Import Py ZMat CodesModel RankSpec CodesSpec BoolLin Rank Gauss Gauss2 CodesProofs CodesProofs2 ConcatProofs StringsModel StringsSpec.
From Coq Require Import Ascii.
Open Scope nat_scope.

Definition sh (s c : nat) (M : zmat) : Prop := zr M = s /\ zc M = c.

Lemma foldM_fold {S A} (P : S -> Prop) (f : S -> A -> res S) (g : S -> A -> S) l s :
  P s -> (forall s x, In x l -> P s -> f s x = Ok (g s x) /\ P (g s x)) -> foldM f l s = Ok (fold_left g l s) /\ P (fold_left g l s).
Proof.
  revert s. induction l as [|x l IH]; intros s Hs H; [split; [reflexivity|exact Hs]|]. cbn [foldM fold_left].
  destruct (H s x (or_introl eq_refl) Hs) as [-> Hp]. cbn [bind]. apply IH; [exact Hp|]. intros s' y Hy. apply H. right. exact Hy.
Qed.
Lemma foldM_inv {S A} (P : S -> Prop) (f : S -> A -> res S) l s s' :
  P s -> (forall s x t, P s -> f s x = Ok t -> P t) -> foldM f l s = Ok s' -> P s'.
Proof.
  revert s. induction l as [|x l IH]; intros s Hs H E; cbn [foldM] in E; [injection E as <-; exact Hs|].
  apply bind_ok in E. destruct E as (t & Ht & E). apply (IH t); [apply (H s x t Hs Ht)|exact H|exact E].
Qed.

Lemma sh_clear s c rows p j M : sh s c M -> sh s c (clear_col rows p j M).
Proof.
  unfold clear_col. revert M. induction rows as [|i rows IH]; intros M H; [exact H|]. cbn [fold_left]. apply IH.
  destruct (_ && _)%bool; exact H.
Qed.
Lemma sh_swap_rows2 s c n m M j : sh s c M -> sh s c (second_swap_rows n m M j).
Proof. unfold second_swap_rows. intros H. destruct (_ =? 0)%Z; [|exact H]. destruct (find _ _); exact H. Qed.
Lemma sh_fold_swap s c n m l M : sh s c M -> sh s c (fold_left (second_swap_rows n m) l M).
Proof. revert M. induction l as [|x l IH]; intros M H; [exact H|]. apply IH, sh_swap_rows2, H. Qed.

Lemma bound_nat len i : bound len (Z.of_nat i) = Nat.min i len.
Proof. unfold bound. destruct (Z.ltb_spec (Z.of_nat i) 0); [lia|]. rewrite Nat2Z.id. reflexivity. Qed.

(** ** shapes never change *)
Lemma sh_search s c n m j M M' : sh s c M -> search_swap_any n m j M = Ok M' -> sh s c M'.
Proof.
  intros H E. unfold search_swap_any in E. apply bind_ok in E. destruct E as ([M1 b] & E & F). injection F as <-.
  apply (foldM_inv (fun st : zmat * bool => sh s c (fst st))) in E; [exact E|exact H|].
  intros [M0 b0] [i_col j_row] [M2 b2] H0 G. cbn [fst] in *. apply bind_ok in G. destruct G as (x & _ & G).
  destruct (_ && _)%bool; [apply bind_ok in G; destruct G as (u & _ & G)|]; injection G as <- <-; exact H0.
Qed.
Lemma sh_first s c n M M' r : sh s c M -> gauss_first_any n M = Ok (M', r) ->
  sh s c M' /\ r = matrix_rank (pyslice M 0 (Z.of_nat (zr M)) 0 (Z.of_nat n)) /\ r <= s /\ r <= n /\ 0 < n.
Proof.
  intros H E. unfold gauss_first_any in E. apply bind_ok in E. destruct E as (u & G & E). apply bind_ok in E. destruct E as (M1 & E & F). injection F as <- <-.
  split; [|split; [reflexivity|]].
  - apply (foldM_inv (sh s c)) in E; [exact E|exact H|]. intros M0 j M2 H0 Q. unfold first_step_any in Q.
    apply bind_ok in Q. destruct Q as (d & _ & Q). apply bind_ok in Q. destruct Q as (M3 & Q1 & Q). injection Q as <-. apply sh_clear.
    destruct (d =? 0)%Z; [apply (sh_search _ _ _ _ _ _ _ H0 Q1)|injection Q1 as <-; exact H0].
  - destruct (matrix_rank_le (pyslice M 0 (Z.of_nat (zr M)) 0 (Z.of_nat n)) (wf_mk _ _ _)) as [Q1 Q2]. set (X := pyslice M _ _ _ _) in *.
    unfold guard in G. destruct (has_entries X) eqn:HE; [|discriminate]. unfold has_entries in HE. apply andb_prop in HE. destruct HE as [_ HE]. apply Nat.ltb_lt in HE.
    destruct H as [Hr Hc]. assert (ZX : zr X <= zr M /\ zc X <= n) by (unfold X, pyslice; change 0%Z with (Z.of_nat 0); rewrite !bound_nat; simpl; lia). lia.
Qed.
Lemma sh_second s c n k M r F : sh s c M -> gauss_second_any n k M r = Ok F -> sh s c F.
Proof.
  intros H E. unfold gauss_second_any in E. destruct (Nat.eqb _ _); [injection E as <-; exact H|].
  apply bind_ok in E. destruct E as (u & _ & E). apply (foldM_inv (sh s c)) in E; [exact E|apply sh_fold_swap, H|].
  intros M0 j M2 H0 Q. unfold second_step_any in Q. apply bind_ok in Q. destruct Q as (d & _ & Q). apply bind_ok in Q. destruct Q as (M1 & Q1 & Q).
  assert (H1 : sh s c M1).
  { destruct (d =? 0)%Z; [|injection Q1 as <-; exact H0]. apply bind_ok in Q1. destruct Q1 as ([c'|] & _ & Q1); injection Q1 as <-; exact H0. }
  apply (foldM_inv (sh s c)) in Q; [exact Q|exact H1|]. intros M3 i M4 H3 Q3. destruct (Nat.eqb i j); [injection Q3 as <-; exact H3|].
  apply bind_ok in Q3. destruct Q3 as (x & _ & Q3). injection Q3 as <-. destruct (x =? 0)%Z; exact H3.
Qed.

(** ** agreement on strings of length n *)
Lemma getr_in M i j : i < zr M -> j < zc M -> getr M i j = Ok (get M i j).
Proof. intros H1 H2. unfold getr. apply Nat.ltb_lt in H1, H2. rewrite H1, H2. reflexivity. Qed.
Lemma pyslice_nat M r0 r1 c0 c1 : r0 <= zr M -> c0 <= zc M -> pyslice M (Z.of_nat r0) (Z.of_nat r1) (Z.of_nat c0) (Z.of_nat c1) = slice M r0 r1 c0 c1.
Proof.
  intros H1 H2. unfold pyslice. rewrite !bound_nat. unfold slice. rewrite <- !Nat.min_assoc, !Nat.min_id.
  rewrite (Nat.min_l r0), (Nat.min_l c0) by assumption. reflexivity.
Qed.

Lemma search_agree n s j M : sh s (2 * n) M -> j < n -> search_swap_any n s j M = Ok (search_swap n s j M).
Proof.
  intros H Hj. unfold search_swap_any, search_swap.
  match goal with |- bind (foldM ?f ?l ?z) _ = Ok (fst (fold_left ?g _ _)) => destruct (foldM_fold (fun st : zmat * bool => sh s (2 * n) (fst st)) f g l z) as [-> _] end; [exact H| |reflexivity].
  intros [M0 b] [i_col j_row] Hx [H1 H2]. cbn [fst] in *. apply in_prod_iff in Hx. destruct Hx as [A B]. apply in_seq in A, B.
  rewrite getr_in by lia. cbn [bind]. destruct (_ && _)%bool; [|split; [reflexivity|split; assumption]].
  replace (Nat.ltb (i_col + n) (zc M0) && Nat.ltb (j + n) (zc M0))%bool with true; [split; [reflexivity|split; assumption]|].
  symmetry. apply andb_true_intro. split; apply Nat.ltb_lt; lia.
Qed.
Lemma sh_search_swap n s c j m M : sh s c M -> sh s c (search_swap n m j M).
Proof. intros H. rewrite search_swap_find. destruct (find _ _) as [[? ?]|]; exact H. Qed.

Lemma first_agree n s M : sh s (2 * n) M -> 
  gauss_first_any n M = (do _ <- guard (has_entries (slice M 0 (zr M) 0 n)) ValueError; Ok (gauss_first n M)).
Proof.
  intros H. pose proof H as [H1 H2]. unfold gauss_first_any, gauss_first. change 0%Z with (Z.of_nat 0). rewrite pyslice_nat by lia.
  destruct (guard _ _); [|reflexivity]. cbn [bind].
  destruct (matrix_rank_le (slice M 0 (zr M) 0 n) (wf_mk _ _ _)) as [Q1 Q2]. cbn [zr zc slice mk] in Q1, Q2.
  edestruct (foldM_fold (sh s (2 * n)) (first_step_any n (zr M)) (first_step n (zr M))) as [-> _]; [exact H| |reflexivity].
  intros M0 j Hj H0. pose proof H0 as [E1 E2]. apply in_seq in Hj. unfold first_step_any, first_step. rewrite getr_in by lia. cbn [bind]. rewrite H1.
  destruct (get M0 j j =? 0)%Z; [rewrite search_agree by (assumption || lia)|]; cbn [bind]; (split; [reflexivity|apply sh_clear]); [apply sh_search_swap|]; exact H0.
Qed.

Lemma find_col_agree M j n l : j < zr M -> (forall c, In c l -> n + c < zc M) -> find_col M j n l = Ok (find (fun c => get M j (n + c) =? 1)%Z l).
Proof.
  intros Hj. induction l as [|c l IH]; intros H; [reflexivity|]. cbn [find_col find]. rewrite getr_in by (assumption || (apply H; left; reflexivity)). cbn [bind].
  destruct (_ =? 1)%Z; [reflexivity|]. apply IH. intros c' Hc. apply H. right. exact Hc.
Qed.
Lemma clear_agree n s j rows M : sh s (2 * n) M -> j < n -> (forall i, In i rows -> i < s) ->
  foldM (fun M i => if Nat.eqb i j then Ok M else do x <- getr M i (n + j); Ok (if (x =? 0)%Z then M else add_row M j i)) rows M = Ok (clear_col rows j (n + j) M).
Proof.
  intros H Hj Hr. unfold clear_col. match goal with |- foldM ?f ?l ?st = Ok (fold_left ?g _ _) => destruct (foldM_fold (sh s (2 * n)) f g l st) as [-> _] end; [exact H| |reflexivity].
  intros M0 i Hi [E1 E2]. destruct (Nat.eqb i j); [split; [reflexivity|split; assumption]|]. specialize (Hr i Hi). rewrite getr_in by lia. cbn [bind negb andb].
  destruct (_ =? 0)%Z; split; try reflexivity; split; assumption.
Qed.
(** a row range that leaves the array *)
Lemma clear_index n s j m : forall a M, sh s (2 * n) M -> j < n -> j < s -> a <= s -> s < a + m ->
  foldM (fun M i => if Nat.eqb i j then Ok M else do x <- getr M i (n + j); Ok (if (x =? 0)%Z then M else add_row M j i)) (seq a m) M = Err IndexError.
Proof.
  induction m as [|m IH]; intros a M [E1 E2] Hn Hs Ha Hm; [lia|]. cbn [seq foldM].
  destruct (Nat.eq_dec a s) as [->|N].
  - destruct (Nat.eqb_spec s j); [lia|]. unfold getr. rewrite E1, Nat.ltb_irrefl. reflexivity.
  - destruct (Nat.eqb_spec a j); [cbn [bind]; apply IH; (split; assumption) || lia|]. rewrite getr_in by lia. cbn [bind].
    apply IH; try lia. destruct (_ =? 0)%Z; split; assumption.
Qed.
Lemma second_agree n k s M r : sh s (2 * n) M -> k <= n -> r <= s -> r <= n -> gauss_second_any n k M r = gauss_second n k M r.
Proof.
  intros H Hk Hs Hn. pose proof H as [H1 H2]. unfold gauss_second_any, gauss_second. destruct (Nat.eqb_spec r (zr M)) as [|N]; [reflexivity|].
  rewrite pyslice_nat by lia. rewrite H2. cbv zeta. destruct (guard _ _) as [|]; [|reflexivity]. cbn [bind].
  destruct (matrix_rank_le (slice M r (zr M) (n + r) (2 * n)) (wf_mk _ _ _)) as [Q1 Q2]. cbn [zr zc slice mk] in Q1, Q2. rewrite H1, H2 in *.
  set (e := matrix_rank _) in *. set (M1 := fold_left _ _ M). assert (S1 : sh s (2 * n) M1) by (apply sh_fold_swap; exact H).
  replace (Z.of_nat n - Z.of_nat k)%Z with (Z.of_nat (n - k)) by lia.
  assert (HM1 : forall M0 j, sh s (2 * n) M0 -> In j (seq r e) -> exists M2, sh s (2 * n) M2 /\
    (second_step_any n (Z.of_nat (n - k)) r M0 j = foldM (fun M i => if Nat.eqb i j then Ok M else do x <- getr M i (n + j); Ok (if (x =? 0)%Z then M else add_row M j i)) (seq r (n - k - r)) M2) /\
    second_step n (n - k) r M0 j = clear_col (seq r (n - k - r)) j (n + j) M2).
  { intros M0 j H0 Hj. pose proof H0 as [E1 E2]. apply in_seq in Hj. unfold second_step_any, second_step. rewrite getr_in by lia. cbn [bind]. rewrite Nat2Z.id.
    destruct (get M0 j (n + j) =? 0)%Z.
    - rewrite find_col_agree; [|lia|intros c Hc; apply in_seq in Hc; lia]. cbn [bind]. destruct (find _ _); eexists; (split; [|split; reflexivity]); exact H0.
    - exists M0. split; [exact H0|]. split; reflexivity. }
  destruct (Nat.ltb_spec s (n - k)) as [L|L].
  - destruct (Nat.ltb_spec 0 e) as [Le|Le]; cbn [andb]; [|replace e with 0 by lia; reflexivity].
    destruct e as [|e]; [lia|]. cbn [seq foldM]. destruct (HM1 M1 r S1 (or_introl eq_refl)) as (M2 & S2 & -> & _).
    rewrite (clear_index n s) by (assumption || lia). reflexivity.
  - cbn [andb]. edestruct (foldM_fold (sh s (2 * n)) (second_step_any n (Z.of_nat (n - k)) r) (second_step n (n - k) r)) as [-> _]; [exact S1| |reflexivity].
    intros M0 j Hj H0. destruct (HM1 M0 j H0 Hj) as (M2 & S2 & -> & ->). apply in_seq in Hj. split; [|apply sh_clear; exact S2].
    apply (clear_agree n s); [exact S2|lia|]. intros i Hi. apply in_seq in Hi. lia.
Qed.
Lemma logical_agree n k s F r : sh s (2 * n) F -> k <= n -> r <= s -> r <= n -> logical_operators_any n k F r = logical_operators n k F r.
Proof.
  intros [H1 H2] Hk Hs Hn. unfold logical_operators_any, logical_operators. destruct (assert_ _); [|reflexivity]. cbn [bind]. cbv zeta.
  replace (Z.of_nat n - Z.of_nat k)%Z with (Z.of_nat (n - k)) by lia. replace (2 * Z.of_nat n - Z.of_nat k)%Z with (Z.of_nat (2 * n - k)) by lia.
  replace (Z.of_nat n + Z.of_nat r)%Z with (Z.of_nat (n + r)) by lia. change 0%Z with (Z.of_nat 0). rewrite !pyslice_nat by lia. rewrite H2.
  destruct (zdot _ _); [|reflexivity]. cbn [bind]. destruct (zadd2 _ _); [|reflexivity]. cbn [bind]. destruct (hstack _ _); [|reflexivity]. cbn [bind].
  replace (Z.of_nat 0 <=? Z.of_nat (n - k) - Z.of_nat r)%Z with (Nat.leb r (n - k)); [reflexivity|]. destruct (Nat.leb_spec r (n - k)), (Z.leb_spec (Z.of_nat 0) (Z.of_nat (n - k) - Z.of_nat r)); try reflexivity; lia.
Qed.
Lemma body_agree M n k ops : is_stabilizer_code M = true -> zc M = 2 * n -> k <= n ->
  (do ps <- mapM binary_rep_to_pauli_str (zd M);
   do nf <- gauss_first_any n M;
   let '(M1, rank) := nf in
   do F <- gauss_second_any n k M1 rank;
   do lops <- match ops with
              | None => logical_operators_any n k F rank
              | Some (lx, lz) =>
                  do _ <- assert_ (Nat.eqb (zc lx) (2 * n));
                  do _ <- assert_ (Nat.eqb (zc lz) (2 * n));
                  Ok (lx, lz)
              end;
   Ok (Code n k M ps F rank (fst lops) (snd lops))) = init_body M n k ops.
Proof.
  intros ES C Hk.
  unfold init_body. rewrite ES. cbn [assert_ bind]. destruct (mapM _ _); [|reflexivity]. cbn [bind].
  unfold standard_normal_form. rewrite (first_agree n (zr M)) by (split; [reflexivity|exact C]). destruct (guard _ _) eqn:G; [|reflexivity]. cbn [bind].
  destruct (gauss_first n M) as [M1 r] eqn:E1.
  assert (Q : gauss_first_any n M = Ok (M1, r)). { rewrite (first_agree n (zr M)) by (split; [reflexivity|exact C]). rewrite G. cbn [bind]. rewrite E1. reflexivity. }
  destruct (sh_first (zr M) (2 * n) n M M1 r (conj eq_refl C) Q) as (S1 & _ & B1 & B2 & _).
  rewrite (second_agree n k (zr M)) by assumption. destruct (gauss_second n k M1 r) as [F|] eqn:E2; [|reflexivity]. cbn [bind].
  assert (SF : sh (zr M) (2 * n) F). { apply (sh_second _ _ n k M1 r F S1). rewrite (second_agree n k (zr M)) by assumption. exact E2. }
  destruct ops as [[lx lz]|]; [reflexivity|]. rewrite (logical_agree n k (zr M)) by assumption. reflexivity.
Qed.

Theorem strings_agree_length p l n k ops : length p = n -> k <= n -> init_strings (p :: l) n k ops = init (Strings (p :: l)) n k ops.
Proof.
  intros L Hk. unfold init_strings, init. destruct (pauli_str_to_binary_representation (p :: l)) as [M|] eqn:EM; [|reflexivity]. cbn [bind].
  destruct (pauli_mat_ok _ M EM) as (_ & _ & (p0 & l0 & E & C) & _). injection E as <- <-. rewrite L in C.
  destruct (is_stabilizer_code M) eqn:ES; [|reflexivity]. cbn [negb assert_ bind]. rewrite C, Nat.eqb_refl. apply Nat.leb_le in Hk as Hb. rewrite Hb. cbn [andb]. apply body_agree; assumption.
Qed.
Theorem strings_agree l n k ops : init (Strings l) n k ops <> Err Unmodelled -> init_strings l n k ops = init (Strings l) n k ops.
Proof.
  unfold init_strings, init. destruct (pauli_str_to_binary_representation l) as [M|] eqn:EM; [|reflexivity]. cbn [bind].
  destruct (is_stabilizer_code M) eqn:ES; [|reflexivity]. cbn [negb assert_ bind].
  destruct (Nat.eqb_spec (zc M) (2 * n)) as [C|]; [|intros N; exfalso; apply N; reflexivity].
  destruct (Nat.leb_spec k n) as [Hk|]; [|intros N; exfalso; apply N; reflexivity]. intros _. cbn [andb].
  apply body_agree; assumption.
Qed.

(** ** what acceptance without logical operators implies *)
Theorem strings_checked l n k c : init_strings l n k None = Ok c ->
  exists p0 l', l = p0 :: l' /\ 0 < n /\ k <= n /\ (0 < k -> length p0 = n) /\ (k = 0 -> length p0 <= n).
Proof.
  unfold init_strings. intros H. apply bind_ok in H. destruct H as (M & EM & H). destruct (pauli_mat_ok l M EM) as (W & Z & (p0 & l' & El & C) & _).
  apply bind_ok in H. destruct H as (u & _ & H). apply bind_ok in H. destruct H as (ps & _ & H). apply bind_ok in H. destruct H as ([M1 r] & E1 & H).
  destruct (sh_first (zr M) (zc M) n M M1 r (conj eq_refl eq_refl) E1) as (S1 & _ & B1 & B2 & B3).
  apply bind_ok in H. destruct H as (F & E2 & H). pose proof (sh_second _ _ _ _ _ _ _ S1 E2) as [F1 F2].
  apply bind_ok in H. destruct H as ([lx lz] & E3 & _). unfold logical_operators_any in E3.
  apply bind_ok in E3. destruct E3 as (u1 & _ & E3). apply bind_ok in E3. destruct E3 as (ec & _ & E3). apply bind_ok in E3. destruct E3 as (ec2 & _ & E3).
  apply bind_ok in E3. destruct E3 as (lx' & HX & E3). apply bind_ok in E3. destruct E3 as (u2 & G & _).
  unfold guard in G. destruct (Z.leb_spec 0 (Z.of_nat n - Z.of_nat k - Z.of_nat r)) as [L|]; [|discriminate].
  cbn [hstack] in HX. destruct (Nat.eqb_spec (zr (zeros k r)) (zr (ztrans (pyslice F (Z.of_nat r) (Z.of_nat (zr F)) (2 * Z.of_nat n - Z.of_nat k) (Z.of_nat (zc F)))))) as [E|]; [|discriminate].
  replace (2 * Z.of_nat n - Z.of_nat k)%Z with (Z.of_nat (2 * n - k)) in E by lia. unfold pyslice in E. rewrite !bound_nat in E. cbn [zeros ztrans slice mk zr zc] in E. rewrite F2, C in E.
  exists p0, l'. split; [exact El|]. split; [exact B3|]. split; [lia|]. split; intros; lia.
Qed.
Lemma nth_error_Some_lt {A} (l : list A) i x : nth_error l i = Some x -> i < length l.
Proof. intros H. apply nth_error_Some. rewrite H. discriminate. Qed.
Lemma pauli_row_enough n p row : pauli_row n p = Ok row -> n <= length p.
Proof.
  unfold pauli_row. intros H. apply bind_ok in H. destruct H as (bits & H & _). destruct n as [|n]; [lia|].
  apply mapM_ok in H. destruct (le_lt_dec (S n) (length p)) as [L|L]; [exact L|exfalso].
  rewrite seq_S in H. apply Forall2_app_inv_l in H. destruct H as (b1 & b2 & _ & H & _). inversion H as [|? ? ? ? Hx]; subst. cbn in Hx.
  destruct (nth_error p n) eqn:E; [|discriminate]. apply nth_error_Some_lt in E. lia.
Qed.

(** ** letters and bits *)
Lemma Forall2_nth_2' {A B} (P : A -> B -> Prop) l l' d d' i : Forall2 P l l' -> i < length l -> P (nth i l d) (nth i l' d').
Proof. intros F. revert i. induction F; intros [|i] Hi; cbn in *; try lia; [assumption|]. apply IHF. lia. Qed.
Lemma char_bits_inv c x z : char_bits c = Ok (x, z) -> pauli_letter c /\
  x = (if (Ascii.eqb c "X" || Ascii.eqb c "Y")%bool then 1 else 0)%Z /\ z = (if (Ascii.eqb c "Z" || Ascii.eqb c "Y")%bool then 1 else 0)%Z.
Proof.
  unfold char_bits, pauli_letter. intros H.
  destruct (Ascii.eqb_spec c "X") as [->|]; [injection H as <- <-; auto|]. destruct (Ascii.eqb_spec c "Z") as [->|]; [injection H as <- <-; auto 6|].
  destruct (Ascii.eqb_spec c "Y") as [->|]; [injection H as <- <-; auto 6|]. destruct (Ascii.eqb_spec c "I") as [->|]; [injection H as <- <-; auto 6|discriminate].
Qed.
Lemma pauli_row_spells n p row : pauli_row n p = Ok row -> spells n p row.
Proof.
  unfold pauli_row. intros H. apply bind_ok in H. destruct H as (bits & H & E). injection E as <-. apply mapM_ok in H. pose proof (Forall2_length H) as L. rewrite seq_length in L.
  split; [rewrite app_length, !map_length; lia|]. intros j Hj.
  pose proof (Forall2_nth_2' _ _ _ 0 (0, 0)%Z j H ltac:(rewrite seq_length; exact Hj)) as F. cbv beta in F. rewrite seq_nth in F by exact Hj. cbn [Nat.add] in F.
  destruct (nth_error p j) as [c|] eqn:E; [|discriminate]. exists c. split; [reflexivity|]. destruct (nth j bits (0, 0)%Z) as [x z] eqn:EB. destruct (char_bits_inv c x z F) as (PL & -> & ->). split; [exact PL|].
  rewrite app_nth1 by (rewrite map_length; lia). rewrite app_nth2 by (rewrite map_length; lia). rewrite map_length. replace (n + j - length bits) with j by lia.
  rewrite (map_nth fst bits (0, 0)%Z j : nth j (map fst bits) 0%Z = _), (map_nth snd bits (0, 0)%Z j : nth j (map snd bits) 0%Z = _), EB. split; reflexivity.
Qed.
Theorem strings_spell l M : pauli_str_to_binary_representation l = Ok M -> Forall2 (spells (length (nth 0 l []))) l (zd M).
Proof.
  unfold pauli_str_to_binary_representation. destruct l as [|p0 l]; [discriminate|]. intros H. apply bind_ok in H. destruct H as (rows & H & E). injection E as <-. cbn [zd nth].
  apply mapM_ok in H. induction H; constructor; [apply pauli_row_spells; assumption|assumption].
Qed.
Lemma str_of_spells n r : length r = 2 * n -> binary r -> spells n (str_of n r) r.
Proof.
  intros L B. split; [exact L|]. intros j Hj. exists (cchar (nth j r 0%Z) (nth (n + j) r 0%Z)). split.
  - unfold str_of. rewrite (nth_error_nth' _ "I"%char) by (rewrite map_length, seq_length; exact Hj). f_equal. rewrite (nth_map_seq (fun i => cchar (nth i r 0%Z) (nth (n + i) r 0%Z))) by exact Hj. reflexivity.
  - destruct (binary_nth r j B) as [-> | ->], (binary_nth r (n + j) B) as [-> | ->]; unfold pauli_letter; cbn; auto 6.
Qed.
Theorem row_spelled n r : length r = 2 * n -> binary r -> exists p, binary_rep_to_pauli_str r = Ok p /\ length p = n /\ spells n p r.
Proof. intros L B. exists (str_of n r). split; [apply to_str_row; assumption|]. split; [unfold str_of; rewrite map_length, seq_length; reflexivity|apply str_of_spells; assumption]. Qed.
Lemma spells_binary n p r : spells n p r -> binary r.
Proof.
  intros (L & H). apply Forall_forall. intros z Hz. apply (In_nth _ _ 0%Z) in Hz. destruct Hz as (i & Hi & <-). rewrite L in Hi. destruct (Nat.lt_ge_cases i n) as [G|G].
  - destruct (H i G) as (c & _ & _ & -> & _). destruct (_ || _); auto.
  - destruct (H (i - n) ltac:(lia)) as (c & _ & _ & _ & E). replace (n + (i - n)) with i in E by lia. rewrite E. destruct (_ || _); auto.
Qed.
Lemma spells_inj n p r : length p = n -> spells n p r -> p = str_of n r.
Proof.
  intros L (_ & H). apply (nth_ext _ _ "I"%char "I"%char); [unfold str_of; rewrite map_length, seq_length; exact L|]. intros i Hi. unfold str_of. rewrite (nth_map_seq (fun i => cchar (nth i r 0%Z) (nth (n + i) r 0%Z))) by lia.
  destruct (H i ltac:(lia)) as (c & E & PL & -> & ->). apply nth_error_nth with (d := "I"%char) in E. rewrite E. destruct PL as [->|[->|[->| ->]]]; reflexivity.
Qed.
Theorem errors_repaired attrs g n k ops c : In (str "_commute") attrs -> In (str "_convert_binary_representation_to_pauli") attrs -> init g n k ops = Ok c ->
  exists S, undetectable_errors_with attrs c = Ok S /\
    forall p, In p S <-> length p = n /\ exists v, spells n p v /\ forall r, In r (zd (stab c)) -> commute n r v.
Proof.
  intros A1 A2 I. destruct (normalizer_repaired attrs g n k ops c A1 I) as (l & E & HL). exists (map (str_of n) l). split.
  - unfold undetectable_errors_with. rewrite E. cbn [bind]. apply mapM_map. intros v Hv. unfold getattr. destruct (in_dec _ _ _) as [_|N]; [|contradiction]. cbn [bind]. apply HL in Hv. apply to_str_row; apply Hv.
  - intros p. rewrite in_map_iff. split.
    + intros (v & <- & Hv). apply HL in Hv. destruct Hv as (L & B & C). split; [unfold str_of; rewrite map_length, seq_length; reflexivity|]. exists v. split; [apply str_of_spells; assumption|exact C].
    + intros (L & v & HS & C). exists v. split; [symmetry; apply spells_inj; assumption|]. apply HL. split; [apply HS|]. split; [apply (spells_binary n p), HS|exact C].
Qed.
