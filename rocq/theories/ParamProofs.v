(** StandardBasis: the two conversions are mutually inverse. *)
From Verif Require Import Py Scalar PauliModel PauliSpec EncoderProofs ParamModel ParamSpec.
From Coq Require Import Reals Lra.
Open Scope nat_scope.

Definition enc (rho : array CC) (p : nat * nat) : list R :=
  if Nat.eqb (fst p) (snd p) then [fst (rho (fst p) (snd p))] else [fst (rho (fst p) (snd p)); snd (rho (fst p) (snd p))].
Definition psize (p : nat * nat) : nat := if Nat.eqb (fst p) (snd p) then 1 else 2.
Definition total (ps : list (nat * nat)) : nat := list_sum (map psize ps).
Lemma enc_length rho p : length (enc rho p) = psize p.
Proof. unfold enc, psize. destruct (Nat.eqb (fst p) (snd p)); reflexivity. Qed.
Lemma flat_enc_length rho ps : length (flat_map (enc rho) ps) = total ps.
Proof. induction ps as [|p ps IH]; [reflexivity|]. cbn. rewrite app_length, enc_length, IH. reflexivity. Qed.

Lemma upper_In n i j : In (i, j) (upper_pairs n) <-> i <= j < n.
Proof.
  unfold upper_pairs. rewrite in_flat_map. split.
  - intros (a & Ha & H). apply in_map_iff in H. destruct H as (b & E & Hb). inversion E; subst. apply in_seq in Ha, Hb. lia.
  - intros H. exists i. split; [apply in_seq; lia|]. apply in_map_iff. exists j. split; [reflexivity|apply in_seq; lia].
Qed.
Lemma NoDup_flat_rows (f : nat -> list nat) l : NoDup l -> (forall i, NoDup (f i)) -> NoDup (flat_map (fun i => map (fun j => (i, j)) (f i)) l).
Proof.
  intros ND Hf. induction l as [|a l IH]; cbn; [constructor|]. apply NoDup_cons_iff in ND. destruct ND as [NI ND].
  assert (D : forall p, In p (map (fun j => (a, j)) (f a)) -> ~ In p (flat_map (fun i => map (fun j => (i, j)) (f i)) l)).
  { intros p H1 H2. apply in_map_iff in H1. destruct H1 as (b & <- & _). apply in_flat_map in H2. destruct H2 as (c & Hc & H2).
    apply in_map_iff in H2. destruct H2 as (e & E & _). inversion E; subst. contradiction. }
  specialize (IH ND). revert D. generalize (flat_map (fun i => map (fun j => (i, j)) (f i)) l) IH. intros m Hm D.
  assert (N1 : NoDup (map (fun j => (a, j)) (f a))).
  { clear D. specialize (Hf a). induction Hf as [|x r N _ IHr]; cbn; constructor; [|exact IHr]. intros H. apply in_map_iff in H. destruct H as (y & E & Hy). inversion E; subst. contradiction. }
  induction N1 as [|x r N _ IHr]; cbn; [exact Hm|]. constructor.
  - intros H. apply in_app_or in H. destruct H as [H|H]; [contradiction|]. apply (D x); [left; reflexivity|exact H].
  - apply IHr. intros p Hp. apply D. right. exact Hp.
Qed.
Lemma upper_NoDup n : NoDup (upper_pairs n).
Proof. apply (NoDup_flat_rows (fun i => seq i (n - i))); [apply seq_NoDup|intros; apply seq_NoDup]. Qed.

(** ** vec_from_rho writes the entries one after the other *)
Lemma vset_mid (w : list R) z k x : vset (w ++ z :: k) (length w) x = Ok (w ++ x :: k).
Proof.
  unfold vset. rewrite app_length. replace (length w <? length w + length (z :: k)) with true by (symmetry; apply Nat.ltb_lt; cbn; lia).
  f_equal. f_equal; [rewrite firstn_app, Nat.sub_diag, firstn_all, app_nil_r; reflexivity|].
  f_equal. rewrite skipn_app. rewrite skipn_all2 by lia. replace (S (length w) - length w) with 1 by lia. reflexivity.
Qed.
Lemma vec_step rho w k p : std_vec_step rho (w ++ repeat 0%R (psize p + k), length w) p = Ok ((w ++ enc rho p) ++ repeat 0%R k, length w + psize p).
Proof.
  destruct p as [i j]. unfold std_vec_step, psize, enc. cbn [fst snd]. destruct (Nat.eqb i j).
  - cbn [repeat plus]. rewrite vset_mid. cbn [bind]. rewrite <- app_assoc. reflexivity.
  - cbn [repeat plus]. rewrite vset_mid. cbn [bind].
    replace (w ++ fst (rho i j) :: 0%R :: repeat 0%R k) with ((w ++ [fst (rho i j)]) ++ 0%R :: repeat 0%R k) by (rewrite <- app_assoc; reflexivity).
    replace (length w + 1) with (length (w ++ [fst (rho i j)])) by (rewrite app_length; reflexivity).
    rewrite vset_mid. cbn [bind]. rewrite app_length. cbn [length]. rewrite <- !app_assoc. cbn [app]. do 2 f_equal. lia.
Qed.
Lemma total_cons p ps : total (p :: ps) = psize p + total ps. Proof. reflexivity. Qed.
Lemma vec_loop rho : forall ps w,
  foldM (std_vec_step rho) ps (w ++ repeat 0%R (total ps), length w) = Ok (w ++ flat_map (enc rho) ps, length w + total ps).
Proof.
  induction ps as [|p ps IH]; intros w.
  - cbn. rewrite Nat.add_0_r. reflexivity.
  - cbn [foldM flat_map]. rewrite total_cons, vec_step. cbn [bind].
    replace (length w + psize p) with (length (w ++ enc rho p)) by (rewrite app_length, enc_length; reflexivity).
    rewrite IH. rewrite app_length, enc_length, <- app_assoc, Nat.add_assoc. reflexivity.
Qed.

(** ** the number of variables *)
Lemma total_app a b : total (a ++ b) = total a + total b.
Proof. unfold total. rewrite map_app, list_sum_app. reflexivity. Qed.
Lemma total_row i : forall m s, i < s -> total (map (fun j => (i, j)) (seq s m)) = 2 * m.
Proof.
  induction m as [|m IH]; intros s Hs; [reflexivity|]. cbn [seq map]. rewrite total_cons, IH by lia. unfold psize. cbn [fst snd].
  replace (i =? s) with false by (symmetry; apply Nat.eqb_neq; lia). lia.
Qed.
Lemma total_rows n : forall m, m <= n -> total (flat_map (fun i => map (fun j => (i, j)) (seq i (n - i))) (seq 0 m)) = m * (2 * n - m).
Proof.
  induction m as [|m IH]; intros Hm; [reflexivity|]. rewrite seq_S, flat_map_app, total_app, IH by lia. cbn [flat_map plus]. rewrite app_nil_r.
  replace (n - m) with (S (n - m - 1)) by lia. cbn [seq map]. rewrite total_cons, total_row by lia. unfold psize. cbn [fst snd]. rewrite Nat.eqb_refl. nia.
Qed.
Lemma total_upper n : total (upper_pairs n) = n * n.
Proof. unfold upper_pairs. rewrite total_rows by lia. nia. Qed.

Theorem std_vec_value rho n : mr rho = n -> mc rho = n -> std_vec_from_rho rho n = Ok (flat_map (enc (me rho)) (upper_pairs n)).
Proof.
  intros R C. unfold std_vec_from_rho. rewrite R, C, Nat.eqb_refl. cbn [andb assert_ bind].
  replace (n ^ 2) with (total (upper_pairs n)) by (rewrite total_upper; cbn; nia).
  pose proof (vec_loop (me rho) (upper_pairs n) []) as V. cbn [app length] in V. rewrite V. reflexivity.
Qed.

(** ** rho_from_vec reads them back *)
Definition ct (z : CC) : CC := sconj z.
Lemma aset_same A i j z : aset A i j z i j = z.
Proof. unfold aset. rewrite !Nat.eqb_refl. reflexivity. Qed.
Lemma aset_other A i j z a b : (a, b) <> (i, j) -> aset A i j z a b = A a b.
Proof.
  intros H. unfold aset. destruct (Nat.eqb_spec a i); [|reflexivity]. destruct (Nat.eqb_spec b j); [|reflexivity]. subst. contradiction.
Qed.
Lemma skip_cons {A} (v : list A) c x : nth_error v c = Some x -> skipn c v = x :: skipn (S c) v.
Proof. revert c. induction v as [|y v IH]; intros [|c] H; cbn in *; try discriminate; [inversion H; reflexivity|]. apply IH, H. Qed.
Lemma vget_ok v c : c < length v -> exists x, vget v c = Ok x /\ nth_error v c = Some x.
Proof. intros H. unfold vget. destruct (nth_error v c) as [x|] eqn:E; [eauto|]. apply nth_error_None in E. lia. Qed.

Lemma rho_step vec rho c p : fst p <= snd p -> c + psize p <= length vec ->
  rho (fst p) (snd p) = s0 -> rho (snd p) (fst p) = s0 ->
  exists rho', std_rho_step vec (rho, c) p = Ok (rho', c + psize p) /\
    enc rho' p ++ skipn (c + psize p) vec = skipn c vec /\
    rho' (snd p) (fst p) = sconj (rho' (fst p) (snd p)) /\
    (forall a b, (a, b) <> p -> (b, a) <> p -> rho' a b = rho a b).
Proof.
  destruct p as [i j]. unfold psize, enc, std_rho_step. cbn [fst snd]. intros Hij Hl Z1 Z2. destruct (Nat.eqb_spec i j) as [->|N].
  - destruct (vget_ok vec c) as (x & V & X); [lia|]. rewrite V. cbn [bind]. eexists. split; [reflexivity|]. rewrite aset_same, Z1. split; [|split].
    + rewrite (skip_cons vec c x X), Nat.add_1_r. cbn. rewrite Rplus_0_l. reflexivity.
    + apply CC_eq; cbn; ring.
    + intros a b H _. apply aset_other, H.
  - destruct (vget_ok vec c) as (x & V & X); [lia|]. destruct (vget_ok vec (c + 1)) as (y & W & Y); [lia|].
    rewrite V. cbn [bind]. rewrite W. cbn [bind]. eexists. split; [reflexivity|].
    assert (O : (i, j) <> (j, i)) by (intros E; inversion E; lia).
    assert (O' : (j, i) <> (i, j)) by (intros E; inversion E; lia).
    match goal with |- context [sconj (?r i j)] => set (rho' := r) end.
    assert (E1 : rho' i j = ((x, y) : CC)).
    { unfold rho'. rewrite !(aset_other _ j i _ i j) by exact O. rewrite !aset_same, Z1. apply CC_eq; cbn; ring. }
    assert (E2 : rho' j i = ((x, (- y)%R) : CC)).
    { unfold rho'. rewrite !aset_same. rewrite !(aset_other _ i j _ j i) by exact O'. rewrite Z2. apply CC_eq; cbn; ring. }
    rewrite E1, E2. split; [|split].
    + rewrite (skip_cons vec c x X), (skip_cons vec (S c) y) by (rewrite <- Nat.add_1_r; exact Y). replace (c + 2) with (S (S c)) by lia. reflexivity.
    + reflexivity.
    + intros a b H1 H2. unfold rho'. rewrite !aset_other; [reflexivity|exact H1|exact H1| |]; intros E; apply H2; inversion E; reflexivity.
Qed.

Lemma rho_loop vec : forall ps rho c, NoDup ps -> (forall p, In p ps -> fst p <= snd p) -> c + total ps = length vec ->
  (forall p, In p ps -> rho (fst p) (snd p) = s0 /\ rho (snd p) (fst p) = s0) ->
  exists rho', foldM (std_rho_step vec) ps (rho, c) = Ok (rho', length vec) /\
    flat_map (enc rho') ps = skipn c vec /\
    (forall p, In p ps -> rho' (snd p) (fst p) = sconj (rho' (fst p) (snd p))) /\
    (forall a b, ~ In (a, b) ps -> ~ In (b, a) ps -> rho' a b = rho a b).
Proof.
  induction ps as [|p ps IH]; intros rho c ND Up Len Z.
  - exists rho. change (total []) with 0 in Len. split; [cbn [foldM]; rewrite Nat.add_0_r in Len; rewrite Len; reflexivity|]. split; [|split; [intros p []|reflexivity]]. cbn. symmetry. apply skipn_all2. lia.
  - apply NoDup_cons_iff in ND. destruct ND as [NI ND]. rewrite total_cons in Len.
    destruct (rho_step vec rho c p) as (rho1 & S & E1 & H1 & O1).
    { apply Up. left. reflexivity. } { lia. } { apply Z. left. reflexivity. } { apply Z. left. reflexivity. }
    assert (Sw : forall q, In q ps -> (snd q, fst q) <> p).
    { intros [a b] Hq E. subst p. specialize (Up (a, b) (or_intror Hq)) as U1. specialize (Up _ (or_introl eq_refl)) as U2. cbn in *. assert (a = b) by lia. subst. contradiction. }
    destruct (IH rho1 (c + psize p)) as (rho' & F & E & H & O).
    { exact ND. } { intros q Hq. apply Up. right. exact Hq. } { lia. }
    { intros q Hq. specialize (Z q (or_intror Hq)). assert (NE : q <> p) by (intros ->; contradiction). pose proof (Sw q Hq) as NE'.
      rewrite !O1; [exact Z|exact NE'|destruct q; exact NE|destruct q; exact NE|exact NE']. }
    exists rho'. split; [cbn [foldM]; rewrite S; exact F|].
    assert (NP : ~ In (snd p, fst p) ps).
    { intros Hq. specialize (Sw _ Hq). apply Sw. destruct p; reflexivity. }
    assert (K1 : rho' (fst p) (snd p) = rho1 (fst p) (snd p)) by (apply O; [destruct p; exact NI|exact NP]).
    assert (K2 : rho' (snd p) (fst p) = rho1 (snd p) (fst p)) by (apply O; [exact NP|destruct p; exact NI]).
    split; [|split].
    + cbn [flat_map]. rewrite E. rewrite <- E1. f_equal. unfold enc. rewrite K1. reflexivity.
    + intros q [<-|Hq]; [rewrite K1, K2; exact H1|apply H, Hq].
    + intros a b N1 N2. cbn in N1, N2. rewrite O by tauto. apply O1; intros E2; [apply N1|apply N2]; left; symmetry; exact E2.
Qed.

Theorem std_rho_value vec n : length vec = n * n ->
  exists rho, std_rho_from_vec vec n = Ok rho /\ mr rho = n /\ mc rho = n /\ hermitian n (me rho) /\ flat_map (enc (me rho)) (upper_pairs n) = vec.
Proof.
  intros L. unfold std_rho_from_vec. rewrite (proj2 (Nat.eqb_eq _ _) L). cbn [assert_ bind].
  destruct (rho_loop vec (upper_pairs n) azeros 0) as (rho & F & E & H & _).
  { apply upper_NoDup. } { intros [i j] Hp. apply upper_In in Hp. cbn. lia. } { rewrite total_upper. cbn. symmetry. exact L. } { split; reflexivity. }
  match goal with |- context [foldM ?f ?l ?s] => replace (foldM f l s) with (@Ok (array CC * nat) (rho, length vec)) by (symmetry; exact F) end. cbn [bind fst]. eexists. split; [reflexivity|]. cbn [mr mc me]. repeat split; [|exact E].
  intros i j Hi Hj. unfold adj. destruct (Nat.le_ge_cases i j) as [Hij|Hij].
  - pose proof (H (i, j)) as Q. cbn [fst snd] in Q. rewrite Q by (apply upper_In; lia). rewrite sconj_conj. reflexivity.
  - pose proof (H (j, i)) as Q. cbn [fst snd] in Q. rewrite Q by (apply upper_In; lia). reflexivity.
Qed.

Lemma enc_inj r1 r2 ps : flat_map (enc r1) ps = flat_map (enc r2) ps -> forall p, In p ps -> enc r1 p = enc r2 p.
Proof.
  induction ps as [|q ps IH]; intros E p Hp; [destruct Hp|]. cbn [flat_map] in E.
  assert (A : enc r1 q = enc r2 q /\ flat_map (enc r1) ps = flat_map (enc r2) ps).
  { revert E. generalize (flat_map (enc r1) ps) (flat_map (enc r2) ps). unfold enc. destruct (Nat.eqb (fst q) (snd q)); intros l m E; inversion E; subst; split; reflexivity. }
  destruct A as [A B]. destruct Hp as [<-|Hp]; [exact A|apply IH; assumption].
Qed.
Lemma herm_enc n r1 r2 : hermitian n r1 -> hermitian n r2 -> flat_map (enc r1) (upper_pairs n) = flat_map (enc r2) (upper_pairs n) -> eqm n n r1 r2.
Proof.
  intros H1 H2 E.
  assert (U : forall i j, i <= j -> j < n -> r1 i j = r2 i j).
  { intros i j Hij Hj. pose proof (enc_inj r1 r2 _ E (i, j)) as Q. rewrite upper_In in Q. specialize (Q (conj Hij Hj)). unfold enc in Q. cbn [fst snd] in Q.
    destruct (Nat.eqb_spec i j) as [->|N].
    - assert (D : forall r : array CC, hermitian n r -> snd (r j j) = 0%R). { intros r Hr. specialize (Hr j j Hj Hj). unfold adj in Hr. apply (f_equal snd) in Hr. cbn in Hr. lra. }
      apply CC_eq; [|rewrite !D by assumption; reflexivity]. exact (f_equal (hd 0%R) Q).
    - apply CC_eq; [exact (f_equal (hd 0%R) Q)|exact (f_equal (fun l => hd 0%R (tl l)) Q)]. }
  intros i j Hi Hj. destruct (Nat.le_ge_cases i j) as [Hij|Hij]; [apply U; assumption|].
  rewrite <- (H1 i j Hi Hj), <- (H2 i j Hi Hj). unfold adj. rewrite (U j i) by assumption. reflexivity.
Qed.

(** ** the order of the variables *)
Lemma row_pos (f : nat -> list R) : forall l k i, nth_error l k = Some i ->
  flat_map f l = flat_map f (firstn k l) ++ f i ++ flat_map f (skipn (S k) l).
Proof.
  intros l k i H. rewrite <- (firstn_skipn k l) at 1. rewrite flat_map_app, (skip_cons l k i H). reflexivity.
Qed.
Lemma nth_mid (a b c : list R) k d : k < length b -> nth (length a + k) (a ++ b ++ c) d = nth k b d.
Proof. intros H. rewrite app_nth2 by lia. replace (length a + k - length a) with k by lia. apply app_nth1, H. Qed.
Lemma flat_map_map {A B C} (f : B -> list C) (g : A -> B) l : flat_map f (map g l) = flat_map (fun x => f (g x)) l.
Proof. induction l as [|x l IH]; [reflexivity|]. cbn. rewrite IH. reflexivity. Qed.
Lemma flat_map_flat {A B C} (f : B -> list C) (g : A -> list B) l : flat_map f (flat_map g l) = flat_map (fun x => flat_map f (g x)) l.
Proof. induction l as [|x l IH]; [reflexivity|]. cbn. rewrite flat_map_app, IH. reflexivity. Qed.
Lemma nth_seq_err s n k : k < n -> nth_error (seq s n) k = Some (s + k).
Proof. intros H. rewrite (nth_error_nth' _ 0) by (rewrite seq_length; exact H). rewrite seq_nth by exact H. reflexivity. Qed.
Lemma firstn_seq k s n : k <= n -> firstn k (seq s n) = seq s k.
Proof. intros H. replace n with (k + (n - k)) by lia. rewrite seq_app, firstn_app, seq_length, Nat.sub_diag. cbn. rewrite app_nil_r. apply firstn_all2. rewrite seq_length. lia. Qed.

Lemma enc_row_pos rho n i : i < n -> exists a c, flat_map (enc rho) (upper_pairs n) = a ++ flat_map (fun j => enc rho (i, j)) (seq i (n - i)) ++ c /\ length a = i * (2 * n - i).
Proof.
  intros Hi. unfold upper_pairs. rewrite flat_map_flat.
  rewrite (row_pos _ (seq 0 n) i i) by (rewrite nth_seq_err by exact Hi; reflexivity).
  do 2 eexists. split; [rewrite flat_map_map; reflexivity|]. rewrite firstn_seq by lia. rewrite <- flat_map_flat, flat_enc_length. apply total_rows. lia.
Qed.
Lemma std_layout_diag rho n i : i < n -> nth (i * (2 * n - i)) (flat_map (enc rho) (upper_pairs n)) 0%R = fst (rho i i).
Proof.
  intros Hi. destruct (enc_row_pos rho n i Hi) as (a & c & -> & L). rewrite <- L. replace (length a) with (length a + 0) by lia.
  replace (n - i) with (S (n - i - 1)) by lia. cbn [seq flat_map]. unfold enc at 1. cbn [fst snd]. rewrite Nat.eqb_refl. rewrite nth_mid by (cbn; lia). reflexivity.
Qed.
Lemma std_layout_off rho n i j : i < j -> j < n ->
  nth (i * (2 * n - i) + 2 * (j - i) - 1) (flat_map (enc rho) (upper_pairs n)) 0%R = fst (rho i j) /\
  nth (i * (2 * n - i) + 2 * (j - i)) (flat_map (enc rho) (upper_pairs n)) 0%R = snd (rho i j).
Proof.
  intros Hij Hj. destruct (enc_row_pos rho n i ltac:(lia)) as (a & c & -> & L).
  rewrite (row_pos (fun j => enc rho (i, j)) (seq i (n - i)) (j - i) j) by (rewrite nth_seq_err by lia; f_equal; lia).
  rewrite firstn_seq by lia.
  set (b := flat_map (fun j => enc rho (i, j)) (seq i (j - i))).
  assert (Lb : length b = 2 * (j - i) - 1).
  { unfold b. rewrite <- (flat_map_map (enc rho) (fun j => (i, j))), flat_enc_length. replace (j - i) with (S (j - i - 1)) at 1 by lia. cbn [seq map]. rewrite total_cons, total_row by lia.
    unfold psize. cbn [fst snd]. rewrite Nat.eqb_refl. lia. }
  unfold enc at 1 3. cbn [fst snd]. replace (i =? j) with false by (symmetry; apply Nat.eqb_neq; lia).
  replace (i * (2 * n - i) + 2 * (j - i) - 1) with (length (a ++ b) + 0) by (rewrite app_length; lia).
  replace (i * (2 * n - i) + 2 * (j - i)) with (length (a ++ b) + 1) by (rewrite app_length; lia).
  rewrite <- !app_assoc. rewrite !(app_assoc a b). split; rewrite nth_mid by (cbn; lia); reflexivity.
Qed.
