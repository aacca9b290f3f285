(** C95: the rows of the concatenated code, for inner codes with any number of
    logical qubits. *)
From Verif Require Import Py ZMat CodesModel RankSpec CodesSpec BoolLin Rank Gauss Gauss2 Logical CodesProofs CodesProofs2 ConcatProofs ConcatSpec ConcatAbs StringsProofs.
Open Scope nat_scope.

(** ** sums *)
Lemma odd_fold n f : Z.odd (fold_right Z.add 0%Z (map f (seq 0 n))) = xsum n (fun j => Z.odd (f j)).
Proof.
  induction n as [|n IH]; [reflexivity|]. rewrite seq_S, map_app, fold_right_app. cbn [map fold_right xsum Nat.add]. rewrite <- IH, Z.add_0_r.
  generalize (map f (seq 0 n)). intros l. clear. induction l as [|x l IH]; cbn [fold_right]; [change (Z.odd 0) with false; rewrite xorb_false_l; reflexivity|]. rewrite !Z.odd_add, IH. destruct (Z.odd x), (Z.odd (f n)), (Z.odd (fold_right Z.add 0%Z l)); reflexivity.
Qed.
Lemma odd_mod2 z : Z.odd (z mod 2) = Z.odd z.
Proof. rewrite Zmod_odd. destruct (Z.odd z); reflexivity. Qed.
Lemma fold_S n f : fold_right Z.add 0%Z (map f (seq 0 (S n))) = (fold_right Z.add 0%Z (map f (seq 0 n)) + f n)%Z.
Proof.
  rewrite seq_S, map_app, fold_right_app. cbn [map fold_right Nat.add]. rewrite Z.add_0_r. generalize (map f (seq 0 n)). intros l. induction l as [|x l IH]; cbn [fold_right]; [lia|]. rewrite IH. lia.
Qed.
Lemma fold_delta n b f : b < n -> fold_right Z.add 0%Z (map (fun j => if Nat.eqb j b then f j else 0%Z) (seq 0 n)) = f b.
Proof.
  intros Hb. assert (G : forall k, fold_right Z.add 0%Z (map (fun j => if Nat.eqb j b then f j else 0%Z) (seq 0 k)) = if b <? k then f b else 0%Z).
  { induction k as [|k IH]; [reflexivity|]. rewrite fold_S, IH. destruct (Nat.ltb_spec b k), (Nat.eqb_spec k b), (Nat.ltb_spec b (S k)); subst; lia. }
  rewrite G. destruct (Nat.ltb_spec b n); [reflexivity|lia].
Qed.
Lemma list_prod_flat {A B} (l : list A) (l' : list B) : list_prod l l' = flat_map (fun x => map (fun y => (x, y)) l') l.
Proof. induction l; [reflexivity|]. cbn [list_prod flat_map]. rewrite IHl. reflexivity. Qed.
Lemma Forall2_nth_2 {A B} (P : A -> B -> Prop) l l' d d' i : Forall2 P l l' -> i < length l -> P (nth i l d) (nth i l' d').
Proof. intros F. revert i. induction F; intros [|i] Hi; cbn in *; try lia; [assumption|]. apply IHF. lia. Qed.

(** ** a concatenation is a valid set of generators *)
Lemma pos_ex nb m x : x < 2 * (nb * m) -> exists b p, b < nb /\ p < 2 * m /\ x = pos nb m b p.
Proof.
  intros Hx. assert (m <> 0) by nia. destruct (Nat.lt_ge_cases x (nb * m)) as [L|L].
  - exists (x / m), (x mod m). pose proof (Nat.div_mod x m ltac:(lia)). pose proof (Nat.mod_upper_bound x m ltac:(lia)). split; [apply Nat.div_lt_upper_bound; lia|]. split; [lia|].
    unfold pos. destruct (Nat.ltb_spec (x mod m) m); lia.
  - set (y := x - nb * m). exists (y / m), (m + y mod m). pose proof (Nat.div_mod y m ltac:(lia)). pose proof (Nat.mod_upper_bound y m ltac:(lia)). split; [apply Nat.div_lt_upper_bound; lia|]. split; [lia|].
    unfold pos. destruct (Nat.ltb_spec (m + y mod m) m); lia.
Qed.
Lemma in_block_pos nb m i g r b p : in_block nb m i g r -> b < nb -> p < 2 * m -> nth (pos nb m b p) r 0%Z = if Nat.eqb b i then nth p g 0%Z else 0%Z.
Proof.
  intros (_ & E) Hb Hp. unfold pos. destruct (Nat.ltb_spec p m) as [L|L]; [apply (E b p Hb L)|].
  unfold z_at in E. rewrite (proj2 (E b (p - m) Hb ltac:(lia))). replace (m + (p - m)) with p by lia. reflexivity.
Qed.
Lemma encodes_pos n nb m blk LX LZ g r b p : encodes n nb m blk LX LZ g r -> b < nb -> p < 2 * m -> nth (pos nb m b p) r 0%Z =
  (fold_right Z.add 0 (map (fun j => if Nat.eqb (blk j) b then nth j g 0 * nth p (LX j) 0 + nth (n + j) g 0 * nth p (LZ j) 0 else 0) (seq 0 n)) mod 2)%Z.
Proof.
  intros (_ & E) Hb Hp. unfold pos. destruct (Nat.ltb_spec p m) as [L|L]; [apply (E b p Hb L)|].
  unfold z_at in E. rewrite (proj2 (E b (p - m) Hb ltac:(lia))). replace (m + (p - m)) with p by lia. reflexivity.
Qed.
Lemma encodes_brow n nb m blk LX LZ g r b p : encodes n nb m blk LX LZ g r -> b < nb -> p < 2 * m ->
  brow r (pos nb m b p) = enc n blk (fun j => brow (LX j)) (fun j => brow (LZ j)) (brow g) b p.
Proof.
  intros E Hb Hp. unfold brow at 1. rewrite (encodes_pos _ _ _ _ _ _ _ _ _ _ E Hb Hp), odd_mod2, odd_fold. unfold enc, cb, comb. rewrite <- xsum_xor. apply xsum_ext; intros j Hj.
  destruct (Nat.eqb (blk j) b); [|reflexivity]. cbn [andb]. rewrite Z.odd_add, !Z.odd_mul. reflexivity.
Qed.

Theorem concatenation_valid n k nb m l blk LX LZ outer inner rows :
  valid_generators n k outer -> k <= n -> valid_generators m l inner -> l <= m -> n = nb * l ->
  logical_qubits n nb m blk LX LZ inner -> concatenation n nb m blk LX LZ outer inner rows -> valid_generators (nb * m) k rows.
Proof.
  intros (P1 & N1 & L1 & B1 & C1 & D1) Hk (P2 & N2 & L2 & B2 & C2 & D2) Hl Hn (Q1 & Q2 & Q3) (A & B & -> & FA & FB).
  assert (LA : length A = nb * length inner) by (rewrite <- (Forall2_length FA), list_prod_flat, (flat_map_length_const _ (length inner)); [rewrite seq_length; reflexivity|intros; apply map_length]).
  assert (LB : length B = length outer) by (symmetry; apply (Forall2_length FB)).
  assert (NA : forall i q, i < nb -> q < length inner -> in_block nb m i (nth q inner []) (nth (i * length inner + q) (A ++ B) [])).
  { intros i q Hi Hq. rewrite app_nth1 by nia.
    destruct (flat_map_chunks (0, []) (fun x => map (fun y : list Z => (x, y)) inner) (length inner) (fun b => map_length _ _) nb 0) as [E1 E2].
    pose proof (Forall2_nth_2 _ _ _ (0, []) [] (i * length inner + q) FA) as F. rewrite list_prod_flat in F. rewrite E1, E2 in F by assumption. specialize (F ltac:(nia)).
    rewrite (nth_indep _ (0, []) (0 + i, [])) in F by (rewrite map_length; exact Hq). rewrite (map_nth (fun y => (0 + i, y))) in F. exact F. }
  assert (NB : forall t, t < length outer -> encodes n nb m blk LX LZ (nth t outer []) (nth (nb * length inner + t) (A ++ B) [])).
  { intros t Ht. rewrite <- LA, app_nth2 by lia. replace (length A + t - length A) with t by lia. apply (Forall2_nth_2 _ _ _ [] [] t FB Ht). }
  assert (D : forall x, x < length (A ++ B) -> (exists i q, i < nb /\ q < length inner /\ x = i * length inner + q) \/ (exists t, t < length outer /\ x = nb * length inner + t)).
  { intros x Hx. rewrite app_length, LA, LB in Hx. destruct (Nat.lt_ge_cases x (nb * length inner)) as [L|L]; [left|right; exists (x - nb * length inner); lia].
    set (s := length inner) in *. exists (x / s), (x mod s). assert (s <> 0) by nia. pose proof (Nat.div_mod x s ltac:(lia)). split; [apply Nat.div_lt_upper_bound; nia|]. split; [apply Nat.mod_upper_bound; lia|nia]. }
  rewrite Forall_forall in B2.
  assert (LR : Forall (fun r => length r = 2 * (nb * m)) (A ++ B)).
  { apply Forall_forall. intros r Hr. apply (In_nth _ _ []) in Hr. destruct Hr as (x & Hx & <-). destruct (D x Hx) as [(i & q & Hi & Hq & ->)|(t & Ht & ->)]; [apply (NA i q Hi Hq)|apply (NB t Ht)]. }
  assert (CC0 : forall i j, i < n -> j < n -> blk i = blk j -> ip m (brow (LX i)) (brow (LZ j)) = Nat.eqb i j /\ ip m (brow (LX i)) (brow (LX j)) = false /\ ip m (brow (LZ i)) (brow (LZ j)) = false).
  { intros i j Hi Hj E. destruct (Q3 i j Hi Hj E) as (X1 & X2 & X3). split; [|split; apply commute_ip; assumption]. rewrite commute_ip in X1.
    destruct (Nat.eqb_spec i j) as [e|ne]; [|apply X1, ne]. destruct (ip m (brow (LX i)) (brow (LZ j))); [reflexivity|]. exfalso. apply (proj1 X1 eq_refl), e. }
  assert (GL : forall q j, q < length inner -> j < n -> ip m (brows inner q) (brow (LX j)) = false /\ ip m (brows inner q) (brow (LZ j)) = false).
  { intros q j Hq Hj. destruct (Q2 j _ Hj (nth_In inner [] Hq)) as [X1 X2]. split; apply commute_ip; assumption. }
  assert (RB : forall i q b p, i < nb -> q < length inner -> b < nb -> p < 2 * m -> brows (A ++ B) (i * length inner + q) (pos nb m b p) = Nat.eqb b i && brows inner q p).
  { intros i q b p Hi Hq Hb Hp. unfold brows, brow. rewrite (in_block_pos nb m i _ _ b p (NA i q Hi Hq) Hb Hp). destruct (Nat.eqb b i); reflexivity. }
  assert (RE : forall t b p, t < length outer -> b < nb -> p < 2 * m -> brows (A ++ B) (nb * length inner + t) (pos nb m b p) = enc n blk (fun j => brow (LX j)) (fun j => brow (LZ j)) (brows outer t) b p).
  { intros t b p Ht Hb Hp. apply (encodes_brow _ _ _ _ _ _ _ _ _ _ (NB t Ht) Hb Hp). }
  split; [rewrite app_length; lia|]. split; [rewrite app_length, LA, LB, N1, N2; nia|]. split; [exact LR|]. split; [|split].
  - apply Forall_forall. intros r Hr. apply (In_nth _ _ []) in Hr. destruct Hr as (x & Hx & <-). apply Forall_forall. intros z Hz. apply (In_nth _ _ 0%Z) in Hz. destruct Hz as (y & Hy & <-).
    rewrite Forall_forall in LR. rewrite (LR _ (nth_In _ [] Hx)) in Hy. destruct (pos_ex nb m y Hy) as (b & p & Hb & Hp & ->).
    destruct (D x Hx) as [(i & q & Hi & Hq & ->)|(t & Ht & ->)].
    + rewrite (in_block_pos nb m i _ _ b p (NA i q Hi Hq) Hb Hp). destruct (Nat.eqb b i); [|left; reflexivity].
      rewrite Forall_forall in L2. pose proof (nth_In inner [] Hq) as HI. specialize (B2 _ HI). unfold binary in B2. rewrite Forall_forall in B2. apply B2, nth_In. rewrite (L2 _ HI). exact Hp.
    + rewrite (encodes_pos _ _ _ _ _ _ _ _ _ _ (NB t Ht) Hb Hp), Zmod_odd. destruct (Z.odd _); auto.
  - intros u v Hu Hv. apply (In_nth _ _ []) in Hu, Hv. destruct Hu as (x & Hx & <-), Hv as (y & Hy & <-). apply commute_ip.
    rewrite app_length, LA, LB in Hx, Hy.
    apply (concat_commuting n nb m (length inner) (length outer) blk _ _ (brows inner) (brows outer) (brows (A ++ B)) Q1 GL CC0 RB RE); try assumption.
    + intros q q' Hq Hq'. apply commute_ip. apply C2; apply nth_In; assumption.
    + intros t t' Ht Ht'. apply commute_ip. apply C1; apply nth_In; assumption.
  - apply indep2_b. rewrite app_length, LA, LB. apply (concat_independent n nb m (length inner) (length outer) blk _ _ (brows inner) (brows outer) (brows (A ++ B)) Q1 GL CC0 RB RE).
    + apply indep2_b in D2. exact D2.
    + apply indep2_b in D1. exact D1.
Qed.

(** ** the rows of the inner code *)
Lemma block_gens_ok nb m c2 : Forall (fun r => length r = 2 * m) (zd (stab c2)) ->
  Forall2 (fun ig r => in_block nb m (fst ig) (snd ig) r) (list_prod (seq 0 nb) (zd (stab c2))) (block_gens nb m c2).
Proof.
  intros L. rewrite list_prod_flat. unfold block_gens. assert (W : forall i, In i (seq 0 nb) -> i < nb) by (intros i Hi; apply in_seq in Hi; lia). revert W. generalize (seq 0 nb). intros s W.
  induction s as [|i s IH]; [constructor|]. cbn [flat_map]. apply Forall2_app; [|apply IH; intros; apply W; right; assumption]. specialize (W i (or_introl eq_refl)). clear IH.
  induction L as [|g G Lg L IH]; [constructor|]. cbn [map]. constructor; [|exact IH]. cbn [fst snd]. split; [apply block_gen_length; assumption|].
  intros b p Hb Hp. split; [apply block_gen_x|apply block_gen_z]; assumption.
Qed.

(** ** one logical qubit *)
Lemma nth_bin g j : binary g -> nth j g 0%Z = 0%Z \/ nth j g 0%Z = 1%Z.
Proof. intros B. destruct (Nat.lt_ge_cases j (length g)) as [L|L]; [|left; apply nth_overflow, L]. unfold binary in B. rewrite Forall_forall in B. apply B, nth_In, L. Qed.
Lemma nth_x_only m l p : length l = 2 * m -> nth p (x_only m l) 0%Z = if p <? m then nth p l 0%Z else 0%Z.
Proof.
  intros L. unfold x_only. change (repeat 0%Z m) with (zl m). destruct (Nat.ltb_spec p m).
  - rewrite app_nth1 by (rewrite firstn_length; lia). apply nth_firstn. assumption.
  - rewrite app_nth2 by (rewrite firstn_length; lia). apply nth_zl.
Qed.
Lemma nth_z_only m l p : length l = 2 * m -> nth p (z_only m l) 0%Z = if m <=? p then nth p l 0%Z else 0%Z.
Proof.
  intros L. unfold z_only. change (repeat 0%Z m) with (zl m). destruct (Nat.leb_spec m p).
  - rewrite app_nth2 by (rewrite length_zl; lia). rewrite length_zl, nth_skipn. replace (m + (p - m)) with p by lia. reflexivity.
  - rewrite app_nth1 by (rewrite length_zl; lia). apply nth_zl.
Qed.
Lemma subst_ok n m lx lz g : length lx = 2 * m -> length lz = 2 * m -> binary lx -> binary lz -> binary g ->
  encodes n n m (fun j => j) (fun _ => x_only m lx) (fun _ => z_only m lz) g (subst_gen n m lx lz g).
Proof.
  intros Lx Lz Bx Bz Bg. split; [apply subst_gen_len; assumption|]. intros part b p Hb Hp. unfold part. rewrite !fold_delta by exact Hb. unfold x_at, z_at, subst_gen.
  destruct (flat_map_chunks 0%Z (fun j => subst_x m lx (nth j g 0%Z) (nth (n + j) g 0%Z)) m (fun b => subst_x_len m lx _ _ ltac:(lia)) n 0) as [E1 E2].
  destruct (flat_map_chunks 0%Z (fun j => subst_z m lz (nth j g 0%Z) (nth (n + j) g 0%Z)) m (fun b => subst_z_len m lz _ _ Lz) n 0) as [E3 E4].
  rewrite app_nth1 by (rewrite E1; nia). rewrite app_nth2 by (rewrite E1; nia). rewrite E1. replace (n * m + (b * m + p) - n * m) with (b * m + p) by lia.
  rewrite E2, E4 by assumption. cbn [Nat.add]. rewrite !nth_x_only, !nth_z_only by assumption.
  destruct (Nat.ltb_spec p m); [|lia]. destruct (Nat.ltb_spec (m + p) m); [lia|]. destruct (Nat.leb_spec m p); [lia|]. destruct (Nat.leb_spec m (m + p)); [|lia].
  unfold subst_x, subst_z.
  assert (X1 : nth p (firstn m lx) 0%Z = nth p lx 0%Z) by (apply nth_firstn; assumption). assert (X2 : nth p (skipn m lz) 0%Z = nth (m + p) lz 0%Z) by (rewrite nth_skipn; reflexivity).
  destruct (nth_bin g b Bg) as [-> | ->], (nth_bin g (n + b) Bg) as [-> | ->]; cbn [Z.eqb Pos.eqb andb]; rewrite ?X1, ?X2, ?nth_zl;
    destruct (nth_bin lx p Bx) as [-> | ->], (nth_bin lz (m + p) Bz) as [-> | ->]; split; reflexivity.
Qed.
Theorem concat1_is g1 g2 o1 o2 n k m c1 c2 lx lz : init g1 n k o1 = Ok c1 -> init g2 m 1 o2 = Ok c2 -> Forall binary (zd (stab c1)) ->
  nth_error (zd (logical_x c2)) 0 = Some lx -> nth_error (zd (logical_z c2)) 0 = Some lz ->
  length lx = 2 * m -> length lz = 2 * m -> binary lx -> binary lz ->
  exists rows, concatenation n n m (fun j => j) (fun _ => x_only m lx) (fun _ => z_only m lz) (zd (stab c1)) (zd (stab c2)) rows /\
    concatenate_codes c1 c2 = (do c <- init (Rows rows) (n * m) k None; Ok (Some c)).
Proof.
  intros I1 I2 B1 Ex Ez Lx Lz Bx Bz.
  destruct (init_inv _ _ _ _ _ I1) as (M1 & _ & _ & _ & _ & _ & _ & HB1 & _).
  destruct (init_inv _ _ _ _ _ I2) as (M2 & W2 & Z2 & C2 & ES & _ & _ & HB2 & _).
  apply init_body_inv in HB1. destruct HB1 as (_ & _ & _ & En & Ek & _).
  apply init_body_inv in HB2. destruct HB2 as (_ & _ & _ & Em & El & _).
  eexists. split.
  2:{ unfold concatenate_codes. rewrite El, En, Em, Ek. cbn [Nat.eqb]. unfold concat1_rows. rewrite Ex, Ez, En, Em. cbn [bind]. reflexivity. }
  eexists _, _. split; [reflexivity|]. split.
  - apply block_gens_ok. rewrite ES. destruct W2 as [_ W2]. rewrite <- C2. exact W2.
  - induction B1 as [|g G Bg B1 IH]; [constructor|]. cbn [map]. constructor; [|exact IH]. apply subst_ok; assumption.
Qed.

(** ** several logical qubits *)
Lemma nth_combine_mod a v p : length a = length v -> p < length v ->
  nth p (map (fun xy : Z * Z => (fst xy + snd xy) mod 2)%Z (combine a v)) 0%Z = ((nth p a 0 + nth p v 0) mod 2)%Z.
Proof.
  intros L Hp. set (f := fun xy : Z * Z => ((fst xy + snd xy) mod 2)%Z). change 0%Z with (f (0, 0)%Z) at 1. rewrite map_nth, combine_nth by exact L. reflexivity.
Qed.
Lemma add_slice_ok nb m row b v : length row = nb * m -> b < nb -> length v = m ->
  exists row', add_slice row (m * b) (m * (b + 1)) v = Ok row' /\ length row' = nb * m /\
    forall b' p, b' < nb -> p < m -> nth (b' * m + p) row' 0%Z = (if Nat.eqb b' b then (nth (b' * m + p) row 0 + nth p v 0) mod 2 else nth (b' * m + p) row 0)%Z.
Proof.
  intros L Hb Lv. unfold add_slice. rewrite L. assert (E1 : Nat.min (m * b) (nb * m) = m * b) by nia. assert (E2 : Nat.min (m * (b + 1)) (nb * m) = m * b + m) by nia.
  rewrite E1, E2. replace (m * b + m - m * b) with m by lia. rewrite Lv, Nat.eqb_refl.
  eexists. split; [reflexivity|].
  assert (LF : length (firstn (m * b) row) = m * b) by (rewrite firstn_length; nia).
  assert (LS : length (firstn m (skipn (m * b) row)) = m) by (rewrite firstn_length, skipn_length; nia).
  assert (LM : length (map (fun xy : Z * Z => (fst xy + snd xy) mod 2)%Z (combine (firstn m (skipn (m * b) row)) v)) = m) by (rewrite map_length, combine_length; lia).
  split; [rewrite !app_length, LF, LM, skipn_length; nia|].
  intros b' p Hb' Hp. destruct (Nat.eqb_spec b' b) as [->|Hne].
  - rewrite app_nth2 by (rewrite LF; lia). rewrite LF. replace (b * m + p - m * b) with p by lia. rewrite app_nth1 by (rewrite LM; lia).
    rewrite nth_combine_mod by lia. rewrite nth_firstn by exact Hp. rewrite nth_skipn. do 3 f_equal. lia.
  - destruct (Nat.lt_ge_cases b' b) as [H|H].
    + rewrite app_nth1 by (rewrite LF; nia). apply nth_firstn. nia.
    + rewrite app_nth2 by (rewrite LF; nia). rewrite LF, app_nth2 by (rewrite LM; nia). rewrite LM, nth_skipn. f_equal. nia.
Qed.

Section Letters.
Variables (m l : nat) (lx lz : zmat) (g : list Z).
Hypothesis Hlm : m = l * l.
Hypothesis Nx : length (zd lx) = l.
Hypothesis Nz : length (zd lz) = l.
Hypothesis Lx : Forall (fun r => length r = 2 * m) (zd lx).
Hypothesis Lz : Forall (fun r => length r = 2 * m) (zd lz).
Hypothesis Bg : binary g.
Hypothesis NI : forall j, j < m -> ~ identity_at m g j.
Let RX (j : nat) := nth (j mod l) (zd lx) [].
Let RZ (j : nat) := nth (j mod l) (zd lz) [].
Let term (b q j : nat) : Z := (if Nat.eqb (j / l) b then nth j g 0 * nth q (RX j) 0 + nth (m + j) g 0 * nth q (RZ j) 0 else 0)%Z.

Lemma letter_ok cur gx gz j : j < m -> length gx = l * m -> length gz = l * m ->
  exists v gx' gz', concat_letter m m l lx lz g (cur, gx, gz) j = Ok (Some v, gx', gz') /\ length gx' = l * m /\ length gz' = l * m /\
    forall b p, b < l -> p < m ->
      nth (b * m + p) gx' 0%Z = (if Nat.eqb (j / l) b then (nth (b * m + p) gx 0 + term b p j) mod 2 else nth (b * m + p) gx 0)%Z /\
      nth (b * m + p) gz' 0%Z = (if Nat.eqb (j / l) b then (nth (b * m + p) gz 0 + term b (m + p) j) mod 2 else nth (b * m + p) gz 0)%Z.
Proof.
  intros Hj Hgx Hgz. assert (Hl : l <> 0) by nia. pose proof (Nat.mod_upper_bound j l Hl) as Hw. assert (Hb : j / l < l) by (apply Nat.div_lt_upper_bound; lia).
  assert (Ex : nth_error (zd lx) (j mod l) = Some (RX j)) by (apply nth_error_nth'; lia). assert (Ez : nth_error (zd lz) (j mod l) = Some (RZ j)) by (apply nth_error_nth'; lia).
  assert (LRX : length (RX j) = 2 * m) by (rewrite Forall_forall in Lx; apply Lx, nth_In; lia). assert (LRZ : length (RZ j) = 2 * m) by (rewrite Forall_forall in Lz; apply Lz, nth_In; lia).
  specialize (NI j Hj). unfold identity_at in NI.
  assert (V : exists v, length v = 2 * m /\ (forall q, q < 2 * m -> (nth q v 0 mod 2 = (nth j g 0 * nth q (RX j) 0 + nth (m + j) g 0 * nth q (RZ j) 0) mod 2)%Z) /\
     concat_letter m m l lx lz g (cur, gx, gz) j = (do gx' <- add_slice gx (m * (j / l)) (m * (j / l + 1)) (firstn m v); do gz' <- add_slice gz (m * (j / l)) (m * (j / l + 1)) (skipn m v); Ok (Some v, gx', gz'))).
  { unfold concat_letter. rewrite Ex, Ez. destruct (nth_bin g j Bg) as [E1|E1], (nth_bin g (m + j) Bg) as [E2|E2]; rewrite E1, E2; cbn [Z.eqb Pos.eqb andb bind].
    - exfalso. auto.
    - exists (RZ j). split; [exact LRZ|]. split; [intros q Hq; f_equal; lia|reflexivity].
    - exists (RX j). split; [exact LRX|]. split; [intros q Hq; f_equal; lia|reflexivity].
    - eexists. split; [|split; [|reflexivity]]; [rewrite map_length, combine_length; lia|]. intros q Hq. rewrite nth_combine_mod by lia. rewrite Zmod_mod. f_equal. lia. }
  destruct V as (v & Lv & HV & ->).
  destruct (add_slice_ok l m gx (j / l) (firstn m v) Hgx Hb) as (gx' & -> & Lgx' & Vx); [rewrite firstn_length; lia|].
  destruct (add_slice_ok l m gz (j / l) (skipn m v) Hgz Hb) as (gz' & -> & Lgz' & Vz); [rewrite skipn_length; lia|].
  cbn [bind]. exists v, gx', gz'. split; [reflexivity|]. split; [exact Lgx'|]. split; [exact Lgz'|]. intros b p Hb' Hp. rewrite Vx, Vz by assumption. unfold term. rewrite !(Nat.eqb_sym b (j / l)).
  destruct (Nat.eqb (j / l) b); [|split; reflexivity]. rewrite nth_firstn by exact Hp. rewrite nth_skipn.
  split; rewrite Zplus_mod, HV, <- Zplus_mod by lia; reflexivity.
Qed.

Lemma letters_ok cur j : j <= m -> exists cur' gx gz, foldM (concat_letter m m l lx lz g) (seq 0 j) (cur, zl (l * m), zl (l * m)) = Ok (cur', gx, gz) /\
  length gx = l * m /\ length gz = l * m /\
  forall b p, b < l -> p < m ->
    nth (b * m + p) gx 0%Z = (fold_right Z.add 0 (map (term b p) (seq 0 j)) mod 2)%Z /\ nth (b * m + p) gz 0%Z = (fold_right Z.add 0 (map (term b (m + p)) (seq 0 j)) mod 2)%Z.
Proof.
  induction j as [|j IH]; intros Hj.
  - exists cur, (zl (l * m)), (zl (l * m)). split; [reflexivity|]. rewrite length_zl. split; [reflexivity|]. split; [reflexivity|]. intros. rewrite nth_zl. split; reflexivity.
  - destruct (IH ltac:(lia)) as (cur' & gx & gz & E & L1 & L2 & V). destruct (letter_ok cur' gx gz j ltac:(lia) L1 L2) as (v & gx' & gz' & E' & L1' & L2' & V').
    exists (Some v), gx', gz'. rewrite seq_S, foldM_app, E. cbn [bind foldM Nat.add]. rewrite E'. split; [reflexivity|]. split; [exact L1'|]. split; [exact L2'|].
    intros b p Hb Hp. destruct (V' b p Hb Hp) as [-> ->], (V b p Hb Hp) as [-> ->]. rewrite <- seq_S, !fold_S.
    assert (T0 : forall q, Nat.eqb (j / l) b = false -> term b q j = 0%Z) by (intros q e; unfold term; rewrite e; reflexivity).
    destruct (Nat.eqb (j / l) b) eqn:e; [rewrite !Zplus_mod_idemp_l; split; reflexivity|]. rewrite !T0, !Z.add_0_r by reflexivity. split; reflexivity.
Qed.
Lemma gen_ok cur : exists cur' gx gz, foldM (concat_letter m m l lx lz g) (seq 0 m) (cur, zl (l * m), zl (l * m)) = Ok (cur', gx, gz) /\
  encodes m l m (fun j => j / l) RX RZ g (gx ++ gz).
Proof.
  destruct (letters_ok cur m (le_n m)) as (cur' & gx & gz & E & L1 & L2 & V). exists cur', gx, gz. split; [exact E|]. split; [rewrite app_length; lia|].
  intros part b p Hb Hp. destruct (V b p Hb Hp) as [V1 V2]. unfold x_at, z_at. rewrite app_nth1 by nia. rewrite app_nth2 by nia. replace (l * m + (b * m + p) - length gx) with (b * m + p) by lia.
  split; [exact V1|exact V2].
Qed.
End Letters.

Lemma rows_fold m l lx lz G : m = l * l -> length (zd lx) = l -> length (zd lz) = l ->
  Forall (fun r => length r = 2 * m) (zd lx) -> Forall (fun r => length r = 2 * m) (zd lz) ->
  Forall binary G -> (forall g j, In g G -> j < m -> ~ identity_at m g j) -> forall cur out,
  exists cur' B, foldM (fun (st : option (list Z) * list (list Z)) (g : list Z) =>
      let '(cur, out) := st in
      do r <- foldM (concat_letter m m l lx lz g) (seq 0 m) (cur, zl (l * m), zl (l * m));
      let '(cur', gx, gz) := r in
      Ok (cur', out ++ [gx ++ gz])%list) G (cur, out) = Ok (cur', out ++ B)%list /\
    Forall2 (encodes m l m (fun j => j / l) (fun j => nth (j mod l) (zd lx) []) (fun j => nth (j mod l) (zd lz) [])) G B.
Proof.
  intros Hm Nx Nz Lx Lz. induction G as [|g G IH]; intros BG NI cur out.
  - exists cur, []. rewrite app_nil_r. split; [reflexivity|constructor].
  - apply Forall_cons_iff in BG. destruct BG as [Bg BG']. destruct (gen_ok m l lx lz g Hm Nx Nz Lx Lz Bg (fun j => NI g j (or_introl eq_refl)) cur) as (cur1 & gx & gz & E & HE).
    destruct (IH BG' (fun g' j H => NI g' j (or_intror H)) cur1 (out ++ [gx ++ gz])%list) as (cur2 & B & E2 & F).
    exists cur2, ((gx ++ gz) :: B). cbn [foldM]. rewrite E. cbn [bind]. split; [|constructor; assumption]. etransitivity; [exact E2|]. rewrite <- app_assoc. reflexivity.
Qed.
Theorem concatl_is g1 g2 o1 o2 n k l c1 c2 : init g1 n k o1 = Ok c1 -> init g2 n l o2 = Ok c2 -> Forall binary (zd (stab c1)) ->
  2 <= l -> n = l * l -> length (zd (logical_x c2)) = l -> length (zd (logical_z c2)) = l ->
  Forall (fun r => length r = 2 * n) (zd (logical_x c2)) -> Forall (fun r => length r = 2 * n) (zd (logical_z c2)) ->
  (forall g j, In g (zd (stab c1)) -> j < n -> ~ identity_at n g j) ->
  exists rows, concatenation n l n (fun j => j / l) (fun j => nth (j mod l) (zd (logical_x c2)) []) (fun j => nth (j mod l) (zd (logical_z c2)) []) (zd (stab c1)) (zd (stab c2)) rows /\
    concatenate_codes c1 c2 = (do c <- init (Rows rows) (l * n) k None; Ok (Some c)).
Proof.
  intros I1 I2 B1 Hl Hn Nx Nz Lx Lz NI.
  destruct (init_inv _ _ _ _ _ I1) as (M1 & _ & _ & _ & _ & _ & _ & HB1 & _).
  destruct (init_inv _ _ _ _ _ I2) as (M2 & W2 & Z2 & C2 & ES & _ & _ & HB2 & _).
  apply init_body_inv in HB1. destruct HB1 as (_ & _ & _ & En & Ek & _).
  apply init_body_inv in HB2. destruct HB2 as (_ & _ & _ & Em & El & _).
  destruct (rows_fold n l (logical_x c2) (logical_z c2) (zd (stab c1)) Hn Nx Nz Lx Lz B1 NI None []) as (cur & B & E & F).
  assert (Hd : n / l = l) by (rewrite Hn; apply Nat.div_mul; lia).
  exists (block_gens l n c2 ++ B)%list. split.
  - exists (block_gens l n c2), B. split; [reflexivity|]. split; [|exact F]. apply block_gens_ok. rewrite ES. destruct W2 as [_ W2]. rewrite <- C2. exact W2.
  - unfold concatenate_codes. rewrite El, En, Em, Ek. destruct (Nat.eqb_spec l 0); [lia|]. destruct (Nat.eqb_spec l 1); [lia|].
    assert (H0 : n mod l = 0) by (rewrite Hn; apply Nat.mod_mul; lia). rewrite H0. cbn [Nat.eqb]. unfold concatl_rows. rewrite El, En, Em, Hd. cbv zeta.
    rewrite E. reflexivity.
Qed.

(** ** what a successful call needs *)
Lemma foldM_each {S A} (P : S -> Prop) (f : S -> A -> res S) l s s' : (forall t x t', P t -> In x l -> f t x = Ok t' -> P t') -> P s -> foldM f l s = Ok s' ->
  forall x, In x l -> exists t t', P t /\ f t x = Ok t'.
Proof.
  revert s. induction l as [|y l IH]; intros s HP Hs H x Hx; [destruct Hx|]. cbn [foldM] in H. apply bind_ok in H. destruct H as (t & Ht & H). destruct Hx as [<-|Hx]; [exists s, t; auto|].
  apply (IH t); [intros u z u' Pu Hz; apply HP; [assumption|right; exact Hz]|apply (HP s y); [assumption|left; reflexivity|exact Ht]|exact H|exact Hx].
Qed.
Lemma add_slice_inv row a b v row' : add_slice row a b v = Ok row' ->
  length row' = length row /\ (Nat.min b (length row) - Nat.min a (length row) = length v \/ length v = 1).
Proof.
  unfold add_slice. set (a' := Nat.min a (length row)). set (b' := Nat.min b (length row)).
  destruct (Nat.eqb_spec (b' - a') (length v)) as [E|E]; [|destruct (Nat.eqb_spec (length v) 1) as [E1|E1]; [|discriminate]]; intros H; injection H as <-; (split; [|auto]).
  all: rewrite !app_length, map_length, ?combine_length, !firstn_length, ?skipn_length; lia.
Qed.
Lemma letter_inv n m nb lx lz g cur gx gz j st : Forall (fun r => length r = 2 * m) (zd lx) -> Forall (fun r => length r = 2 * m) (zd lz) ->
  (forall v, cur = Some v -> length v = 2 * m) -> concat_letter n m nb lx lz g (cur, gx, gz) j = Ok st ->
  exists v gx' gz', st = (Some v, gx', gz') /\ length v = 2 * m /\ add_slice gx (n * (j / nb)) (n * (j / nb + 1)) (firstn m v) = Ok gx' /\
    add_slice gz (n * (j / nb)) (n * (j / nb + 1)) (skipn m v) = Ok gz' /\ (cur = None -> ~ identity_at n g j).
Proof.
  intros Lx Lz Hc H. unfold concat_letter in H. rewrite Forall_forall in Lx, Lz. apply bind_ok in H. destruct H as (cur' & HC & H).
  assert (V : forall v, cur' = Some v -> length v = 2 * m /\ (cur = None -> ~ identity_at n g j)).
  { intros v ->. unfold identity_at. destruct (((nth j g 0 =? 1) && (nth (n + j) g 0 =? 0))%Z)%bool eqn:E1.
    - destruct (nth_error (zd lx) (j mod nb)) as [r|] eqn:E; [|discriminate]. injection HC as <-. apply nth_error_In in E. split; [apply Lx, E|].
      apply andb_true_iff in E1. destruct E1 as [E1 _]. apply Z.eqb_eq in E1. lia.
    - destruct (((nth j g 0 =? 0) && (nth (n + j) g 0 =? 1))%Z)%bool eqn:E2.
      + destruct (nth_error (zd lz) (j mod nb)) as [r|] eqn:E; [|discriminate]. injection HC as <-. apply nth_error_In in E. split; [apply Lz, E|].
        apply andb_true_iff in E2. destruct E2 as [_ E2]. apply Z.eqb_eq in E2. lia.
      + destruct (((nth j g 0 =? 1) && (nth (n + j) g 0 =? 1))%Z)%bool eqn:E3.
        * destruct (nth_error (zd lz) (j mod nb)) as [r|] eqn:E; [|discriminate]. destruct (nth_error (zd lx) (j mod nb)) as [r'|] eqn:E'; [|discriminate]. injection HC as <-.
          apply nth_error_In in E, E'. rewrite map_length, combine_length, (Lx _ E'), (Lz _ E). split; [lia|].
          apply andb_true_iff in E3. destruct E3 as [_ E3]. apply Z.eqb_eq in E3. lia.
        * injection HC as HC. split; [apply Hc; exact HC|rewrite HC; discriminate]. }
  destruct cur' as [v|]; [|discriminate]. destruct (V v eq_refl) as [Lv NI]. apply bind_ok in H. destruct H as (gx' & H1 & H). apply bind_ok in H. destruct H as (gz' & H2 & H). injection H as <-.
  exists v, gx', gz'. auto.
Qed.

Theorem concatl_needs g1 g2 o1 o2 n k m l c1 c2 c : init g1 n k o1 = Ok c1 -> init g2 m l o2 = Ok c2 -> 2 <= l ->
  Forall (fun r => length r = 2 * m) (zd (logical_x c2)) -> Forall (fun r => length r = 2 * m) (zd (logical_z c2)) ->
  concatenate_codes c1 c2 = Ok (Some c) ->
  n = m /\ l * l <= n /\ ~ identity_at n (nth 0 (zd (stab c1)) []) 0.
Proof.
  intros I1 I2 Hl Lx Lz H.
  destruct (init_inv _ _ _ _ _ I1) as (M1 & W1 & Z1 & C1 & ES1 & Hk & P1 & HB1 & _).
  destruct (init_inv _ _ _ _ _ I2) as (M2 & _ & _ & _ & _ & Hlm & _ & HB2 & _).
  assert (Hn : 0 < n).
  { apply init_body_inv in HB1. destruct HB1 as (_ & HF & _). unfold standard_normal_form in HF. apply bind_ok in HF. destruct HF as ([] & HF & _).
    destruct n; [|lia]. exfalso. unfold guard in HF. destruct (has_entries (slice M1 0 (zr M1) 0 0)) eqn:E; [|discriminate].
    unfold has_entries in E. cbn in E. rewrite ?Nat.min_0_l, ?andb_false_r in E. discriminate. }
  apply init_body_inv in HB1. destruct HB1 as (_ & _ & _ & En & Ek & _).
  apply init_body_inv in HB2. destruct HB2 as (_ & _ & _ & Em & El & _).
  unfold concatenate_codes in H. rewrite El, En, Em, Ek in H. destruct (Nat.eqb_spec l 0); [lia|]. destruct (Nat.eqb_spec l 1); [lia|]. destruct (Nat.eqb_spec (n mod l) 0) as [E0|E0]; [|discriminate].
  apply bind_ok in H. destruct H as (rows & H & _). unfold concatl_rows in H. rewrite El, En, Em in H. apply bind_ok in H. destruct H as (st & H & _).
  pose proof (Nat.div_mod n l ltac:(lia)) as Dn. rewrite E0, Nat.add_0_r in Dn. set (nb := n / l) in *.
  assert (LM : length (zd (stab c1)) = zr M1) by (rewrite ES1; apply W1).
  destruct (zd (stab c1)) as [|g G] eqn:EG; [cbn in LM; lia|]. cbn [foldM] in H. apply bind_ok in H. destruct H as (st' & H & _). apply bind_ok in H. destruct H as (st'' & H & _). clear st st' LM. cbn [nth].
  set (P := fun s : option (list Z) * list Z * list Z => let '(cur, gx, gz) := s in length gx = nb * m /\ length gz = nb * m /\ forall v, cur = Some v -> length v = 2 * m).
  assert (PI : forall t x t', P t -> In x (seq 0 n) -> concat_letter n m nb (logical_x c2) (logical_z c2) g t x = Ok t' -> P t').
  { intros [[cur gx] gz] x t' (Q1 & Q2 & Q3) _ HL. destruct (letter_inv _ _ _ _ _ _ _ _ _ _ _ Lx Lz Q3 HL) as (v & gx' & gz' & -> & Lv & A1 & A2 & _).
    apply add_slice_inv in A1, A2. repeat split; try lia. intros w Hw. injection Hw as <-. exact Lv. }
  assert (P0 : P (None, zl (nb * m), zl (nb * m))) by (repeat split; [apply length_zl|apply length_zl|discriminate]).
  assert (F0 : n = m /\ ~ identity_at n g 0).
  { destruct n as [|n']; [lia|]. cbn [seq foldM] in H. apply bind_ok in H. destruct H as (t & H & _).
    assert (N0 : forall v : list Z, None = Some v -> length v = 2 * m) by discriminate.
    destruct (letter_inv _ _ _ _ _ _ None _ _ _ _ Lx Lz N0 H) as (v & gx' & gz' & _ & Lv & A1 & _ & NI). split; [|apply NI; reflexivity].
    assert (Hnb : nb <> 0) by nia. rewrite Nat.div_0_l in A1 by exact Hnb. apply add_slice_inv in A1. rewrite length_zl, firstn_length, Lv in A1. destruct A1 as [_ [A1|A1]]; [|nia]. nia. }
  destruct F0 as [<- NI]. split; [reflexivity|]. split; [|exact NI].
  destruct (foldM_each P _ _ _ _ PI P0 H (n - 1)) as ([[cur gx] gz] & t' & (Q1 & Q2 & Q3) & HL); [apply in_seq; lia|].
  destruct (letter_inv _ _ _ _ _ _ _ _ _ _ _ Lx Lz Q3 HL) as (v & gx' & gz' & _ & Lv & A1 & _). apply add_slice_inv in A1. rewrite Q1, firstn_length, Lv in A1.
  assert (Hnb : nb <> 0) by nia. assert (Eb : (n - 1) / nb = l - 1). { symmetry. apply (Nat.div_unique _ _ _ (nb - 1)); [lia|]. rewrite Dn at 1. nia. }
  rewrite Eb in A1. destruct A1 as [_ [A1|A1]]; [|nia]. destruct (le_lt_dec l nb) as [L|L]; [nia|]. exfalso. assert (nb * n <= n * (l - 1)) by nia. nia.
Qed.
