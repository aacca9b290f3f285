(** C22-C24: concatenation; decision procedure for [valid_generators]. *)
From Verif Require Import Py ZMat CodesModel RankSpec CodesSpec BoolLin Rank Gauss Gauss2 Logical CodesProofs CodesProofs2.
From Coq Require Import Permutation.
Open Scope nat_scope.

Lemma gf2_full_indep nc rows : Forall (fun r => length r = nc) rows ->
  gf2_rank (ZM (length rows) nc rows) = length rows -> indep 2 nc rows.
Proof.
  intros L E. pose proof (gf2_rank_spec (ZM (length rows) nc rows)) as H.
  cbn [zc zd] in H. rewrite E in H. destruct H as [(sub & rest & P & Ls & I) _]; [split; [reflexivity|exact L]|].
  pose proof (Permutation_length P) as PL. rewrite app_length in PL. destruct rest; [|simpl in PL; lia].
  rewrite app_nil_r in P. apply (indep_perm _ _ sub); [apply Permutation_sym; exact P|exact I].
Qed.

Definition validb (n k : nat) (rows : list (list Z)) : bool :=
  (0 <? length rows) && (length rows =? n - k) && forallb (fun r => length r =? 2 * n) rows &&
  forallb (forallb (fun x => (x =? 0) || (x =? 1))%Z) rows &&
  forallb (fun u => forallb (fun v => Z.even (symp n u v)) rows) rows &&
  (gf2_rank (ZM (length rows) (2 * n) rows) =? length rows).

Lemma validb_ok n k rows : validb n k rows = true -> valid_generators n k rows.
Proof.
  unfold validb. rewrite !andb_true_iff. intros (((((H1 & H2) & H3) & H4) & H5) & H6).
  apply Nat.ltb_lt in H1. apply Nat.eqb_eq in H2, H6.
  assert (L : Forall (fun r => length r = 2 * n) rows).
  { apply Forall_forall. intros r Hr. rewrite forallb_forall in H3. apply Nat.eqb_eq, H3, Hr. }
  split; [exact H1|]. split; [exact H2|]. split; [exact L|]. split; [|split].
  - apply Forall_forall. intros r Hr. rewrite forallb_forall in H4. specialize (H4 r Hr). rewrite forallb_forall in H4.
    apply Forall_forall. intros x Hx. specialize (H4 x Hx). apply orb_true_iff in H4. rewrite !Z.eqb_eq in H4. exact H4.
  - intros u v Hu Hv. rewrite forallb_forall in H5. specialize (H5 u Hu). rewrite forallb_forall in H5. specialize (H5 v Hv).
    unfold commute. rewrite divide2_odd, <- Z.negb_even, H5. reflexivity.
  - apply gf2_full_indep; assumption.
Qed.

Lemma xsum_blocks n m f : xsum (n * m) f = xsum n (fun b => xsum m (fun i => f (b * m + i))).
Proof.
  induction n as [|n IH]; [reflexivity|]. cbn [xsum]. rewrite <- IH.
  replace (S n * m) with (n * m + m) by lia. apply xsum_split.
Qed.

Lemma length_zl a : length (zl a) = a. Proof. apply repeat_length. Qed.
Lemma nth_zl a j : nth j (zl a) 0%Z = 0%Z. Proof. unfold zl. revert j; induction a as [|a IH]; intros [|j]; simpl; auto. Qed.

Lemma div_ge b i m p : i < b -> p < m -> i * m + m <= b * m + p.
Proof. nia. Qed.
Lemma div_lt b i m p : b < i -> p < m -> b * m + p < i * m.
Proof. nia. Qed.

(** entries of one half of a block generator *)
Lemma nth_padded nb m i (u : list Z) b p : length u = m -> i < nb -> b < nb -> p < m ->
  nth (b * m + p) (zl (i * m) ++ u ++ zl ((nb - i - 1) * m)) 0%Z = if Nat.eqb b i then nth p u 0%Z else 0%Z.
Proof.
  intros L Hi Hb Hp. destruct (lt_eq_lt_dec b i) as [[H|H]|H].
  - pose proof (div_lt b i m p H Hp). rewrite app_nth1 by (rewrite length_zl; lia). rewrite nth_zl.
    destruct (Nat.eqb_spec b i); [lia|reflexivity].
  - subst. rewrite app_nth2 by (rewrite length_zl; lia). rewrite length_zl, Nat.eqb_refl.
    replace (i * length u + p - i * length u) with p by lia. apply app_nth1; lia.
  - pose proof (div_ge b i m p H Hp). rewrite app_nth2 by (rewrite length_zl; lia). rewrite length_zl.
    rewrite app_nth2 by lia. rewrite nth_zl. destruct (Nat.eqb_spec b i); [lia|reflexivity].
Qed.

Lemma length_padded nb m i (u : list Z) : length u = m -> i < nb ->
  length (zl (i * m) ++ u ++ zl ((nb - i - 1) * m)) = nb * m.
Proof.
  intros L Hi. rewrite !app_length, !length_zl, L. replace nb with (i + 1 + (nb - i - 1)) at 2 by lia. nia.
Qed.

Lemma app_assoc3 {A} (a b c d e f : list A) : a ++ b ++ c ++ d ++ e ++ f = (a ++ b ++ c) ++ (d ++ e ++ f).
Proof. rewrite <- !app_assoc. reflexivity. Qed.

Lemma block_gen_length nb m i g : length g = 2 * m -> i < nb -> length (block_gen nb m i g) = 2 * (nb * m).
Proof.
  intros L Hi. unfold block_gen. rewrite app_assoc3, app_length, !length_padded; rewrite ?firstn_length, ?skipn_length; lia.
Qed.

Lemma block_gen_x nb m i g b p : length g = 2 * m -> i < nb -> b < nb -> p < m ->
  nth (b * m + p) (block_gen nb m i g) 0%Z = if Nat.eqb b i then nth p g 0%Z else 0%Z.
Proof.
  intros L Hi Hb Hp. unfold block_gen. rewrite app_assoc3.
  rewrite app_nth1 by (rewrite length_padded; [nia|rewrite firstn_length; lia|exact Hi]).
  rewrite nth_padded by (rewrite ?firstn_length; lia). rewrite nth_firstn by exact Hp. reflexivity.
Qed.
Lemma block_gen_z nb m i g b p : length g = 2 * m -> i < nb -> b < nb -> p < m ->
  nth (nb * m + (b * m + p)) (block_gen nb m i g) 0%Z = if Nat.eqb b i then nth (m + p) g 0%Z else 0%Z.
Proof.
  intros L Hi Hb Hp. unfold block_gen. rewrite app_assoc3.
  rewrite app_nth2 by (rewrite length_padded; [lia|rewrite firstn_length; lia|exact Hi]).
  rewrite length_padded by (rewrite ?firstn_length; lia).
  replace (nb * m + (b * m + p) - nb * m) with (b * m + p) by lia.
  rewrite nth_padded by (rewrite ?skipn_length; lia). rewrite nth_skipn. reflexivity.
Qed.

Lemma flat_map_chunks {A} (d : A) (f : nat -> list A) m : (forall b, length (f b) = m) -> forall n a,
  length (flat_map f (seq a n)) = n * m /\
  forall b p, b < n -> p < m -> nth (b * m + p) (flat_map f (seq a n)) d = nth p (f (a + b)) d.
Proof.
  intros L. induction n as [|n IH]; intros a; [split; [reflexivity|lia]|]. cbn [seq flat_map].
  destruct (IH (S a)) as [I1 I2]. split; [rewrite app_length, I1, L; lia|].
  intros [|b] p Hb Hp.
  - rewrite app_nth1 by (rewrite L; lia). rewrite Nat.add_0_r. reflexivity.
  - rewrite app_nth2 by (rewrite L; nia). rewrite L. replace (S b * m + p - m) with (b * m + p) by nia.
    rewrite I2 by lia. f_equal. f_equal. lia.
Qed.

Lemma subst_x_len m lx x z : m <= length lx -> length (subst_x m lx x z) = m.
Proof. intros H; unfold subst_x. repeat match goal with |- context [if ?b then _ else _] => destruct b end; rewrite ?length_zl, ?firstn_length; lia. Qed.
Lemma subst_z_len m lz x z : length lz = 2 * m -> length (subst_z m lz x z) = m.
Proof. intros H; unfold subst_z. repeat match goal with |- context [if ?b then _ else _] => destruct b end; rewrite ?length_zl, ?skipn_length; lia. Qed.

Lemma brow_subst_x m lx x z p : (x = 0 \/ x = 1)%Z -> (z = 0 \/ z = 1)%Z -> p < m ->
  Z.odd (nth p (subst_x m lx x z) 0%Z) = Z.odd x && brow lx p.
Proof.
  intros [-> | ->] [-> | ->] Hp; unfold subst_x; cbn [Z.eqb Pos.eqb andb]; rewrite ?nth_zl; try reflexivity;
    rewrite nth_firstn by exact Hp; reflexivity.
Qed.
Lemma brow_subst_z m lz x z p : (x = 0 \/ x = 1)%Z -> (z = 0 \/ z = 1)%Z -> p < m ->
  Z.odd (nth p (subst_z m lz x z) 0%Z) = Z.odd z && brow lz (m + p).
Proof.
  intros [-> | ->] [-> | ->] Hp; unfold subst_z; cbn [Z.eqb Pos.eqb andb]; rewrite ?nth_zl; try reflexivity;
    rewrite nth_skipn; reflexivity.
Qed.

Section Concat1.
Variables n m : nat.
Variables lx lz : list Z.
Hypothesis Lx : length lx = 2 * m.
Hypothesis Lz : length lz = 2 * m.

Lemma subst_gen_len g : length (subst_gen n m lx lz g) = 2 * (n * m).
Proof.
  unfold subst_gen. rewrite app_length.
  rewrite (proj1 (flat_map_chunks 0%Z (fun j => subst_x m lx (nth j g 0%Z) (nth (n + j) g 0%Z)) m (fun b => subst_x_len m lx _ _ ltac:(lia)) n 0)).
  rewrite (proj1 (flat_map_chunks 0%Z (fun j => subst_z m lz (nth j g 0%Z) (nth (n + j) g 0%Z)) m (fun b => subst_z_len m lz _ _ Lz) n 0)). lia.
Qed.

Lemma brow_subst_gen_x g b p : binary g -> b < n -> p < m ->
  brow (subst_gen n m lx lz g) (b * m + p) = brow g b && brow lx p.
Proof.
  intros B Hb Hp. unfold brow at 1, subst_gen.
  destruct (flat_map_chunks 0%Z (fun j => subst_x m lx (nth j g 0%Z) (nth (n + j) g 0%Z)) m (fun b => subst_x_len m lx _ _ ltac:(lia)) n 0) as [E1 E2].
  rewrite app_nth1 by (rewrite E1; nia). rewrite E2 by assumption.
  apply brow_subst_x; [apply binary_nth; exact B|apply binary_nth; exact B|exact Hp].
Qed.
Lemma brow_subst_gen_z g b p : binary g -> b < n -> p < m ->
  brow (subst_gen n m lx lz g) (n * m + (b * m + p)) = brow g (n + b) && brow lz (m + p).
Proof.
  intros B Hb Hp. unfold brow at 1, subst_gen.
  destruct (flat_map_chunks 0%Z (fun j => subst_x m lx (nth j g 0%Z) (nth (n + j) g 0%Z)) m (fun b => subst_x_len m lx _ _ ltac:(lia)) n 0) as [E1 _].
  rewrite app_nth2 by (rewrite E1; lia). rewrite E1. replace (n * m + (b * m + p) - n * m) with (b * m + p) by lia.
  destruct (flat_map_chunks 0%Z (fun j => subst_z m lz (nth j g 0%Z) (nth (n + j) g 0%Z)) m (fun b => subst_z_len m lz _ _ Lz) n 0) as [_ E2].
  rewrite E2 by assumption.
  apply brow_subst_z; [apply binary_nth; exact B|apply binary_nth; exact B|exact Hp].
Qed.

Lemma brow_block_x i g b p : length g = 2 * m -> i < n -> b < n -> p < m ->
  brow (block_gen n m i g) (b * m + p) = Nat.eqb b i && brow g p.
Proof. clear lx lz Lx Lz. intros; unfold brow at 1. rewrite block_gen_x by assumption. destruct (Nat.eqb b i); reflexivity. Qed.
Lemma brow_block_z i g b p : length g = 2 * m -> i < n -> b < n -> p < m ->
  brow (block_gen n m i g) (n * m + (b * m + p)) = Nat.eqb b i && brow g (m + p).
Proof. clear lx lz Lx Lz. intros; unfold brow at 1. rewrite block_gen_z by assumption. destruct (Nat.eqb b i); reflexivity. Qed.

Lemma brow_x_only l j : length l = 2 * m -> j < 2 * m -> brow (x_only m l) j = (j <? m) && brow l j.
Proof. clear lx lz Lx Lz.
  intros L Hj. unfold brow at 1, x_only. change (repeat 0%Z m) with (zl m). destruct (Nat.ltb_spec j m).
  - rewrite app_nth1 by (rewrite firstn_length; lia). rewrite nth_firstn by assumption. reflexivity.
  - rewrite app_nth2 by (rewrite firstn_length; lia). rewrite nth_zl. reflexivity.
Qed.
Lemma brow_z_only l j : length l = 2 * m -> j < 2 * m -> brow (z_only m l) j = (m <=? j) && brow l j.
Proof. clear lx lz Lx Lz.
  intros L Hj. unfold brow at 1, z_only. change (repeat 0%Z m) with (zl m). destruct (Nat.leb_spec m j).
  - rewrite app_nth2 by (rewrite length_zl; lia). rewrite length_zl, nth_skipn. replace (m + (j - m)) with j by lia. reflexivity.
  - rewrite app_nth1 by (rewrite length_zl; lia). rewrite nth_zl. reflexivity.
Qed.

Lemma ip_x_only g : ip m (brow g) (brow (x_only m lx)) = xsum m (fun p => brow g (m + p) && brow lx p).
Proof. clear lz Lz.
  apply xsum_ext; intros p Hp. rewrite !brow_x_only by lia.
  destruct (Nat.ltb_spec (m + p) m); [lia|]. destruct (Nat.ltb_spec p m); [|lia].
  cbn [andb]. rewrite andb_false_r, xorb_false_l. reflexivity.
Qed.
Lemma ip_z_only g : ip m (brow g) (brow (z_only m lz)) = xsum m (fun p => brow g p && brow lz (m + p)).
Proof. clear lx Lx.
  apply xsum_ext; intros p Hp. rewrite !brow_z_only by lia.
  destruct (Nat.leb_spec m (m + p)); [|lia]. destruct (Nat.leb_spec m p); [lia|].
  cbn [andb]. rewrite andb_false_r, xorb_false_r. reflexivity.
Qed.

Lemma ip_block_block i g i' g' : length g = 2 * m -> length g' = 2 * m -> i < n -> i' < n ->
  ip (n * m) (brow (block_gen n m i g)) (brow (block_gen n m i' g')) = Nat.eqb i i' && ip m (brow g) (brow g').
Proof. clear lx lz Lx Lz.
  intros L L' Hi Hi'. unfold ip at 1. rewrite xsum_blocks.
  rewrite (xsum_ext n _ (fun b => Nat.eqb b i && (Nat.eqb b i' && ip m (brow g) (brow g')))).
  - rewrite (xsum_delta n i (fun b => Nat.eqb b i' && ip m (brow g) (brow g'))) by exact Hi. reflexivity.
  - intros b Hb. unfold ip. rewrite <- !xsum_andl. apply xsum_ext; intros p Hp.
    rewrite (brow_block_x i g b p), (brow_block_x i' g' b p), (brow_block_z i g), (brow_block_z i' g') by assumption.
    destruct (Nat.eqb b i), (Nat.eqb b i'); cbn [andb]; rewrite ?andb_false_r; reflexivity.
Qed.

Lemma ip_block_subst i g h : length g = 2 * m -> binary h -> i < n ->
  ip (n * m) (brow (block_gen n m i g)) (brow (subst_gen n m lx lz h)) =
  xorb (brow h (n + i) && ip m (brow g) (brow (z_only m lz))) (brow h i && ip m (brow g) (brow (x_only m lx))).
Proof.
  intros L B Hi. rewrite ip_x_only, ip_z_only. unfold ip. rewrite xsum_blocks.
  rewrite (xsum_one n i); [|exact Hi|].
  - rewrite <- !xsum_andl, <- xsum_xor. apply xsum_ext; intros p Hp.
    rewrite (brow_block_x i g i p), (brow_block_z i g i p), (brow_subst_gen_x h i p), (brow_subst_gen_z h i p) by assumption.
    rewrite Nat.eqb_refl. destruct (brow g p), (brow g (m + p)), (brow h i), (brow h (n + i)), (brow lx p), (brow lz (m + p)); reflexivity.
  - intros b Hb Hne. apply xsum_zero; intros p Hp. rewrite (brow_block_x i g b p), (brow_block_z i g b p) by assumption.
    destruct (Nat.eqb_spec b i); [contradiction|]. reflexivity.
Qed.

Lemma ip_subst_subst h h' : binary h -> binary h' ->
  ip (n * m) (brow (subst_gen n m lx lz h)) (brow (subst_gen n m lx lz h')) =
  ip n (brow h) (brow h') && xsum m (fun p => brow lx p && brow lz (m + p)).
Proof.
  intros B B'. unfold ip at 1. rewrite xsum_blocks.
  unfold ip. rewrite <- xsum_andr. apply xsum_ext; intros b Hb. rewrite <- xsum_andl. apply xsum_ext; intros p Hp.
  rewrite (brow_subst_gen_x h b p), (brow_subst_gen_z h b p), (brow_subst_gen_x h' b p), (brow_subst_gen_z h' b p) by assumption.
  destruct (brow h b), (brow h (n + b)), (brow h' b), (brow h' (n + b)), (brow lx p), (brow lz (m + p)); reflexivity.
Qed.
End Concat1.

(** C22 *)
Lemma flat_map_length_const {A B} (f : A -> list B) c l : (forall x, In x l -> length (f x) = c) -> length (flat_map f l) = length l * c.
Proof.
  induction l as [|x l IH]; intros H; [reflexivity|]. cbn [flat_map]. rewrite app_length, IH, H; simpl; auto.
  intros y Hy; apply H; right; exact Hy.
Qed.

Theorem concat1_rows_commute c1 c2 n k m : 
  cn c1 = n -> cn c2 = m ->
  Forall (fun r => length r = 2 * m) (zd (stab c2)) -> all_commute m (zd (stab c2)) -> length (zd (stab c2)) = m - 1 ->
  Forall binary (zd (stab c1)) -> all_commute n (zd (stab c1)) -> length (zd (stab c1)) = n - k -> k <= n -> 1 <= m ->
  forall lx lx' lz lz', zd (logical_x c2) = lx :: lx' -> zd (logical_z c2) = lz :: lz' ->
  length lx = 2 * m -> length lz = 2 * m ->
  (forall r, In r (zd (stab c2)) -> commute m r (x_only m lx) /\ commute m r (z_only m lz)) ->
  exists rows, concat1_rows c1 c2 = Ok rows /\
    length rows = n * m - k /\ Forall (fun r => length r = 2 * (n * m)) rows /\ all_commute (n * m) rows.
Proof.
  intros En Em L2 C2 N2 B1 C1 N1 Hk Hm lx lx' lz lz' Ex Ez Llx Llz HC.
  unfold concat1_rows. rewrite Ex, Ez, En, Em. cbn [nth_error].
  eexists; split; [reflexivity|].
  rewrite Forall_forall in L2, B1.
  assert (IB : forall r, In r (block_gens n m c2) -> exists i g, i < n /\ In g (zd (stab c2)) /\ r = block_gen n m i g).
  { intros r Hr. unfold block_gens in Hr. apply in_flat_map in Hr. destruct Hr as (i & Hi & Hr). apply in_seq in Hi.
    apply in_map_iff in Hr. destruct Hr as (g & <- & Hg). exists i, g. split; [lia|auto]. }
  assert (IS : forall r, In r (map (subst_gen n m lx lz) (zd (stab c1))) -> exists h, In h (zd (stab c1)) /\ r = subst_gen n m lx lz h).
  { intros r Hr. apply in_map_iff in Hr. destruct Hr as (h & <- & Hh). exists h; auto. }
  split; [|split].
  - rewrite app_length, map_length, N1. unfold block_gens. rewrite (flat_map_length_const _ (m - 1)) by (intros; rewrite map_length; exact N2).
    rewrite seq_length. nia.
  - apply Forall_forall. intros r Hr. apply in_app_or in Hr. destruct Hr as [Hr|Hr].
    + destruct (IB r Hr) as (i & g & Hi & Hg & ->). apply block_gen_length; [apply L2; exact Hg|exact Hi].
    + destruct (IS r Hr) as (h & Hh & ->). apply subst_gen_len; assumption.
  - intros u v Hu Hv. apply commute_ip.
    assert (BS : forall i g h, i < n -> In g (zd (stab c2)) -> In h (zd (stab c1)) ->
              ip (n * m) (brow (block_gen n m i g)) (brow (subst_gen n m lx lz h)) = false).
    { intros i g h Hi Hg Hh. rewrite ip_block_subst by (auto || (apply L2; exact Hg) || (apply B1; exact Hh)).
      destruct (HC g Hg) as [Hx Hz]. apply commute_ip in Hx, Hz. rewrite Hx, Hz, !andb_false_r. reflexivity. }
    apply in_app_or in Hu, Hv. destruct Hu as [Hu|Hu], Hv as [Hv|Hv].
    + destruct (IB u Hu) as (i & g & Hi & Hg & ->), (IB v Hv) as (i' & g' & Hi' & Hg' & ->).
      rewrite ip_block_block by (auto; apply L2; assumption). 
      assert (E : ip m (brow g) (brow g') = false) by (apply commute_ip, C2; assumption). rewrite E. apply andb_false_r.
    + destruct (IB u Hu) as (i & g & Hi & Hg & ->), (IS v Hv) as (h & Hh & ->). apply BS; assumption.
    + destruct (IS u Hu) as (h & Hh & ->), (IB v Hv) as (i & g & Hi & Hg & ->). rewrite ip_sym. apply BS; assumption.
    + destruct (IS u Hu) as (h & Hh & ->), (IS v Hv) as (h' & Hh' & ->).
      rewrite ip_subst_subst by (auto; apply B1; assumption).
      assert (E : ip n (brow h) (brow h') = false) by (apply commute_ip, C1; assumption). rewrite E. reflexivity.
Qed.

(** the same rows are independent when the logical operators anticommute *)
Lemma brows_app_l r1 r2 i j : i < length r1 -> brows (r1 ++ r2) i j = brows r1 i j.
Proof. intros H. unfold brows. rewrite app_nth1 by exact H. reflexivity. Qed.
Lemma brows_app_r r1 r2 i j : brows (r1 ++ r2) (length r1 + i) j = brows r2 i j.
Proof. unfold brows. rewrite app_nth2 by lia. f_equal. f_equal. lia. Qed.

Lemma x_only_len m l : length l = 2 * m -> length (x_only m l) = 2 * m.
Proof. intros L; unfold x_only. rewrite app_length, firstn_length, repeat_length. lia. Qed.
Lemma z_only_len m l : length l = 2 * m -> length (z_only m l) = 2 * m.
Proof. intros L; unfold z_only. rewrite app_length, skipn_length, repeat_length. lia. Qed.

Lemma concat1_indep n m lx lz G H :
  length lx = 2 * m -> length lz = 2 * m ->
  Forall (fun r => length r = 2 * m) G -> Forall binary H ->
  (forall r, In r G -> commute m r (x_only m lx) /\ commute m r (z_only m lz)) ->
  ~ commute m (x_only m lx) (z_only m lz) ->
  indep 2 (2 * m) G -> indep 2 (2 * n) H ->
  indep 2 (2 * (n * m)) (flat_map (fun i => map (block_gen n m i) G) (seq 0 n) ++ map (subst_gen n m lx lz) H).
Proof.
  intros Lx Lz LG BH HC HA IG IH.
  assert (AX : xsum m (fun p => brow lx p && brow lz (m + p)) = true).
  { destruct (xsum m _) eqn:E; [reflexivity|]. exfalso. apply HA. apply commute_ip.
    rewrite (ip_z_only m lz Lz). rewrite <- E. apply xsum_ext; intros p Hp. rewrite brow_x_only by lia.
    destruct (Nat.ltb_spec p m); [reflexivity|lia]. }
  apply indep2_b in IG. apply indep2_b in IH. apply indep2_b.
  set (B := flat_map (fun i => map (block_gen n m i) G) (seq 0 n)).
  set (S := map (subst_gen n m lx lz) H).
  rewrite Forall_forall in LG, BH.
  destruct (flat_map_chunks [] (fun i => map (block_gen n m i) G) (length G) (fun b => map_length _ _) n 0) as [LB NB].
  fold B in LB, NB.
  assert (NBr : forall i q j, i < n -> q < length G -> brows B (i * length G + q) j = brow (block_gen n m i (nth q G [])) j).
  { intros i q j Hi Hq. unfold brows. rewrite NB by assumption. cbn [Nat.add].
    rewrite (nth_indep _ [] (block_gen n m i [])) by (rewrite map_length; exact Hq). rewrite map_nth. reflexivity. }
  assert (NS : forall h j, h < length H -> brows S h j = brow (subst_gen n m lx lz (nth h H [])) j).
  { intros h j Hh. unfold brows, S. rewrite (nth_indep _ [] (subst_gen n m lx lz [])) by (rewrite map_length; exact Hh).
    rewrite map_nth. reflexivity. }
  intros a Ha.
  rewrite app_length in *. unfold S in Ha at 1. rewrite map_length in Ha. rewrite LB in Ha.
  replace (length S) with (length H) by (unfold S; rewrite map_length; reflexivity). rewrite LB.
  (* splitting a combination *)
  assert (SP : forall j, comb (n * length G + length H) a (brows (B ++ S)) j =
     xorb (comb (n * length G) a (brows B) j) (comb (length H) (fun h => a (n * length G + h)) (brows S) j)).
  { intros j. unfold comb. rewrite xsum_split. f_equal; apply xsum_ext; intros i Hi.
    - rewrite brows_app_l by lia. reflexivity.
    - rewrite <- LB, brows_app_r. reflexivity. }
  assert (KEY : forall w, (forall i q, i < n -> q < length G -> ip (n * m) (brow (block_gen n m i (nth q G []))) w = false) ->
     xsum (length H) (fun h => a (n * length G + h) && ip (n * m) (brow (subst_gen n m lx lz (nth h H []))) w) = false).
  { intros w Hw.
    assert (E0 : ip (n * m) (comb (n * length G + length H) a (brows (B ++ S))) w = false).
    { rewrite (ip_ext _ _ (fun _ => false) w w); [|intros j Hj; apply Ha; lia|reflexivity].
      apply xsum_zero; intros; reflexivity. }
    rewrite ip_comb_l, xsum_split in E0.
    rewrite (xsum_zero (n * length G)) in E0.
    - rewrite xorb_false_l in E0. rewrite <- E0. apply xsum_ext; intros h Hh. f_equal.
      apply ip_ext; [|reflexivity]. intros j Hj. rewrite <- LB, brows_app_r. symmetry; apply NS; exact Hh.
    - intros t Ht. destruct (length G) as [|g] eqn:EG; [lia|].
      pose proof (Nat.div_mod t (Datatypes.S g) ltac:(lia)) as Et. rewrite Nat.mul_comm in Et.
      pose proof (Nat.mod_upper_bound t (Datatypes.S g) ltac:(lia)) as Hq.
      assert (Hi : t / Datatypes.S g < n) by (apply Nat.div_lt_upper_bound; lia).
      rewrite (ip_ext _ (brows (B ++ S) t) (brow (block_gen n m (t / Datatypes.S g) (nth (t mod Datatypes.S g) G []))) w w);
        [rewrite Hw by assumption; apply andb_false_r| |reflexivity].
      intros j Hj. rewrite brows_app_l by lia. rewrite Et at 1. apply NBr; assumption. }
  assert (CB : forall h, h < length H -> binary (nth h H [])) by (intros; apply BH, nth_In; assumption).
  assert (LGq : forall q, q < length G -> length (nth q G []) = 2 * m) by (intros; apply LG, nth_In; assumption).
  assert (HX : forall q, q < length G -> ip m (brow (nth q G [])) (brow (x_only m lx)) = false /\ ip m (brow (nth q G [])) (brow (z_only m lz)) = false).
  { intros q Hq. destruct (HC _ (nth_In G [] Hq)) as [A1 A2]. apply commute_ip in A1, A2. auto. }
  assert (XX : ip m (brow (x_only m lx)) (brow (x_only m lx)) = false) by apply ip_self.
  assert (ZZ : ip m (brow (z_only m lz)) (brow (z_only m lz)) = false) by apply ip_self.
  assert (XZ : ip m (brow (x_only m lx)) (brow (z_only m lz)) = true).
  { destruct (ip m (brow (x_only m lx)) (brow (z_only m lz))) eqn:E; [reflexivity|]. exfalso; apply HA, commute_ip, E. }
  assert (A2 : forall h, h < length H -> a (n * length G + h) = false).
  { apply (IH (fun h => a (n * length G + h))). intros j Hj. unfold comb. destruct (Nat.lt_ge_cases j n) as [Hjn|Hjn].
    - (* pair with Z at block j *)
      rewrite <- (KEY (brow (block_gen n m j (z_only m lz)))).
      + apply xsum_ext; intros h Hh. f_equal. rewrite ip_sym, ip_block_subst; try assumption; [|apply z_only_len; exact Lz|apply CB; exact Hh].
        rewrite ZZ, ip_sym, XZ, andb_false_r, xorb_false_l, andb_true_r. reflexivity.
      + intros i q Hi Hq. rewrite ip_block_block; try assumption; [|apply LGq; exact Hq|apply z_only_len; exact Lz].
        rewrite (proj2 (HX q Hq)). apply andb_false_r.
    - rewrite <- (KEY (brow (block_gen n m (j - n) (x_only m lx)))).
      + apply xsum_ext; intros h Hh. f_equal. rewrite ip_sym, ip_block_subst; try assumption; [|apply x_only_len; exact Lx|apply CB; exact Hh|lia].
        rewrite XX, XZ, andb_false_r, xorb_false_r, andb_true_r. replace (n + (j - n)) with j by lia. reflexivity.
      + intros i q Hi Hq. rewrite ip_block_block; try assumption; [|apply LGq; exact Hq|apply x_only_len; exact Lx|lia].
        rewrite (proj1 (HX q Hq)). apply andb_false_r. }
  assert (HB : forall j, j < 2 * (n * m) -> comb (n * length G) a (brows B) j = false).
  { intros j Hj. specialize (Ha j Hj). rewrite SP in Ha.
    unfold comb at 2 in Ha. rewrite (xsum_zero (length H)) in Ha; [rewrite xorb_false_r in Ha; exact Ha|].
    intros h Hh. rewrite A2 by exact Hh. reflexivity. }
  assert (A1 : forall b, b < n -> forall q, q < length G -> a (b * length G + q) = false).
  { intros b Hb. apply (IG (fun q => a (b * length G + q))). intros j Hj.
    assert (E : exists j', j' < 2 * (n * m) /\ forall i q, i < n -> q < length G -> brow (block_gen n m i (nth q G [])) j' = Nat.eqb b i && brows G q j).
    { destruct (Nat.lt_ge_cases j m) as [Hjm|Hjm].
      - exists (b * m + j). split; [nia|]. intros i q Hi Hq. rewrite (brow_block_x n m i (nth q G []) b j); auto.
      - exists (n * m + (b * m + (j - m))). split; [nia|]. intros i q Hi Hq.
        rewrite (brow_block_z n m i (nth q G []) b (j - m)); auto; [|lia]. replace (m + (j - m)) with j by lia. reflexivity. }
    destruct E as (j' & Hj' & E). specialize (HB j' Hj'). unfold comb in HB. rewrite xsum_blocks in HB.
    rewrite <- HB. rewrite (xsum_one n b); [|exact Hb|].
    - unfold comb. apply xsum_ext; intros q Hq. rewrite NBr, E, Nat.eqb_refl by assumption. reflexivity.
    - intros i Hi Hne. apply xsum_zero; intros q Hq. rewrite NBr, E by assumption.
      destruct (Nat.eqb_spec b i); [lia|]. apply andb_false_r. }
  intros t Ht. destruct (Nat.lt_ge_cases t (n * length G)) as [Hlt|Hge].
  - destruct (length G) as [|g] eqn:EG; [lia|].
    pose proof (Nat.div_mod t (Datatypes.S g) ltac:(lia)) as Et. rewrite Nat.mul_comm in Et.
    pose proof (Nat.mod_upper_bound t (Datatypes.S g) ltac:(lia)) as Hq.
    assert (Hi : t / Datatypes.S g < n) by (apply Nat.div_lt_upper_bound; lia).
    rewrite Et. apply A1; assumption.
  - replace t with (n * length G + (t - n * length G)) by lia. apply A2. lia.
Qed.

Lemma binary_app a b : binary a -> binary b -> binary (a ++ b).
Proof. intros; apply Forall_app; auto. Qed.
Lemma binary_zl a : binary (zl a).
Proof. apply Forall_forall. intros x Hx. apply repeat_spec in Hx. left; exact Hx. Qed.
Lemma binary_firstn a l : binary l -> binary (firstn a l).
Proof. intros B. rewrite <- (firstn_skipn a l) in B. apply Forall_app in B. apply B. Qed.
Lemma binary_skipn a l : binary l -> binary (skipn a l).
Proof. intros B. rewrite <- (firstn_skipn a l) in B. apply Forall_app in B. apply B. Qed.
Lemma binary_block nb m i g : binary g -> binary (block_gen nb m i g).
Proof.
  intros B. unfold block_gen. repeat apply binary_app; auto using binary_zl, binary_firstn, binary_skipn.
Qed.
Lemma binary_flat_map {A} (f : A -> list Z) l : (forall x, binary (f x)) -> binary (flat_map f l).
Proof. intros H; induction l; [constructor|]. simpl. apply binary_app; auto. Qed.
Lemma binary_subst n m lx lz g : binary lx -> binary lz -> binary (subst_gen n m lx lz g).
Proof.
  intros Bx Bz. unfold subst_gen. apply binary_app; apply binary_flat_map; intros j; unfold subst_x, subst_z;
    repeat match goal with |- context [if ?b then _ else _] => destruct b end; auto using binary_zl, binary_firstn, binary_skipn.
Qed.

Theorem concat1_valid g1 g2 o1 o2 n k m c1 c2 lx lz :
  init g1 n k o1 = Ok c1 -> init g2 m 1 o2 = Ok c2 ->
  valid_generators n k (zd (stab c1)) -> valid_generators m 1 (zd (stab c2)) ->
  nth_error (zd (logical_x c2)) 0 = Some lx -> nth_error (zd (logical_z c2)) 0 = Some lz ->
  length lx = 2 * m -> length lz = 2 * m -> binary lx -> binary lz ->
  (forall r, In r (zd (stab c2)) -> commute m r (x_only m lx) /\ commute m r (z_only m lz)) ->
  ~ commute m (x_only m lx) (z_only m lz) ->
  exists rows, valid_generators (n * m) k rows /\
    concatenate_codes c1 c2 = (do c <- init (Rows rows) (n * m) k None; Ok (Some c)).
Proof.
  intros I1 I2 V1 V2 Ex Ez Lx Lz Bx Bz HC HA.
  destruct (init_inv _ _ _ _ _ I1) as (M1 & _ & _ & _ & _ & Hk1 & _ & HB1 & _).
  destruct (init_inv _ _ _ _ _ I2) as (M2 & _ & _ & _ & _ & Hk2 & _ & HB2 & _).
  apply init_body_inv in HB1. destruct HB1 as (_ & _ & _ & En & Ek & _).
  apply init_body_inv in HB2. destruct HB2 as (_ & _ & _ & Em & El & _).
  destruct V1 as (P1 & N1 & L1 & B1 & C1 & D1). destruct V2 as (P2 & N2 & L2 & B2 & C2 & D2).
  destruct (zd (logical_x c2)) as [|lx0 lx'] eqn:E1; [discriminate|]. injection Ex as ->.
  destruct (zd (logical_z c2)) as [|lz0 lz'] eqn:E2; [discriminate|]. injection Ez as ->.
  destruct (concat1_rows_commute c1 c2 n k m En Em L2 C2 N2 B1 C1 N1 Hk1 ltac:(lia) lx lx' lz lz' E1 E2 Lx Lz HC)
    as (rows & ER & NR & LR & CR).
  exists rows. split.
  - unfold concat1_rows in ER. rewrite E1, E2, En, Em in ER. cbn [nth_error] in ER. injection ER as ER.
    split; [|split; [exact NR|split; [exact LR|split; [|split; [exact CR|]]]]].
    + rewrite <- ER, app_length, map_length. lia.
    + rewrite <- ER. apply Forall_app. split.
      * apply Forall_forall. intros r Hr. unfold block_gens in Hr. apply in_flat_map in Hr. destruct Hr as (i & _ & Hr).
        apply in_map_iff in Hr. destruct Hr as (g & <- & Hg). apply binary_block. rewrite Forall_forall in B2. apply B2, Hg.
      * apply Forall_forall. intros r Hr. apply in_map_iff in Hr. destruct Hr as (h & <- & _). apply binary_subst; assumption.
    + rewrite <- ER. unfold block_gens. apply concat1_indep; assumption.
  - unfold concatenate_codes. rewrite En, Em, El, Ek. cbn [Nat.eqb]. rewrite ER. reflexivity.
Qed.

(** C23 *)
Theorem concat_not_dividing c1 c2 : 2 <= ck c2 -> cn c1 mod ck c2 <> 0 -> concatenate_codes c1 c2 = Ok None.
Proof.
  intros H1 H2. unfold concatenate_codes. destruct (Nat.eqb_spec (ck c2) 0); [lia|]. destruct (Nat.eqb_spec (ck c2) 1); [lia|].
  destruct (Nat.eqb_spec (cn c1 mod ck c2) 0); [lia|reflexivity].
Qed.

(** C21 *)
Lemma bit_rows_spec m v : In v (bit_rows m) <-> length v = m /\ binary v.
Proof.
  revert v. induction m as [|m IH]; intros v; cbn [bit_rows].
  - split; [intros [<- | []]; split; [reflexivity|constructor]|]. intros [L _]. left. destruct v; [reflexivity|discriminate].
  - rewrite in_app_iff, !in_map_iff. split.
    + intros [(w & <- & Hw)|(w & <- & Hw)]; apply IH in Hw; destruct Hw as [L B]; (split; [simpl; lia|constructor; auto]).
    + intros [L B]. destruct v as [|x v]; [discriminate|]. apply Forall_cons_iff in B. destruct B as [[-> | ->] B];
        [left|right]; exists v; (split; [reflexivity|apply IH; split; [simpl in L; lia|exact B]]).
Qed.

Lemma bit_rows_cons m : exists v l, bit_rows m = v :: l.
Proof. induction m as [|m (v & l & E)]; [exists [], []; reflexivity|]. cbn [bit_rows]. rewrite E. cbn. eauto. Qed.

Theorem normalizer_fails g n k ops c : init g n k ops = Ok c ->
  normalizer c = Err AttributeError /\ undetectable_errors c = Err AttributeError.
Proof.
  intros I. destruct (init_inv _ _ _ _ _ I) as (M & W & _ & _ & ES & _ & Hp & _).
  assert (E : normalizer c = Err AttributeError).
  { unfold normalizer, normalizer_with. destruct (bit_rows_cons (2 * cn c)) as (v & l & ->).
    cbn [foldM]. destruct W as [LM _]. rewrite ES. destruct (zd M) as [|s rows]; [simpl in LM; lia|]. reflexivity. }
  split; [exact E|]. unfold undetectable_errors, undetectable_errors_with. unfold normalizer in E. rewrite E. reflexivity.
Qed.

Lemma commutes_with_all_spec attrs rows p : In (str "_commute") attrs ->
  commutes_with_all attrs rows p = Ok (forallb (fun s => inner_prod s p =? 0)%Z rows).
Proof.
  intros H. induction rows as [|s rows IH]; [reflexivity|]. cbn [commutes_with_all forallb]. unfold getattr.
  destruct (in_dec _ _ _) as [_|N]; [|contradiction]. cbn [bind].
  destruct (inner_prod s p =? 0)%Z; [exact IH|reflexivity].
Qed.

(** what the loop would return with the missing method in place: N(S), not N(S) - S *)
Theorem normalizer_repaired attrs g n k ops c : In (str "_commute") attrs -> init g n k ops = Ok c ->
  exists l, normalizer_with attrs c = Ok l /\
    forall v, In v l <-> length v = 2 * n /\ binary v /\ forall r, In r (zd (stab c)) -> commute n r v.
Proof.
  intros HI I. destruct (init_inv _ _ _ _ _ I) as (M & W & _ & HC & ES & _ & Hp & HB & _).
  apply init_body_inv in HB. destruct HB as (_ & _ & _ & En & _).
  set (t := fun p => forallb (fun s => inner_prod s p =? 0)%Z (zd (stab c))).
  assert (F : forall ps acc, foldM (fun acc p => do b <- commutes_with_all attrs (zd (stab c)) p;
                      Ok (if b : bool then acc ++ [p] else acc)) ps acc = Ok (acc ++ filter t ps)).
  { induction ps as [|p ps IH]; intros acc; [rewrite app_nil_r; reflexivity|]. cbn [foldM filter].
    rewrite commutes_with_all_spec by exact HI. cbn [bind]. rewrite IH. unfold t at 2 3. destruct (forallb _ _); [|reflexivity].
    rewrite <- app_assoc. reflexivity. }
  exists (filter t (bit_rows (2 * n))). split; [unfold normalizer_with; rewrite En, F; reflexivity|].
  intros v. rewrite filter_In, bit_rows_spec. unfold t. rewrite forallb_forall.
  assert (LR : forall r, In r (zd (stab c)) -> length r = 2 * n).
  { rewrite ES. destruct W as [_ W]. rewrite Forall_forall in W. intros r Hr. rewrite (W r Hr). exact HC. }
  split.
  - intros [[L B] H]. split; [exact L|]. split; [exact B|]. intros r Hr. specialize (H r Hr). apply Z.eqb_eq in H.
    rewrite (inner_prod_ip n) in H by auto. apply commute_ip. destruct (ip n _ _); [discriminate|reflexivity].
  - intros (L & B & H). split; [auto|]. intros r Hr. rewrite (inner_prod_ip n) by auto. specialize (H r Hr).
    apply commute_ip in H. rewrite H. reflexivity.
Qed.
