(** Concatenation over GF(2): rows, commutation and independence for any placement
    of the outer qubits into the blocks. *)
From Verif Require Import Py BoolLin Rank ConcatProofs.
Open Scope nat_scope.

Section Abs.
Variables (n nb m s h : nat) (blk : nat -> nat) (LX LZ : nat -> nat -> bool) (G H R : nat -> nat -> bool).
(** column of qubit p (p < m: X part, else Z part) of block b *)
Definition pos (b p : nat) : nat := if p <? m then b * m + p else nb * m + (b * m + (p - m)).
Definition cb (x : nat -> bool) (b : nat) (L : nat -> nat -> bool) : nat -> bool := comb n (fun j => Nat.eqb (blk j) b && x j) L.
Definition enc (g : nat -> bool) (b : nat) : nat -> bool := fun p => xorb (cb g b LX p) (cb (fun j => g (n + j)) b LZ p).
Hypothesis Hblk : forall j, j < n -> blk j < nb.
Hypothesis HGL : forall q j, q < s -> j < n -> ip m (G q) (LX j) = false /\ ip m (G q) (LZ j) = false.
Hypothesis HLL : forall i j, i < n -> j < n -> blk i = blk j ->
  ip m (LX i) (LZ j) = Nat.eqb i j /\ ip m (LX i) (LX j) = false /\ ip m (LZ i) (LZ j) = false.
Hypothesis RB : forall i q b p, i < nb -> q < s -> b < nb -> p < 2 * m -> R (i * s + q) (pos b p) = Nat.eqb b i && G q p.
Hypothesis RE : forall t b p, t < h -> b < nb -> p < 2 * m -> R (nb * s + t) (pos b p) = enc (H t) b p.

Lemma ip_pos u v : ip (nb * m) u v = xsum nb (fun b => ip m (fun p => u (pos b p)) (fun p => v (pos b p))).
Proof.
  unfold ip. rewrite xsum_blocks. apply xsum_ext; intros b Hb. apply xsum_ext; intros p Hp. unfold pos.
  destruct (Nat.ltb_spec p m); [|lia]. destruct (Nat.ltb_spec (m + p) m); [lia|]. replace (m + p - m) with p by lia. reflexivity.
Qed.
Lemma pos_lt b p : b < nb -> p < 2 * m -> pos b p < 2 * (nb * m).
Proof. unfold pos. intros. destruct (Nat.ltb_spec p m); nia. Qed.

Lemma ip_false_r u : ip m u (fun _ => false) = false.
Proof. apply xsum_zero; intros; destruct (u i), (u (m + i)); reflexivity. Qed.
Lemma ip_enc_G g b q : q < s -> ip m (G q) (enc g b) = false.
Proof.
  intros Hq. unfold enc. rewrite ip_xor_r. unfold cb. rewrite !ip_comb_r, !xsum_zero; [reflexivity| |]; intros j Hj; destruct (HGL q j Hq Hj) as [A1 A2]; rewrite ?A1, ?A2; apply andb_false_r.
Qed.
Lemma ip_enc_LZ g j : j < n -> ip m (enc g (blk j)) (LZ j) = g j.
Proof.
  intros Hj. unfold enc. rewrite ip_xor_l. unfold cb. rewrite !ip_comb_l, (xsum_zero n (fun i => _ && g (n + i) && _)), xorb_false_r.
  - rewrite (xsum_one n j); [|exact Hj|].
    + rewrite Nat.eqb_refl. destruct (HLL j j Hj Hj eq_refl) as [-> _]. rewrite Nat.eqb_refl, andb_true_r. reflexivity.
    + intros i Hi Hne. destruct (Nat.eqb_spec (blk i) (blk j)) as [E|E]; [|reflexivity]. destruct (HLL i j Hi Hj E) as [-> _]. destruct (Nat.eqb_spec i j); [lia|]. apply andb_false_r.
  - intros i Hi. destruct (Nat.eqb_spec (blk i) (blk j)) as [E|E]; [|reflexivity]. destruct (HLL i j Hi Hj E) as (_ & _ & ->). apply andb_false_r.
Qed.
Lemma ip_enc_LX g j : j < n -> ip m (enc g (blk j)) (LX j) = g (n + j).
Proof.
  intros Hj. unfold enc. rewrite ip_xor_l. unfold cb. rewrite !ip_comb_l, (xsum_zero n (fun i => _ && g i && _)), xorb_false_l.
  - rewrite (xsum_one n j); [|exact Hj|].
    + rewrite Nat.eqb_refl, ip_sym. destruct (HLL j j Hj Hj eq_refl) as [-> _]. rewrite Nat.eqb_refl, andb_true_r. reflexivity.
    + intros i Hi Hne. destruct (Nat.eqb_spec (blk i) (blk j)) as [E|E]; [|reflexivity]. rewrite ip_sym. destruct (HLL j i Hj Hi (eq_sym E)) as [-> _]. destruct (Nat.eqb_spec j i); [lia|]. apply andb_false_r.
  - intros i Hi. destruct (Nat.eqb_spec (blk i) (blk j)) as [E|E]; [|reflexivity]. destruct (HLL i j Hi Hj E) as (_ & -> & _). apply andb_false_r.
Qed.
Lemma ip_enc_enc g g' : xsum nb (fun b => ip m (enc g b) (enc g' b)) = ip n g g'.
Proof.
  rewrite (xsum_ext nb _ (fun b => xsum n (fun j => Nat.eqb (blk j) b && xorb (g j && g' (n + j)) (g (n + j) && g' j)))).
  - rewrite xsum_swap. unfold ip. apply xsum_ext; intros j Hj. rewrite (xsum_one nb (blk j)); [|apply Hblk, Hj|].
    + rewrite Nat.eqb_refl. reflexivity.
    + intros b Hb Hne. destruct (Nat.eqb_spec (blk j) b); [congruence|reflexivity].
  - intros b Hb. unfold enc at 2. rewrite ip_xor_r. unfold cb. rewrite !ip_comb_r, <- xsum_xor. apply xsum_ext; intros j Hj.
    destruct (Nat.eqb_spec (blk j) b) as [<-|_]; [|reflexivity]. rewrite ip_enc_LX, ip_enc_LZ by exact Hj. cbn [andb]. destruct (g j), (g (n + j)), (g' j), (g' (n + j)); reflexivity.
Qed.

Theorem concat_commuting :
  (forall q q', q < s -> q' < s -> ip m (G q) (G q') = false) -> (forall t t', t < h -> t' < h -> ip n (H t) (H t') = false) ->
  forall x y, x < nb * s + h -> y < nb * s + h -> ip (nb * m) (R x) (R y) = false.
Proof.
  intros CG CH.
  assert (D : forall x, x < nb * s + h -> (exists i q, i < nb /\ q < s /\ x = i * s + q) \/ (exists t, t < h /\ x = nb * s + t)).
  { intros x Hx. destruct (Nat.lt_ge_cases x (nb * s)) as [L|L]; [left|right; exists (x - nb * s); lia].
    exists (x / s), (x mod s). assert (s <> 0) by nia. pose proof (Nat.div_mod x s ltac:(lia)). split; [apply Nat.div_lt_upper_bound; nia|]. split; [apply Nat.mod_upper_bound; lia|nia]. }
  assert (BE : forall i q t, i < nb -> q < s -> t < h -> ip (nb * m) (R (i * s + q)) (R (nb * s + t)) = false).
  { intros i q t Hi Hq Ht. rewrite ip_pos. apply xsum_zero; intros b Hb.
    rewrite (ip_ext m _ (fun p => Nat.eqb b i && G q p) _ (enc (H t) b)) by (intros; first [apply RB|apply RE]; assumption).
    destruct (Nat.eqb b i); [apply ip_enc_G, Hq|]. cbn [andb]. rewrite ip_sym. apply ip_false_r. }
  intros x y Hx Hy. destruct (D x Hx) as [(i & q & Hi & Hq & ->)|(t & Ht & ->)], (D y Hy) as [(i' & q' & Hi' & Hq' & ->)|(t' & Ht' & ->)].
  - rewrite ip_pos. apply xsum_zero; intros b Hb.
    rewrite (ip_ext m _ (fun p => Nat.eqb b i && G q p) _ (fun p => Nat.eqb b i' && G q' p)) by (intros; apply RB; assumption).
    destruct (Nat.eqb b i), (Nat.eqb b i'); cbn [andb]; [apply CG; assumption|apply ip_false_r| |apply ip_false_r]. rewrite ip_sym. apply ip_false_r.
  - apply BE; assumption.
  - rewrite ip_sym. apply BE; assumption.
  - rewrite ip_pos, (xsum_ext nb _ (fun b => ip m (enc (H t) b) (enc (H t') b))); [rewrite ip_enc_enc; apply CH; assumption|].
    intros b Hb. apply ip_ext; intros; apply RE; assumption.
Qed.

Theorem concat_independent : indepb G s (2 * m) -> indepb H h (2 * n) -> indepb R (nb * s + h) (2 * (nb * m)).
Proof.
  intros IG IH a Ha.
  assert (SP : forall b p, b < nb -> p < 2 * m ->
    xorb (xsum s (fun q => a (b * s + q) && G q p)) (comb h (fun t => a (nb * s + t)) (fun t => enc (H t) b) p) = false).
  { intros b p Hb Hp. rewrite <- (Ha (pos b p) (pos_lt b p Hb Hp)). unfold comb. rewrite xsum_split. f_equal.
    - rewrite xsum_blocks, (xsum_one nb b _ Hb).
      + apply xsum_ext; intros q Hq. rewrite RB, Nat.eqb_refl by assumption. reflexivity.
      + intros i Hi Hne. apply xsum_zero; intros q Hq. rewrite RB by assumption. destruct (Nat.eqb_spec b i); [lia|]. apply andb_false_r.
    - apply xsum_ext; intros t Ht. rewrite RE by assumption. reflexivity. }
  assert (KEY : forall b w, b < nb -> (forall q, q < s -> ip m (G q) w = false) ->
    xsum h (fun t => a (nb * s + t) && ip m (enc (H t) b) w) = false).
  { intros b w Hb Hw.
    assert (E : ip m (fun p => xorb (comb s (fun q => a (b * s + q)) G p) (comb h (fun t => a (nb * s + t)) (fun t => enc (H t) b) p)) w = false).
    { rewrite (ip_ext m _ (fun _ => false) w w); [|intros p Hp; apply SP; assumption|reflexivity]. apply xsum_zero; reflexivity. }
    rewrite ip_xor_l, !ip_comb_l in E. rewrite (xsum_zero s) in E; [rewrite xorb_false_l in E; exact E|]. intros q Hq. rewrite Hw by exact Hq. apply andb_false_r. }
  assert (A2 : forall t, t < h -> a (nb * s + t) = false).
  { apply (IH (fun t => a (nb * s + t))). intros j Hj. unfold comb. destruct (Nat.lt_ge_cases j n) as [L|L].
    - rewrite <- (KEY (blk j) (LZ j)); [|apply Hblk, L|intros q Hq; apply HGL; assumption]. apply xsum_ext; intros t Ht. rewrite ip_enc_LZ by exact L. reflexivity.
    - rewrite <- (KEY (blk (j - n)) (LX (j - n))); [|apply Hblk; lia|intros q Hq; apply HGL; [assumption|lia]]. apply xsum_ext; intros t Ht. rewrite ip_enc_LX by lia. replace (n + (j - n)) with j by lia. reflexivity. }
  assert (A1 : forall b, b < nb -> forall q, q < s -> a (b * s + q) = false).
  { intros b Hb. apply (IG (fun q => a (b * s + q))). intros p Hp. specialize (SP b p Hb Hp). unfold comb in SP. rewrite (xsum_zero h) in SP; [rewrite xorb_false_r in SP; exact SP|].
    intros t Ht. rewrite A2 by exact Ht. reflexivity. }
  intros x Hx. destruct (Nat.lt_ge_cases x (nb * s)) as [L|L]; [|replace x with (nb * s + (x - nb * s)) by lia; apply A2; lia].
  assert (s <> 0) by nia. pose proof (Nat.div_mod x s ltac:(lia)) as E. rewrite E, (Nat.mul_comm s). apply A1; [apply Nat.div_lt_upper_bound; nia|apply Nat.mod_upper_bound; lia].
Qed.
End Abs.
