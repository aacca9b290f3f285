(** The derived logical operators (C09-C12): boolean-level proofs. *)
From Verif Require Import Py ZMat CodesModel RankSpec BoolLin Rank Gauss Gauss2.
Open Scope nat_scope.

Lemma odd_zsum m f : Z.odd (zsum m f) = xsum m (fun i => Z.odd (f i)).
Proof. induction m as [|m IH]; cbn [zsum xsum]; [reflexivity|]. rewrite Z.odd_add, IH; reflexivity. Qed.

Lemma bz_mk r c f i j : i < r -> j < c -> bz (mk r c f) i j = Z.odd (f i j).
Proof. intros; unfold bz; rewrite get_mk; auto. Qed.

Section Ops.
Variables n k s r : nat.
Variable F : zmat.
Hypothesis HF : okm n s F.
Hypothesis Es : s = n - k.
Hypothesis Hk : k <= n.
Hypothesis Hr : r <= s.

(** entry formulas *)
Definition fx (f : nat -> nat -> bool) (i j : nat) : bool :=
  if j <? r then false
  else if j <? s then f j (n + s + i)
  else if j <? n then Nat.eqb i (j - s)
  else if j <? n + r then
    xorb (xsum (s - r) (fun l => f (r + l) (n + s + i) && f (j - n) (n + r + l))) (f (j - n) (n + s + i))
  else false.
Definition fz (f : nat -> nat -> bool) (i j : nat) : bool :=
  if j <? n then false
  else if j <? n + r then f (j - n) (s + i)
  else if j <? n + s then false
  else Nat.eqb i (j - n - s).

Ltac lb := repeat match goal with |- context [Nat.ltb ?u ?v] => destruct (Nat.ltb_spec u v); try lia end.

Lemma logical_ops_ok : topleft_identity F r = true ->
  exists LX LZ, logical_operators n k F r = Ok (LX, LZ) /\
    okm n k LX /\ okm n k LZ /\
    (forall i j, i < k -> j < 2 * n -> bz LX i j = fx (bz F) i j) /\
    (forall i j, i < k -> j < 2 * n -> bz LZ i j = fz (bz F) i j).
Proof.
  intros Ht. pose proof HF as (W & Z & C & B).
  unfold logical_operators. rewrite Ht. unfold assert_. cbn [bind].
  set (a2 := slice F 0 r (n - k) n). set (c1 := slice F 0 r (n + r) (2 * n - k)).
  set (c2 := slice F 0 r (2 * n - k) (2 * n)). set (e := slice F r (zr F) (2 * n - k) (2 * n)).
  assert (Ze : zr e = s - r /\ zc e = k) by (simpl; lia).
  assert (Zc1 : zr c1 = r /\ zc c1 = s - r) by (simpl; lia).
  assert (Zc2 : zr c2 = r /\ zc c2 = k) by (simpl; lia).
  assert (Za2 : zr a2 = r /\ zc a2 = k) by (simpl; lia).
  destruct Ze as [Ze1 Ze2], Zc1 as [Zc11 Zc12], Zc2 as [Zc21 Zc22], Za2 as [Za21 Za22].
  assert (Ge : forall i j, i < s - r -> j < k -> get e i j = get F (r + i) (n + s + j)).
  { intros i j Hi Hj. unfold e, slice. rewrite get_mk by lia. f_equal; lia. }
  assert (Gc1 : forall i j, i < r -> j < s - r -> get c1 i j = get F i (n + r + j)).
  { intros i j Hi Hj. unfold c1, slice. rewrite get_mk by lia. f_equal; lia. }
  assert (Gc2 : forall i j, i < r -> j < k -> get c2 i j = get F i (n + s + j)).
  { intros i j Hi Hj. unfold c2, slice. rewrite get_mk by lia. f_equal; lia. }
  assert (Ga2 : forall i j, i < r -> j < k -> get a2 i j = get F i (s + j)).
  { intros i j Hi Hj. unfold a2, slice. rewrite get_mk by lia. f_equal; lia. }
  clearbody a2 c1 c2 e.
  unfold zdot, zadd2. cbn [zr zc ztrans mk]. rewrite ?Ze1, ?Ze2, ?Zc11, ?Zc12, ?Zc21, ?Zc22.
  rewrite Nat.eqb_refl. cbn [bind zr zc mk]. rewrite !Nat.eqb_refl. cbn [andb bind].
  set (ec2 := mk k r _).
  assert (Gec : forall i j, i < k -> j < r -> get ec2 i j =
     ((zsum (s - r) (fun l => get F (r + l) (n + s + i) * get F j (n + r + l)) + get F j (n + s + i)) mod 2)%Z).
  { intros i j Hi Hj. unfold ec2. rewrite get_mk by assumption. f_equal. rewrite get_mk by assumption. f_equal.
    - apply zsum_ext; intros l Hl. unfold ztrans. rewrite !get_mk by lia. rewrite Ge, Gc1 by lia. reflexivity.
    - unfold ztrans. rewrite get_mk by lia. apply Gc2; lia. }
  assert (Zec : zr ec2 = k /\ zc ec2 = r) by (split; reflexivity). destruct Zec as [Zec1 Zec2]. clearbody ec2.
  assert (Lg : Nat.leb r (n - k) = true) by (apply Nat.leb_le; lia). rewrite Lg. unfold guard.
  unfold hstack, hcat, zeros, eye, ztrans. cbn [zr zc mk]. rewrite ?Ze1, ?Ze2, ?Zec1, ?Zec2, ?Za21, ?Za22, ?Nat.eqb_refl.
  cbn [bind]. eexists; eexists; split; [reflexivity|].
  assert (W1 : r + (s - r) + k + r + (n - r) = 2 * n) by lia.
  assert (W2 : n + r + (n - k - r) + k = 2 * n) by lia.
  rewrite W1, W2.
  set (LX := mk k (2 * n) _). set (LZ := mk k (2 * n) _).
  assert (GX : forall i j, i < k -> j < 2 * n -> get LX i j =
     (if (j <? r)%nat then 0 else if (j <? s)%nat then get F j (n + s + i)
      else if (j <? n)%nat then (if Nat.eqb i (j - s) then 1 else 0)
      else if (j <? n + r)%nat then get ec2 i (j - n) else 0)%Z).
  { intros i j Hi Hj. unfold LX. rewrite get_mk by assumption.
    destruct (Nat.ltb_spec j r).
    { lb. repeat (rewrite get_mk by lia; lb). reflexivity. }
    destruct (Nat.ltb_spec j s).
    { lb. repeat (rewrite get_mk by lia; lb). rewrite Ge by lia. f_equal; lia. }
    destruct (Nat.ltb_spec j n).
    { lb. repeat (rewrite get_mk by lia; lb). replace (j - (r + (s - r))) with (j - s) by lia. reflexivity. }
    destruct (Nat.ltb_spec j (n + r)).
    { lb. repeat (rewrite get_mk by lia; lb). f_equal; lia. }
    lb. repeat (rewrite get_mk by lia; lb). reflexivity. }
  assert (GZ : forall i j, i < k -> j < 2 * n -> get LZ i j =
     (if (j <? n)%nat then 0 else if (j <? n + r)%nat then get F (j - n) (s + i)
      else if (j <? n + s)%nat then 0 else (if Nat.eqb i (j - n - s) then 1 else 0))%Z).
  { intros i j Hi Hj. unfold LZ. rewrite get_mk by assumption.
    destruct (Nat.ltb_spec j n).
    { lb. repeat (rewrite get_mk by lia; lb). reflexivity. }
    destruct (Nat.ltb_spec j (n + r)).
    { lb. repeat (rewrite get_mk by lia; lb). rewrite Ga2 by lia. f_equal; lia. }
    destruct (Nat.ltb_spec j (n + s)).
    { lb. repeat (rewrite get_mk by lia; lb). reflexivity. }
    lb. repeat (rewrite get_mk by lia; lb). replace (j - (n + r + (n - k - r))) with (j - n - s) by lia. reflexivity. }
  split; [|split; [|split]].
  - split; [apply wf_mk|]. split; [reflexivity|]. split; [reflexivity|].
    intros i j Hi Hj. change (i < k) in Hi. change (j < 2 * n) in Hj. rewrite GX by assumption.
    destruct (Nat.ltb_spec j r); [auto|]. destruct (Nat.ltb_spec j s); [apply B; lia|].
    destruct (Nat.ltb_spec j n); [destruct (Nat.eqb _ _); auto|].
    destruct (Nat.ltb_spec j (n + r)); [|auto]. rewrite Gec by lia. apply mod2_bin.
  - split; [apply wf_mk|]. split; [reflexivity|]. split; [reflexivity|].
    intros i j Hi Hj. change (i < k) in Hi. change (j < 2 * n) in Hj. rewrite GZ by assumption.
    destruct (Nat.ltb_spec j n); [auto|]. destruct (Nat.ltb_spec j (n + r)); [apply B; lia|].
    destruct (Nat.ltb_spec j (n + s)); [auto|]. destruct (Nat.eqb _ _); auto.
  - intros i j Hi Hj. unfold bz at 1. rewrite GX by assumption. unfold fx.
    destruct (Nat.ltb_spec j r); [reflexivity|]. destruct (Nat.ltb_spec j s); [reflexivity|].
    destruct (Nat.ltb_spec j n); [destruct (Nat.eqb _ _); reflexivity|].
    destruct (Nat.ltb_spec j (n + r)); [|reflexivity]. rewrite Gec by lia.
    rewrite odd_mod2, Z.odd_add, odd_zsum. f_equal. apply xsum_ext; intros l Hl.
    rewrite Z.odd_mul. reflexivity.
  - intros i j Hi Hj. unfold bz at 1. rewrite GZ by assumption. unfold fz.
    destruct (Nat.ltb_spec j n); [reflexivity|]. destruct (Nat.ltb_spec j (n + r)); [reflexivity|].
    destruct (Nat.ltb_spec j (n + s)); [reflexivity|]. destruct (Nat.eqb _ _); reflexivity.
Qed.

(** ** Commutation relations of the formulas *)
Variable f : nat -> nat -> bool.
Hypothesis U : unitx s r f.
Hypothesis Lx : lowx n s r f.
Hypothesis V : unitz n s r s f.

Lemma xsum3 g : xsum n g =
  xorb (xsum r g) (xorb (xsum (s - r) (fun l => g (r + l))) (xsum k (fun l => g (s + l)))).
Proof.
  replace n with (r + ((s - r) + k)) by lia. rewrite xsum_split, xsum_split. do 2 f_equal.
  apply xsum_ext; intros l Hl. f_equal; lia.
Qed.

Lemma fx_lo i j : j < r -> fx f i j = false.
Proof. intros; unfold fx; lb; reflexivity. Qed.
Lemma fx_mid i l : l < s - r -> fx f i (r + l) = f (r + l) (n + s + i).
Proof. intros; unfold fx; lb; reflexivity. Qed.
Lemma fx_hi i l : l < k -> fx f i (s + l) = Nat.eqb i l.
Proof. intros; unfold fx; lb. f_equal; lia. Qed.
Lemma fx_zlo i j : j < r -> fx f i (n + j) =
  xorb (xsum (s - r) (fun l => f (r + l) (n + s + i) && f j (n + r + l))) (f j (n + s + i)).
Proof. intros; unfold fx; lb. replace (n + j - n) with j by lia. reflexivity. Qed.
Lemma fx_zhi i j : r <= j -> fx f i (n + j) = false.
Proof. intros; unfold fx; lb; reflexivity. Qed.
Lemma fz_x i j : j < n -> fz f i j = false.
Proof. intros; unfold fz; lb; reflexivity. Qed.
Lemma fz_lo i j : j < r -> fz f i (n + j) = f j (s + i).
Proof. intros; unfold fz; lb. f_equal; lia. Qed.
Lemma fz_mid i l : l < s - r -> fz f i (n + (r + l)) = false.
Proof. intros; unfold fz; lb; reflexivity. Qed.
Lemma fz_hi i l : fz f i (n + (s + l)) = Nat.eqb i l.
Proof. unfold fz; lb. f_equal; lia. Qed.

Lemma unitx_lo a j : a < s -> j < r -> f a j = Nat.eqb a j. Proof. apply U. Qed.

Lemma xsum_eqb_l m a g : a < m -> xsum m (fun j => Nat.eqb a j && g j) = g a.
Proof.
  intros H. rewrite <- (xsum_delta m a g H). apply xsum_ext; intros i Hi. rewrite Nat.eqb_sym; reflexivity.
Qed.

Lemma ip_f_fz a i : a < s -> i < k -> ip n (f a) (fz f i) = false.
Proof.
  intros Ha Hi. unfold ip.
  rewrite (xsum_ext n _ (fun j => f a j && fz f i (n + j))).
  2:{ intros j Hj. rewrite (fz_x i j) by lia. rewrite andb_false_r, xorb_false_r; reflexivity. }
  destruct (le_lt_dec r a) as [L|L].
  { apply xsum_zero; intros j Hj. rewrite Lx by lia; reflexivity. }
  rewrite xsum3.
  rewrite (xsum_ext r _ (fun j => Nat.eqb a j && f j (s + i))).
  2:{ intros j Hj. rewrite unitx_lo, fz_lo by lia; reflexivity. }
  rewrite xsum_eqb_l by exact L.
  rewrite (xsum_zero (s - r)); [|intros l Hl; rewrite fz_mid by exact Hl; apply andb_false_r].
  rewrite (xsum_ext k _ (fun l => Nat.eqb i l && f a (s + l))).
  2:{ intros l Hl. rewrite fz_hi; apply andb_comm. }
  rewrite xsum_eqb_l by exact Hi. destruct (f a (s + i)); reflexivity.
Qed.

Lemma ip_f_fx a i : a < s -> i < k -> ip n (f a) (fx f i) = false.
Proof.
  intros Ha Hi. unfold ip. rewrite xsum_xor. rewrite !xsum3.
  rewrite (xsum_zero r (fun j => f a (n + j) && fx f i j)); [|intros j Hj; rewrite fx_lo by exact Hj; apply andb_false_r].
  rewrite (xsum_ext k (fun l => f a (n + (s + l)) && fx f i (s + l)) (fun l => Nat.eqb i l && f a (n + (s + l)))).
  2:{ intros l Hl. rewrite fx_hi by exact Hl; apply andb_comm. }
  rewrite (xsum_eqb_l k i (fun l => f a (n + (s + l)))) by exact Hi.
  rewrite (xsum_zero (s - r) (fun l => f a (r + l) && fx f i (n + (r + l)))); [|intros l Hl; rewrite fx_zhi by lia; apply andb_false_r].
  rewrite (xsum_zero k (fun l => f a (s + l) && fx f i (n + (s + l)))); [|intros l Hl; rewrite fx_zhi by lia; apply andb_false_r].
  rewrite (xsum_ext (s - r) (fun l => f a (n + (r + l)) && fx f i (r + l)) (fun l => f a (n + (r + l)) && f (r + l) (n + s + i)));
    [|intros l Hl; rewrite fx_mid by exact Hl; reflexivity].
  destruct (le_lt_dec r a) as [L|L].
  - rewrite (xsum_zero r); [|intros j Hj; rewrite Lx by lia; reflexivity].
    rewrite (xsum_one (s - r) (a - r)); [|lia|].
    + rewrite V by lia. replace (r + (a - r)) with a by lia. rewrite Nat.eqb_refl.
      replace (n + (s + i)) with (n + s + i) by lia. destruct (f a (n + s + i)); reflexivity.
    + intros l Hl Hne. rewrite V by lia. destruct (Nat.eqb_spec a (r + l)); [lia|reflexivity].
  - rewrite (xsum_ext r _ (fun j => Nat.eqb a j && fx f i (n + j))).
    2:{ intros j Hj; rewrite unitx_lo by lia; reflexivity. }
    rewrite (xsum_eqb_l r a (fun j => fx f i (n + j))) by exact L. rewrite fx_zlo by exact L.
    rewrite (xsum_ext (s - r) (fun l => f a (n + (r + l)) && f (r + l) (n + s + i))
              (fun l => f (r + l) (n + s + i) && f a (n + r + l))).
    2:{ intros l Hl. rewrite andb_comm. do 2 f_equal; lia. }
    replace (n + (s + i)) with (n + s + i) by lia.
    generalize (xsum (s - r) (fun l => f (r + l) (n + s + i) && f a (n + r + l))) as b.
    generalize (f a (n + s + i)) as b'. intros [] []; reflexivity.
Qed.

Lemma ip_fx_fz i i' : i < k -> i' < k -> ip n (fx f i) (fz f i') = Nat.eqb i i'.
Proof.
  intros Hi Hi'. unfold ip.
  rewrite (xsum_ext n _ (fun j => fx f i j && fz f i' (n + j))).
  2:{ intros j Hj. rewrite (fz_x i' j) by lia. rewrite andb_false_r, xorb_false_r; reflexivity. }
  rewrite xsum3.
  rewrite (xsum_zero r); [|intros j Hj; rewrite fx_lo by exact Hj; reflexivity].
  rewrite (xsum_zero (s - r)); [|intros l Hl; rewrite fz_mid by exact Hl; apply andb_false_r].
  rewrite (xsum_ext k _ (fun l => Nat.eqb i l && Nat.eqb i' l)).
  2:{ intros l Hl. rewrite fx_hi, fz_hi by exact Hl; reflexivity. }
  rewrite (xsum_eqb_l k i (fun l => Nat.eqb i' l)) by exact Hi. rewrite Nat.eqb_sym. destruct (Nat.eqb i i'); reflexivity.
Qed.
Lemma ip_fz_fz i i' : ip n (fz f i) (fz f i') = false.
Proof. apply xsum_zero; intros j Hj. rewrite !(fz_x _ j) by exact Hj. rewrite andb_false_r; reflexivity. Qed.
Lemma ip_fx_fx i i' : ip n (fx f i) (fx f i') = false.
Proof.
  apply xsum_zero; intros j Hj. destruct (le_lt_dec r j) as [L|L].
  - rewrite !fx_zhi by exact L. rewrite andb_false_r; reflexivity.
  - rewrite !(fx_lo _ j) by exact L. rewrite andb_false_r; reflexivity.
Qed.

(** ** Completeness *)
Definition stack (i : nat) : nat -> bool :=
  if i <? s then f i else if i <? s + k then fx f (i - s) else fz f (i - s - k).

Lemma ip_stack a i : a < s -> i < s + 2 * k -> commuting n s f -> ip n (f a) (stack i) = false.
Proof.
  intros Ha Hi C. unfold stack. lb; [apply C|apply ip_f_fx|apply ip_f_fz]; lia.
Qed.

Lemma comb_support m a g lo len j : lo + len <= m ->
  comb m (fun l => ((lo <=? l) && (l <? lo + len)) && a (l - lo)) g j = xsum len (fun l => a l && g (lo + l) j).
Proof.
  intros H. unfold comb. replace m with (lo + (len + (m - lo - len))) by lia. rewrite xsum_split, xsum_split.
  rewrite (xsum_zero lo).
  2:{ intros l Hl. destruct (Nat.leb_spec lo l); [lia|reflexivity]. }
  rewrite (xsum_zero (m - lo - len)).
  2:{ intros l Hl. destruct (Nat.leb_spec lo (lo + (len + l))); [|reflexivity].
      destruct (Nat.ltb_spec (lo + (len + l)) (lo + len)); [lia|reflexivity]. }
  rewrite xorb_false_l, xorb_false_r. apply xsum_ext; intros l Hl.
  destruct (Nat.leb_spec lo (lo + l)); [|lia]. destruct (Nat.ltb_spec (lo + l) (lo + len)); [|lia].
  cbn [andb]. do 2 f_equal; lia.
Qed.

(** adding a combination of rows [lo..lo+len) of the stack *)
Definition addc (a : nat -> bool) (lo len : nat) (v : nat -> bool) (j : nat) : bool :=
  xorb (v j) (xsum len (fun l => a l && stack (lo + l) j)).

Lemma addc_span a lo len v : lo + len <= s + 2 * k ->
  inspan stack (s + 2 * k) (2 * n) (addc a lo len v) -> inspan stack (s + 2 * k) (2 * n) v.
Proof.
  intros H I.
  set (a' := fun l => ((lo <=? l) && (l <? lo + len)) && a (l - lo)).
  apply (inspan_ext _ _ _ (fun j => xorb (addc a lo len v j) (comb (s + 2 * k) a' stack j))).
  - intros j Hj. unfold a'. rewrite comb_support by exact H. unfold addc.
    generalize (xsum len (fun l => a l && stack (lo + l) j)) as b. intros b; destruct (v j), b; reflexivity.
  - apply inspan_xor; [exact I|]. exists a'; intros; reflexivity.
Qed.

Lemma addc_ip a lo len v b : b < s -> lo + len <= s + 2 * k -> commuting n s f ->
  ip n (f b) (addc a lo len v) = ip n (f b) v.
Proof.
  intros Hb H C. unfold addc.
  rewrite (ip_xor_r n v (comb len a (fun l => stack (lo + l)))).
  rewrite ip_comb_r, xsum_zero; [apply xorb_false_r|].
  intros l Hl. rewrite ip_stack by (assumption || lia). apply andb_false_r.
Qed.

Lemma normaliser_span v : commuting n s f ->
  (forall a, a < s -> ip n (f a) v = false) -> inspan stack (s + 2 * k) (2 * n) v.
Proof.
  intros C H.
  (* 1: kill the X entries below r *)
  set (v1 := addc (fun l => v l) 0 r v).
  apply (addc_span (fun l => v l) 0 r v ltac:(lia)); fold v1.
  assert (H1 : forall a, a < s -> ip n (f a) v1 = false) by (intros a Ha; unfold v1; rewrite addc_ip by (assumption || lia); apply H; exact Ha).
  assert (P1 : forall j, j < r -> v1 j = false).
  { intros j Hj. unfold v1, addc.
    rewrite (xsum_ext r _ (fun l => v l && Nat.eqb l j)).
    2:{ intros l Hl. unfold stack. lb. rewrite U by lia. reflexivity. }
    rewrite xsum_delta' by exact Hj. apply xorb_nilpotent. }
  clearbody v1. clear H v. 
  (* 2: kill the X entries from s on *)
  set (v2 := addc (fun l => v1 (s + l)) s k v1).
  apply (addc_span (fun l => v1 (s + l)) s k v1 ltac:(lia)); fold v2.
  assert (H2 : forall a, a < s -> ip n (f a) v2 = false) by (intros a Ha; unfold v2; rewrite addc_ip by (assumption || lia); apply H1; exact Ha).
  assert (Est : forall i j, i < k -> stack (s + i) j = fx f i j).
  { intros i j Hi; unfold stack; lb. f_equal; lia. }
  assert (P2 : forall j, j < r -> v2 j = false).
  { intros j Hj. unfold v2, addc. rewrite P1 by exact Hj. rewrite xorb_false_l. apply xsum_zero; intros l Hl.
    rewrite Est, fx_lo by lia. apply andb_false_r. }
  assert (Q2 : forall i, i < k -> v2 (s + i) = false).
  { intros i Hi. unfold v2, addc.
    rewrite (xsum_ext k _ (fun l => v1 (s + l) && Nat.eqb l i)).
    2:{ intros l Hl. rewrite Est, fx_hi by lia. reflexivity. }
    rewrite (xsum_delta' k i (fun l => v1 (s + l))) by exact Hi. apply xorb_nilpotent. }
  clearbody v2. clear H1 P1 v1.
  (* 3: the remaining X entries vanish *)
  assert (R2 : forall l, l < s - r -> v2 (r + l) = false).
  { intros l Hl. specialize (H2 (r + l) ltac:(lia)). unfold ip in H2.
    rewrite (xsum_ext n _ (fun j => f (r + l) (n + j) && v2 j)) in H2.
    2:{ intros j Hj. rewrite Lx by lia. apply xorb_false_l. }
    rewrite xsum3 in H2. rewrite (xsum_zero r) in H2 by (intros j Hj; rewrite P2 by exact Hj; apply andb_false_r).
    rewrite (xsum_zero k) in H2 by (intros j Hj; rewrite Q2 by exact Hj; apply andb_false_r).
    rewrite xorb_false_l, xorb_false_r in H2.
    rewrite (xsum_one (s - r) l) in H2; [|exact Hl|].
    - rewrite V, Nat.eqb_refl in H2 by lia. exact H2.
    - intros i Hi Hne. rewrite V by lia. destruct (Nat.eqb_spec (r + l) (r + i)); [lia|reflexivity]. }
  assert (X2 : forall j, j < n -> v2 j = false).
  { intros j Hj. destruct (le_lt_dec r j) as [L|L]; [|apply P2; exact L].
    destruct (le_lt_dec s j) as [L'|L'].
    - replace j with (s + (j - s)) by lia. apply Q2; lia.
    - replace j with (r + (j - r)) by lia. apply R2; lia. }
  clear P2 Q2 R2.
  (* 4: kill the Z entries r..s *)
  set (v3 := addc (fun l => v2 (n + (r + l))) r (s - r) v2).
  apply (addc_span (fun l => v2 (n + (r + l))) r (s - r) v2 ltac:(lia)); fold v3.
  assert (H3 : forall a, a < s -> ip n (f a) v3 = false) by (intros a Ha; unfold v3; rewrite addc_ip by (assumption || lia); apply H2; exact Ha).
  assert (Esf : forall l j, l < s - r -> stack (r + l) j = f (r + l) j) by (intros l j Hl; unfold stack; lb; reflexivity).
  assert (X3 : forall j, j < n -> v3 j = false).
  { intros j Hj. unfold v3, addc. rewrite X2 by exact Hj. rewrite xorb_false_l. apply xsum_zero; intros l Hl.
    rewrite Esf, Lx by lia. apply andb_false_r. }
  assert (M3 : forall l, l < s - r -> v3 (n + (r + l)) = false).
  { intros l Hl. unfold v3, addc.
    rewrite (xsum_ext (s - r) _ (fun i => v2 (n + (r + i)) && Nat.eqb i l)).
    2:{ intros i Hi. rewrite Esf, V by lia. f_equal. destruct (Nat.eqb_spec (r + i) (r + l)), (Nat.eqb_spec i l); try lia; reflexivity. }
    rewrite (xsum_delta' (s - r) l (fun i => v2 (n + (r + i)))) by exact Hl. apply xorb_nilpotent. }
  clearbody v3. clear H2 X2 v2 Esf.
  (* 5: kill the Z entries from s on *)
  set (v4 := addc (fun l => v3 (n + (s + l))) (s + k) k v3).
  apply (addc_span (fun l => v3 (n + (s + l))) (s + k) k v3 ltac:(lia)); fold v4.
  assert (H4 : forall a, a < s -> ip n (f a) v4 = false) by (intros a Ha; unfold v4; rewrite addc_ip by (assumption || lia); apply H3; exact Ha).
  assert (Esz : forall i j, i < k -> stack (s + k + i) j = fz f i j).
  { intros i j Hi; unfold stack; lb. f_equal; lia. }
  assert (X4 : forall j, j < n -> v4 j = false).
  { intros j Hj. unfold v4, addc. rewrite X3 by exact Hj. rewrite xorb_false_l. apply xsum_zero; intros l Hl.
    rewrite Esz, fz_x by lia. apply andb_false_r. }
  assert (M4 : forall l, l < s - r -> v4 (n + (r + l)) = false).
  { intros l Hl. unfold v4, addc. rewrite M3 by exact Hl. rewrite xorb_false_l. apply xsum_zero; intros i Hi.
    rewrite Esz, fz_mid by lia. apply andb_false_r. }
  assert (E4 : forall i, i < k -> v4 (n + (s + i)) = false).
  { intros i Hi. unfold v4, addc.
    rewrite (xsum_ext k _ (fun l => v3 (n + (s + l)) && Nat.eqb l i)).
    2:{ intros l Hl. rewrite Esz, fz_hi by lia. reflexivity. }
    rewrite (xsum_delta' k i (fun l => v3 (n + (s + l)))) by exact Hi. apply xorb_nilpotent. }
  clearbody v4. clear H3 X3 M3 v3.
  assert (L4 : forall a, a < r -> v4 (n + a) = false).
  { intros a Ha. specialize (H4 a ltac:(lia)). unfold ip in H4.
    rewrite (xsum_ext n _ (fun j => f a j && v4 (n + j))) in H4.
    2:{ intros j Hj. rewrite (X4 j) by exact Hj. rewrite andb_false_r, xorb_false_r; reflexivity. }
    rewrite xsum3 in H4.
    rewrite (xsum_zero k) in H4 by (intros j Hj; rewrite E4 by exact Hj; apply andb_false_r).
    rewrite (xsum_zero (s - r)) in H4 by (intros j Hj; rewrite M4 by exact Hj; apply andb_false_r).
    rewrite !xorb_false_r in H4.
    rewrite (xsum_one r a) in H4; [|exact Ha|].
    - rewrite U, Nat.eqb_refl in H4 by lia. exact H4.
    - intros i Hi Hne. rewrite U by lia. destruct (Nat.eqb_spec a i); [lia|reflexivity]. }
  exists (fun _ => false). intros j Hj. unfold comb. rewrite (xsum_zero (s + 2 * k)) by reflexivity.
  destruct (le_lt_dec n j) as [L|L]; [|apply X4; exact L].
  replace j with (n + (j - n)) by lia. destruct (le_lt_dec r (j - n)) as [L'|L']; [|apply L4; exact L'].
  destruct (le_lt_dec s (j - n)) as [L''|L''].
  - replace (j - n) with (s + (j - n - s)) by lia. apply E4; lia.
  - replace (j - n) with (r + (j - n - r)) by lia. apply M4; lia.
Qed.

(** no non-trivial combination of logical operators is in the row space *)
Lemma logical_nontrivial b c : commuting n s f ->
  inspan f s (2 * n) (fun j => xorb (comb k b (fx f) j) (comb k c (fz f) j)) ->
  forall i, i < k -> b i = false /\ c i = false.
Proof.
  intros C (a & Ha) i Hi.
  set (w := fun j => xorb (comb k b (fx f) j) (comb k c (fz f) j)) in *.
  assert (E1 : ip n w (fz f i) = b i).
  { unfold w. rewrite ip_xor_l, !ip_comb_l.
    rewrite (xsum_ext k (fun l => b l && _) (fun l => b l && Nat.eqb l i)) by (intros l Hl; rewrite ip_fx_fz by assumption; reflexivity).
    rewrite xsum_delta' by exact Hi. rewrite xsum_zero; [apply xorb_false_r|].
    intros l Hl; rewrite ip_fz_fz; apply andb_false_r. }
  assert (E2 : ip n w (fx f i) = c i).
  { unfold w. rewrite ip_xor_l, !ip_comb_l.
    rewrite xsum_zero by (intros l Hl; rewrite ip_fx_fx; apply andb_false_r).
    rewrite (xsum_ext k _ (fun l => c l && Nat.eqb l i)).
    2:{ intros l Hl. rewrite ip_sym, ip_fx_fz, Nat.eqb_sym by assumption. reflexivity. }
    rewrite xsum_delta' by exact Hi. apply xorb_false_l. }
  rewrite (ip_ext n w (comb s a f) (fz f i) (fz f i)) in E1 by (auto || exact Ha).
  rewrite (ip_ext n w (comb s a f) (fx f i) (fx f i)) in E2 by (auto || exact Ha).
  rewrite ip_comb_l, xsum_zero in E1 by (intros l Hl; rewrite ip_f_fz by assumption; apply andb_false_r).
  rewrite ip_comb_l, xsum_zero in E2 by (intros l Hl; rewrite ip_f_fx by assumption; apply andb_false_r).
  auto.
Qed.
End Ops.
