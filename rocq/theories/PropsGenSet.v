(** C143: does a code depend on which generators of its stabilizer are given? *)
From Verif Require Import Py ZMat CodesModel CodesSpec BoolLin Rank CodesProofs CodesProofs2 PropsCodes Scalar PauliModel PauliSpec PauliProofs PauliProofs2 EncoderProofs EighExists PropsPauli KrausProofs2 GenSetSpec GenSetProofs.
From Coq Require Import Reals Lra.
Open Scope nat_scope.
Open Scope K_scope.
Add Ring CCring75 : (s_rt CC).

Definition even_code (n : nat) (c : code) : Prop := Forall binary (zd (stab c)) /\ Forall (fun r => Nat.even (y_count n r) = true) (zd (stab c)).
Lemma same_fixed eigh g n k ops c g' k' ops' c' : eigh_ok eigh -> init g n k ops = Ok c -> init g' n k' ops' = Ok c' -> (1 <= n)%nat -> even_code n c -> even_code n c' ->
  (forall v : nat -> CC, (forall r, In r (zd (stab c)) -> forall i, i < 2 ^ n -> bsum (2 ^ n) (fun l => pm n (xp r) (zp n r) i l * v l) = v i) <-> (forall r, In r (zd (stab c')) -> forall i, i < 2 ^ n -> bsum (2 ^ n) (fun l => pm n (xp r) (zp n r) i l * v l) = v i)) ->
  exists E E', encode_krauss_operators eigh c = Ok E /\ encode_krauss_operators eigh c' = Ok E' /\ mr E = (2 ^ n)%nat /\ same_space E E'.
Proof.
  intros EO I I' Hn [B Y] [B' Y'] H.
  destruct (C13_encoder_isometry eigh g n k ops c EO I Hn B Y) as (Ss & m & E & EB & EN & IS & F & C & _).
  destruct (C13_encoder_isometry eigh g' n k' ops' c' EO I' Hn B' Y') as (Ss' & m' & E' & EB' & EN' & IS' & F' & C' & _).
  exists (MA (2 ^ n) m E), (MA (2 ^ n) m' E'). split; [exact EN|]. split; [exact EN'|]. split; [reflexivity|].
  destruct (same_projector (2 ^ n) m m' E E' IS IS') as [EQ P].
  - intros t Ht. apply (encoder_range _ _ _ _ _ _ _ _ I' Hn B' EB' C' (fun l => E l t)). apply (proj1 (H (fun l => E l t))). apply (encoder_columns _ _ _ _ _ _ _ _ I Hn B EB F t Ht).
  - intros t Ht. apply (encoder_range _ _ _ _ _ _ _ _ I Hn B EB C (fun l => E' l t)). apply (proj2 (H (fun l => E' l t))). apply (encoder_columns _ _ _ _ _ _ _ _ I' Hn B' EB' F' t Ht).
  - subst m'. unfold same_space. cbn [mr mc me]. split; [reflexivity|]. split; [reflexivity|]. split; [exact P|]. exists (mm (2 ^ n) (adj E) E'). apply same_range_unitary; assumption.
Qed.
(** two lists of generators, every matrix of the one being a product of matrices of the other: the same code *)
Theorem C143_products_partial eigh g n k ops c g' k' ops' c' : eigh_ok eigh -> init g n k ops = Ok c -> init g' n k' ops' = Ok c' -> (1 <= n)%nat -> even_code n c -> even_code n c' ->
  (forall r, In r (zd (stab c')) -> product_of n (zd (stab c)) false r) -> (forall r, In r (zd (stab c)) -> product_of n (zd (stab c')) false r) ->
  exists E E', encode_krauss_operators eigh c = Ok E /\ encode_krauss_operators eigh c' = Ok E' /\ mr E = (2 ^ n)%nat /\ same_space E E'.
Proof.
  intros EO I I' Hn B B' P P'. apply (same_fixed eigh g n k ops c g' k' ops' c'); try assumption.
  assert (W : forall g k ops c, init g n k ops = Ok c -> Forall (fun r => length r = 2 * n)%nat (zd (stab c))).
  { intros ? ? ? ? J. destruct (init_inv _ _ _ _ _ J) as (M & [_ WR] & _ & ZC & EM & _). subst M. rewrite ZC in WR. exact WR. }
  intros v. split; intros F r Hr i Hi.
  - rewrite (product_fixes n (zd (stab c)) v (W _ _ _ _ I) (proj1 B) F false r (P r Hr) i Hi). cbn [sgn]. ring.
  - rewrite (product_fixes n (zd (stab c')) v (W _ _ _ _ I') (proj1 B') F false r (P' r Hr) i Hi). cbn [sgn]. ring.
Qed.
(** in particular, the order of the generators and repetitions do not matter *)
Theorem C143_order_partial eigh g n k ops c g' k' ops' c' : eigh_ok eigh -> init g n k ops = Ok c -> init g' n k' ops' = Ok c' -> (1 <= n)%nat -> even_code n c ->
  (forall r, In r (zd (stab c)) <-> In r (zd (stab c'))) ->
  exists E E', encode_krauss_operators eigh c = Ok E /\ encode_krauss_operators eigh c' = Ok E' /\ mr E = (2 ^ n)%nat /\ same_space E E'.
Proof.
  intros EO I I' Hn B H. apply (C143_products_partial eigh g n k ops c g' k' ops' c'); try assumption.
  - destruct B as [B Y]. rewrite Forall_forall in B, Y. split; apply Forall_forall; intros r Hr; [apply B|apply Y]; apply H; exact Hr.
  - intros r Hr. apply po_one, H, Hr.
  - intros r Hr. apply po_one, H, Hr.
Qed.
(** generators with 0, 4, 8, ... Ys: only the textbook's code space matters *)
Theorem C143_physical_partial eigh g n k ops c g' k' ops' c' : eigh_ok eigh -> init g n k ops = Ok c -> init g' n k' ops' = Ok c' -> (1 <= n)%nat ->
  Forall binary (zd (stab c)) -> Forall binary (zd (stab c')) -> Forall (fun r => Nat.modulo (y_count n r) 4 = 0)%nat (zd (stab c)) -> Forall (fun r => Nat.modulo (y_count n r) 4 = 0)%nat (zd (stab c')) ->
  same_code_space n (zd (stab c)) (zd (stab c')) ->
  exists E E', encode_krauss_operators eigh c = Ok E /\ encode_krauss_operators eigh c' = Ok E' /\ mr E = (2 ^ n)%nat /\ same_space E E'.
Proof.
  intros EO I I' Hn B B' Y Y' H.
  assert (EV : forall l, Forall (fun r => Nat.modulo (y_count n r) 4 = 0)%nat l -> Forall (fun r => Nat.even (y_count n r) = true) l).
  { intros l. apply Forall_impl. intros r X. rewrite (Nat.div_mod (y_count n r) 4), X, Nat.add_0_r by lia. rewrite Nat.even_mul. reflexivity. }
  assert (W : forall g k ops c, init g n k ops = Ok c -> Forall (fun r => length r = 2 * n)%nat (zd (stab c))).
  { intros ? ? ? ? J. destruct (init_inv _ _ _ _ _ J) as (M & [_ WR] & _ & ZC & EM & _). subst M. rewrite ZC in WR. exact WR. }
  apply (same_fixed eigh g n k ops c g' k' ops' c'); try assumption; [split; auto|split; auto|].
  intros v. rewrite <- !stabilised_four; eauto.
Qed.
(** a generator of the one that is minus a product of generators of the other: orthogonal codes *)
Theorem C143_opposite_partial eigh g n k ops c g' k' ops' c' r : eigh_ok eigh -> init g n k ops = Ok c -> init g' n k' ops' = Ok c' -> (1 <= n)%nat -> even_code n c -> even_code n c' ->
  In r (zd (stab c')) -> product_of n (zd (stab c)) true r ->
  exists E E', encode_krauss_operators eigh c = Ok E /\ encode_krauss_operators eigh c' = Ok E' /\ mr E = (2 ^ n)%nat /\ orthogonal_spaces E E'.
Proof.
  intros EO I I' Hn [B Y] [B' Y'] Hr P.
  destruct (C13_encoder_isometry eigh g n k ops c EO I Hn B Y) as (Ss & m & E & EB & EN & IS & F & C & _).
  destruct (C13_encoder_isometry eigh g' n k' ops' c' EO I' Hn B' Y') as (Ss' & m' & E' & EB' & EN' & IS' & F' & C' & _).
  exists (MA (2 ^ n) m E), (MA (2 ^ n) m' E'). split; [exact EN|]. split; [exact EN'|]. split; [reflexivity|].
  split; [reflexivity|]. cbn [mr mc me]. apply (opposite_spaces (2 ^ n) m m' (pm n (xp r) (zp n r))).
  - intros i j _ _. rewrite pm_adj. rewrite <- y_count_xsum by (rewrite Forall_forall in B'; auto). rewrite Forall_forall in Y'. specialize (Y' r Hr). rewrite <- Nat.negb_odd in Y'. destruct (Nat.odd (y_count n r)); [discriminate|]. cbn [sgn]. ring.
  - intros t Ht i Hi. destruct (code_mats _ _ _ _ _ _ I Hn B EB) as [L _]. apply (product_fixes n (zd (stab c)) (fun l => E l t) L B) with (s := true); [|exact P|exact Hi]. apply (encoder_columns _ _ _ _ _ _ _ _ I Hn B EB F t Ht).
  - intros t Ht i Hi. apply (encoder_columns _ _ _ _ _ _ _ _ I' Hn B' EB' F' t Ht); assumption.
Qed.

Lemma forallb_even n l : forallb (fun r => Nat.even (y_count n r)) l = true -> Forall (fun r => Nat.even (y_count n r) = true) l.
Proof. intros H. apply Forall_forall. intros r Hr. rewrite forallb_forall in H. apply H, Hr. Qed.
(** the five-qubit code, its first generator XZZXI replaced by YYZIZ, the product of XZZXI and ZXIXZ *)
Definition five_other : list pystr := [str "YYZIZ"; str "IXZZX"; str "XIXZZ"; str "ZXIXZ"].
Definition r1 : list Z := [1;0;0;1;0; 0;1;1;0;0]%Z.
Definition r2 : list Z := [0;1;0;1;0; 1;0;0;0;1]%Z.
Definition r12 : list Z := [1;1;0;0;0; 1;1;1;0;1]%Z.
Lemma swap_fixed n rest a b (v : nat -> CC) : (1 <= n)%nat -> length a = (2 * n)%nat -> length b = (2 * n)%nat -> binary a -> binary b -> (Nat.modulo (y_count n a) 4 = 0)%nat -> (Nat.modulo (y_count n b) 4 = 0)%nat -> (Nat.modulo (y_count n (times a b)) 4 = 2)%nat ->
  Z.odd (zx_dot n a b) = true -> Z.odd (zx_dot n (times a b) b) = true -> times (times a b) b = a -> In b rest -> stabilised n (a :: rest) v <-> stabilised n (times a b :: rest) v.
Proof.
  intros Hn La Lb Ba Bb Ya Yb Yab Z1 Z2 TT Hb.
  assert (Lt : length (times a b) = (2 * n)%nat) by (change (length (row_add a b) = (2 * n)%nat); rewrite length_row_add; congruence).
  assert (Bt : binary (times a b)) by exact (binary_row_add a b).
  assert (FX : forall (r : list Z) (s : bool), length r = (2 * n)%nat -> binary r -> (Nat.modulo (y_count n r) 4 = if s then 2 else 0)%nat -> (forall i, i < 2 ^ n -> bsum (2 ^ n) (fun l => textbook n r i l * v l) = v i) <-> (forall i, i < 2 ^ n -> bsum (2 ^ n) (fun l => pm n (xp r) (zp n r) i l * v l) = sgn s * v i)).
  { intros r s L B Y.
    assert (X : forall i, i < 2 ^ n -> bsum (2 ^ n) (fun l => textbook n r i l * v l) = sgn s * bsum (2 ^ n) (fun l => pm n (xp r) (zp n r) i l * v l)).
    { intros i Hi. rewrite <- bsum_mul_l. apply bsum_ext; intros l Hl. rewrite textbook_matrix by assumption. rewrite ipow_mod, Y. destruct s; cbn [sgn]; ring. }
    split; intros H i Hi.
    - rewrite <- (H i Hi), X by exact Hi. transitivity ((sgn s * sgn s) * bsum (2 ^ n) (fun l => pm n (xp r) (zp n r) i l * v l)); [rewrite sgn_sq; ring|ring].
    - rewrite X, H by exact Hi. transitivity ((sgn s * sgn s) * v i); [ring|rewrite sgn_sq; ring]. }
  split; intros H r [<-|Hr]; try (apply H; right; exact Hr).
  - apply (FX (times a b) true Lt Bt Yab). intros i Hi. rewrite (mul_fix n v a b false false La Lb); [rewrite Z1; reflexivity| | |exact Hi]; [apply (FX a false La Ba Ya)|apply (FX b false Lb Bb Yb)]; apply H; [left; reflexivity|right; exact Hb].
  - apply (FX a false La Ba Ya). intros i Hi. rewrite <- TT. rewrite (mul_fix n v (times a b) b true false Lt Lb); [rewrite Z2; reflexivity| | |exact Hi]; [apply (FX (times a b) true Lt Bt Yab)|apply (FX b false Lb Bb Yb)]; apply H; [left; reflexivity|right; exact Hb].
Qed.
Theorem C143_refuted : exists c c', init (Strings five_qubit) 5 1 None = Ok c /\ init (Strings five_other) 5 1 None = Ok c' /\ valid_generators 5 1 (zd (stab c)) /\ valid_generators 5 1 (zd (stab c')) /\
  same_code_space 5 (zd (stab c)) (zd (stab c')) /\
  forall eigh, eigh_ok eigh -> exists E E', encode_krauss_operators eigh c = Ok E /\ encode_krauss_operators eigh c' = Ok E' /\ mr E = 32%nat /\ mc E = 2%nat /\ mc E' = 2%nat /\ orthogonal_spaces E E'.
Proof.
  assert (G : exists c c', init (Strings five_qubit) 5 1 None = Ok c /\ init (Strings five_other) 5 1 None = Ok c' /\ valid_generators 5 1 (zd (stab c)) /\ valid_generators 5 1 (zd (stab c')) /\
    exists x y : list Z, zd (stab c) = r1 :: [x; y; r2] /\ zd (stab c') = r12 :: [x; y; r2] /\ forallb (fun r => Nat.even (y_count 5 r)) (zd (stab c)) = true /\ forallb (fun r => Nat.even (y_count 5 r)) (zd (stab c')) = true).
  { eexists. eexists. split; [run|]. split; [run|]. split; [valid|]. split; [valid|]. eexists. eexists. split; [run|]. split; [run|]. split; run. }
  destruct G as (c & c' & I & I' & V & V' & x & y & ZD & ZD' & Y & Y'). exists c, c'. split; [exact I|]. split; [exact I'|]. split; [exact V|]. split; [exact V'|].
  pose proof V as (_ & VL & _ & VB & _ & VI). pose proof V' as (_ & VL' & _ & VB' & _ & VI').
  assert (B1 : binary r1) by (apply decide_binary; reflexivity). assert (B2 : binary r2) by (apply decide_binary; reflexivity).
  split.
  - rewrite ZD, ZD'. intros v. change r12 with (times r1 r2). apply swap_fixed; try reflexivity; try assumption; [lia|right; right; left; reflexivity].
  - intros eigh EO.
    assert (EV : even_code 5 c) by (split; [exact VB|apply forallb_even, Y]). assert (EV' : even_code 5 c') by (split; [exact VB'|apply forallb_even, Y']).
    destruct (C143_opposite_partial eigh (Strings five_qubit) 5 1 None c (Strings five_other) 1 None c' r12 EO I I') as (E & E' & EN & EN' & R & O); [lia|exact EV|exact EV'|rewrite ZD'; left; reflexivity| |].
    { rewrite ZD. change r12 with (times r1 r2). apply (po_mul 5 _ false false r1 r2); apply po_one; [left|right; right; right; left]; reflexivity. }
    exists E, E'. split; [exact EN|]. split; [exact EN'|]. split; [exact R|].
    destruct EV as [B0 Y0], EV' as [B0' Y0'].
    destruct (C13_encoder_isometry eigh _ 5 1 None c EO I) as (Ss & m & F & _ & EF & _ & _ & _ & HM); [lia|exact B0|exact Y0|]. rewrite EN in EF. injection EF as ->. specialize (HM VI VL). subst m.
    destruct (C13_encoder_isometry eigh _ 5 1 None c' EO I') as (Ss' & m' & F' & _ & EF' & _ & _ & _ & HM'); [lia|exact B0'|exact Y0'|]. rewrite EN' in EF'. injection EF' as ->. specialize (HM' VI' VL'). subst m'.
    split; [reflexivity|]. split; [reflexivity|exact O].
Qed.
Print Assumptions C143_products_partial.
Print Assumptions C143_order_partial.
Print Assumptions C143_physical_partial.
Print Assumptions C143_opposite_partial.
Print Assumptions C143_refuted.
(** the hypotheses are met: the generators ZZI, IZZ and ZIZ, IZZ of the repetition code, each a product of the
    others *)
Example C143_case : exists c c', init (Strings [str "ZZI"; str "IZZ"]) 3 1 None = Ok c /\ init (Strings [str "ZIZ"; str "IZZ"]) 3 1 None = Ok c' /\ even_code 3 c /\ even_code 3 c' /\
  (forall r, In r (zd (stab c')) -> product_of 3 (zd (stab c)) false r) /\ (forall r, In r (zd (stab c)) -> product_of 3 (zd (stab c')) false r) /\
  (exists r, In r (zd (stab c')) /\ ~ In r (zd (stab c))) /\ same_code_space 3 (zd (stab c)) (zd (stab c')) /\
  Forall (fun r => Nat.modulo (y_count 3 r) 4 = 0)%nat (zd (stab c)) /\ Forall (fun r => Nat.modulo (y_count 3 r) 4 = 0)%nat (zd (stab c')).
Proof.
  assert (G : exists c c', init (Strings [str "ZZI"; str "IZZ"]) 3 1 None = Ok c /\ init (Strings [str "ZIZ"; str "IZZ"]) 3 1 None = Ok c' /\ zd (stab c) = [[0;0;0;1;1;0]; [0;0;0;0;1;1]]%Z /\ zd (stab c') = [[0;0;0;1;0;1]; [0;0;0;0;1;1]]%Z).
  { eexists. eexists. split; [run|]. split; [run|]. split; run. }
  destruct G as (c & c' & I & I' & ZD & ZD'). exists c, c'. split; [exact I|]. split; [exact I'|]. rewrite ZD, ZD'. unfold even_code. rewrite ZD, ZD'.
  assert (BB : forall a b, forallb (fun z => (z =? 0) || (z =? 1))%Z%bool a = true -> forallb (fun z => (z =? 0) || (z =? 1))%Z%bool b = true -> Forall binary [a; b]) by (intros a b X X'; repeat (apply Forall_cons; [apply decide_binary; assumption|]); apply Forall_nil).
  assert (P : forall r, In r [[0;0;0;1;0;1]; [0;0;0;0;1;1]]%Z -> product_of 3 [[0;0;0;1;1;0]; [0;0;0;0;1;1]]%Z false r).
  { intros r [<-|[<-|[]]]; [|apply po_one; right; left; reflexivity]. apply (po_mul 3 _ false false [0;0;0;1;1;0]%Z [0;0;0;0;1;1]%Z); apply po_one; [left|right; left]; reflexivity. }
  assert (P' : forall r, In r [[0;0;0;1;1;0]; [0;0;0;0;1;1]]%Z -> product_of 3 [[0;0;0;1;0;1]; [0;0;0;0;1;1]]%Z false r).
  { intros r [<-|[<-|[]]]; [|apply po_one; right; left; reflexivity]. apply (po_mul 3 _ false false [0;0;0;1;0;1]%Z [0;0;0;0;1;1]%Z); apply po_one; [left|right; left]; reflexivity. }
  split; [split; [apply BB; reflexivity|apply forallb_even; reflexivity]|]. split; [split; [apply BB; reflexivity|apply forallb_even; reflexivity]|].
  split; [exact P|]. split; [exact P'|]. split; [eexists; split; [left; reflexivity|]; intros [X|[X|[]]]; discriminate X|].
  assert (Y0 : Forall (fun r => Nat.modulo (y_count 3 r) 4 = 0)%nat [[0;0;0;1;1;0]; [0;0;0;0;1;1]]%Z) by (repeat (apply Forall_cons; [reflexivity|]); apply Forall_nil).
  assert (Y1 : Forall (fun r => Nat.modulo (y_count 3 r) 4 = 0)%nat [[0;0;0;1;0;1]; [0;0;0;0;1;1]]%Z) by (repeat (apply Forall_cons; [reflexivity|]); apply Forall_nil).
  assert (L0 : Forall (fun r => length r = 2 * 3)%nat [[0;0;0;1;1;0]; [0;0;0;0;1;1]]%Z) by (repeat (apply Forall_cons; [reflexivity|]); apply Forall_nil).
  assert (L1 : Forall (fun r => length r = 2 * 3)%nat [[0;0;0;1;0;1]; [0;0;0;0;1;1]]%Z) by (repeat (apply Forall_cons; [reflexivity|]); apply Forall_nil).
  split; [|split; assumption].
  intros v. rewrite !stabilised_four; try assumption; try lia; try (apply BB; reflexivity). split; intros F r Hr i Hi.
  - rewrite (product_fixes 3 _ v L0 ltac:(apply BB; reflexivity) F false r (P r Hr) i Hi). cbn [sgn]. ring.
  - rewrite (product_fixes 3 _ v L1 ltac:(apply BB; reflexivity) F false r (P' r Hr) i Hi). cbn [sgn]. ring.
Qed.
