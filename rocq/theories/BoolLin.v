(** Finite sums and linear algebra over GF(2), on functions into [bool]. *)
From Coq Require Import Arith Lia Bool Ring.

Fixpoint xsum (n : nat) (f : nat -> bool) : bool :=
  match n with O => false | S m => xorb (xsum m f) (f m) end.

Lemma xsum_ext n f g : (forall i, i < n -> f i = g i) -> xsum n f = xsum n g.
Proof.
  induction n as [|n IH]; intros H; simpl; [reflexivity|].
  rewrite IH by (intros i Hi; apply H; lia). rewrite H by lia; reflexivity.
Qed.
Lemma xsum_0 n : xsum n (fun _ => false) = false.
Proof. induction n as [|n IH]; simpl; [|rewrite IH]; reflexivity. Qed.
Lemma xsum_zero n f : (forall i, i < n -> f i = false) -> xsum n f = false.
Proof. intros H; rewrite (xsum_ext n f (fun _ => false)) by exact H; apply xsum_0. Qed.
Lemma xsum_xor n f g : xsum n (fun i => xorb (f i) (g i)) = xorb (xsum n f) (xsum n g).
Proof. induction n as [|n IH]; simpl; [reflexivity|]. rewrite IH; ring. Qed.
Lemma xsum_andl n a f : xsum n (fun i => a && f i) = a && xsum n f.
Proof. induction n as [|n IH]; simpl; [ring|]. rewrite IH; ring. Qed.
Lemma xsum_andr n a f : xsum n (fun i => f i && a) = xsum n f && a.
Proof. induction n as [|n IH]; simpl; [ring|]. rewrite IH; ring. Qed.
Lemma xsum_swap n m f :
  xsum n (fun i => xsum m (fun j => f i j)) = xsum m (fun j => xsum n (fun i => f i j)).
Proof.
  induction n as [|n IH]; simpl; [rewrite xsum_0; reflexivity|].
  rewrite IH, xsum_xor; reflexivity.
Qed.
Lemma xsum_split a b f : xsum (a + b) f = xorb (xsum a f) (xsum b (fun i => f (a + i))).
Proof.
  induction b as [|b IH]; [rewrite Nat.add_0_r; simpl; ring|].
  rewrite Nat.add_succ_r; simpl; rewrite IH; ring.
Qed.
Lemma xsum_delta n k f : k < n -> xsum n (fun i => Nat.eqb i k && f i) = f k.
Proof.
  induction n as [|n IH]; intros H; [lia|]; simpl.
  destruct (Nat.eq_dec k n) as [->|Hne].
  - rewrite Nat.eqb_refl, xsum_zero; [simpl; destruct (f n); reflexivity|].
    intros i Hi; destruct (Nat.eqb_spec i n); [lia|reflexivity].
  - rewrite IH by lia. destruct (Nat.eqb_spec n k); [lia|]; simpl; ring.
Qed.
Lemma xsum_delta' n k f : k < n -> xsum n (fun i => f i && Nat.eqb i k) = f k.
Proof.
  intros H; rewrite <- (xsum_delta n k f H); apply xsum_ext; intros; ring.
Qed.
Lemma xsum_one n k f : k < n -> (forall i, i < n -> i <> k -> f i = false) -> xsum n f = f k.
Proof.
  intros H H0; rewrite <- (xsum_delta n k f H); apply xsum_ext; intros i Hi.
  destruct (Nat.eqb_spec i k); [reflexivity|rewrite H0 by assumption; reflexivity].
Qed.

(** removing index k *)
Definition sk (k i : nat) : nat := if Nat.ltb i k then i else S i.
Lemma xsum_sk n k f : k < S n -> xsum (S n) f = xorb (f k) (xsum n (fun i => f (sk k i))).
Proof.
  induction n as [|n IH]; intros H.
  - assert (k = 0) by lia; subst; cbn [xsum]; ring.
  - destruct (Nat.eq_dec k (S n)) as [->|Hne].
    + rewrite (xsum_ext (S n) (fun i => f (sk (S n) i)) f); [cbn [xsum]; ring|].
      intros i Hi; unfold sk; destruct (Nat.ltb_spec i (S n)); [reflexivity|lia].
    + change (xsum (S (S n)) f) with (xorb (xsum (S n) f) (f (S n))). rewrite IH by lia.
      cbn [xsum]. replace (f (sk k n)) with (f (S n)); [ring|].
      f_equal; unfold sk; destruct (Nat.ltb_spec n k); lia.
Qed.

(** invariance under a bijection of [0,n) *)
Definition perm (n : nat) (p q : nat -> nat) : Prop :=
  (forall i, i < n -> p i < n /\ q i < n /\ p (q i) = i /\ q (p i) = i).

Lemma xsum_perm n p q f : perm n p q -> xsum n (fun i => f (p i)) = xsum n f.
Proof.
  intros Hp.
  rewrite (xsum_ext n f (fun j => xsum n (fun i => Nat.eqb i (q j) && f (p i)))).
  - rewrite xsum_swap; apply xsum_ext; intros i Hi.
    destruct (Hp i Hi) as (H1 & _ & _ & H4).
    rewrite (xsum_one n (p i)); [rewrite H4, Nat.eqb_refl; reflexivity|exact H1|].
    intros j Hj Hne. destruct (Nat.eqb_spec i (q j)) as [E|]; [|reflexivity].
    exfalso; apply Hne. destruct (Hp j Hj) as (_ & _ & H & _); rewrite <- H, <- E; reflexivity.
  - intros j Hj. destruct (Hp j Hj) as (_ & H2 & H3 & _).
    rewrite xsum_delta by exact H2. rewrite H3; reflexivity.
Qed.

(** ** Vectors, combinations *)
Definition comb (m : nat) (a : nat -> bool) (f : nat -> nat -> bool) (j : nat) : bool :=
  xsum m (fun i => a i && f i j).

(** rows [f 0 .. f (m-1)] of length c are linearly independent over GF(2) *)
Definition indepb (f : nat -> nat -> bool) (m c : nat) : Prop :=
  forall a, (forall j, j < c -> comb m a f j = false) -> forall i, i < m -> a i = false.

(** [v] is a GF(2) combination of the rows *)
Definition inspan (f : nat -> nat -> bool) (m c : nat) (v : nat -> bool) : Prop :=
  exists a, forall j, j < c -> v j = comb m a f j.

Lemma comb_ext m a b f g j :
  (forall i, i < m -> a i = b i) -> (forall i, i < m -> f i j = g i j) -> comb m a f j = comb m b g j.
Proof. intros H1 H2; apply xsum_ext; intros i Hi; rewrite H1, H2 by exact Hi; reflexivity. Qed.

(** a homogeneous system with more unknowns than equations has a non-zero solution *)
Lemma homogeneous p : forall m f, p < m ->
  exists a, (exists i, i < m /\ a i = true) /\
            (forall j, j < p -> xsum m (fun i => a i && f i j) = false).
Proof.
  induction p as [|p IH]; intros m f Hm.
  - exists (fun _ => true); split; [exists 0; split; [lia|reflexivity]|intros; lia].
  - destruct m as [|m]; [lia|].
    assert (D : (exists i0, i0 < S m /\ f i0 p = true) \/ (forall i, i < S m -> f i p = false)).
    { clear -m. induction (S m) as [|k IHk]; [right; intros; lia|].
      destruct IHk as [(i & Hi & E)|H]; [left; exists i; split; [lia|exact E]|].
      destruct (f k p) eqn:E; [left; exists k; split; [lia|exact E]|].
      right; intros i Hi; destruct (Nat.eq_dec i k); [subst; exact E|apply H; lia]. }
    destruct D as [(i0 & Hi0 & E0)|D].
    + destruct (IH m (fun i j => xorb (f (sk i0 i) j) (f (sk i0 i) p && f i0 j))) as (a' & (i1 & Hi1 & E1) & Ha');
        [lia|].
      set (un := fun i => if Nat.ltb i i0 then i else pred i).
      assert (Hun : forall i, un (sk i0 i) = i).
      { intros i; unfold un, sk; destruct (Nat.ltb_spec i i0).
        - destruct (Nat.ltb_spec i i0); lia.
        - destruct (Nat.ltb_spec (S i) i0); lia. }
      assert (Hne : forall i, sk i0 i <> i0).
      { intros i; unfold sk; destruct (Nat.ltb_spec i i0); lia. }
      set (c := xsum m (fun i => a' i && f (sk i0 i) p)).
      exists (fun i => if Nat.eqb i i0 then c else a' (un i)); split.
      * exists (sk i0 i1); split; [unfold sk; destruct (Nat.ltb_spec i1 i0); lia|].
        destruct (Nat.eqb_spec (sk i0 i1) i0) as [E|_]; [exfalso; exact (Hne _ E)|].
        rewrite Hun; exact E1.
      * intros j Hj. rewrite (xsum_sk m i0) by exact Hi0. rewrite Nat.eqb_refl.
        rewrite (xsum_ext m _ (fun i => a' i && f (sk i0 i) j)).
        2:{ intros i Hi. destruct (Nat.eqb_spec (sk i0 i) i0) as [E|_]; [exfalso; exact (Hne _ E)|].
            rewrite Hun; reflexivity. }
        destruct (Nat.eq_dec j p) as [->|Hjp].
        -- rewrite E0. unfold c; ring.
        -- assert (Hjl : j < p) by lia. specialize (Ha' j Hjl).
           rewrite (xsum_ext m _ (fun i => xorb (a' i && f (sk i0 i) j) ((a' i && f (sk i0 i) p) && f i0 j)))
             in Ha' by (intros; ring).
           rewrite xsum_xor, xsum_andr in Ha'. fold c in Ha'. rewrite <- Ha'; ring.
    + destruct (IH (S m) f) as (a & Hne & Ha); [lia|].
      exists a; split; [exact Hne|]. intros j Hj.
      destruct (Nat.eq_dec j p) as [->|Hjp]; [|apply Ha; lia].
      apply xsum_zero; intros i Hi; rewrite D by exact Hi; ring.
Qed.

(** Steinitz: independent vectors in the span of [p] vectors are at most [p]. *)
Lemma steinitz f p g m c :
  (forall i, i < m -> inspan f p c (g i)) -> indepb g m c -> m <= p.
Proof.
  intros Hs Hi. destruct (le_lt_dec m p) as [H|H]; [exact H|exfalso].
  assert (E : exists w : nat -> nat -> bool, forall i, i < m -> forall j, j < c -> g i j = comb p (w i) f j).
  { clear -Hs. induction m as [|m IH]; [exists (fun _ _ => false); intros; lia|].
    destruct IH as (w & Hw); [intros i Hi; apply Hs; lia|].
    destruct (Hs m) as (a & Ha); [lia|].
    exists (fun i => if Nat.eqb i m then a else w i). intros i Hi j Hj.
    destruct (Nat.eqb_spec i m) as [->|Hn]; [apply Ha; exact Hj|apply Hw; [lia|exact Hj]]. }
  destruct E as (w & Hw).
  destruct (homogeneous p m w H) as (a & (i & Hi1 & Ei) & Ha).
  rewrite (Hi a) in Ei; [discriminate| |exact Hi1].
  intros j Hj. unfold comb.
  rewrite (xsum_ext m _ (fun i => xsum p (fun l => a i && w i l && f l j))).
  - rewrite xsum_swap. apply xsum_zero; intros l Hl.
    rewrite (xsum_andr m (f l j) (fun i => a i && w i l)). rewrite Ha by exact Hl. reflexivity.
  - intros i' Hi'. rewrite Hw by assumption. unfold comb. rewrite <- xsum_andl.
    apply xsum_ext; intros; ring.
Qed.

Lemma inspan_comb f m c p a g :
  (forall i, i < p -> inspan f m c (g i)) -> inspan f m c (comb p a g).
Proof.
  induction p as [|p IH]; intros H.
  - exists (fun _ => false); intros j Hj; unfold comb; simpl. rewrite xsum_0; reflexivity.
  - destruct IH as (b & Hb); [intros i Hi; apply H; lia|].
    destruct (H p) as (d & Hd); [lia|].
    exists (fun i => xorb (b i) (a p && d i)). intros j Hj. unfold comb in *; simpl.
    rewrite Hb by exact Hj. rewrite Hd by exact Hj.
    rewrite (xsum_ext m (fun i => xorb (b i) (a p && d i) && f i j)
               (fun i => xorb (b i && f i j) (a p && (d i && f i j)))) by (intros; ring).
    rewrite xsum_xor, xsum_andl. reflexivity.
Qed.

Lemma inspan_row f m c i : i < m -> inspan f m c (f i).
Proof.
  intros Hi; exists (fun k => Nat.eqb k i). intros j Hj; unfold comb.
  rewrite (xsum_delta m i (fun k => f k j)) by exact Hi; reflexivity.
Qed.

Lemma inspan_ext f m c u v : (forall j, j < c -> u j = v j) -> inspan f m c u -> inspan f m c v.
Proof. intros H (a & Ha); exists a; intros j Hj; rewrite <- H by exact Hj; apply Ha; exact Hj. Qed.

(** the row space contains [r] independent vectors *)
Definition rank_ge (f : nat -> nat -> bool) (m c r : nat) : Prop :=
  exists g, (forall i, i < r -> inspan f m c (g i)) /\ indepb g r c.

(** symplectic product of two vectors of length 2n *)
Definition ip (n : nat) (u v : nat -> bool) : bool :=
  xsum n (fun j => xorb (u j && v (n + j)) (u (n + j) && v j)).

Lemma ip_sym n u v : ip n u v = ip n v u.
Proof. apply xsum_ext; intros; ring. Qed.
Lemma ip_self n u : ip n u u = false.
Proof. apply xsum_zero; intros; destruct (u i), (u (n + i)); reflexivity. Qed.
Lemma ip_ext n u u' v v' :
  (forall j, j < 2 * n -> u j = u' j) -> (forall j, j < 2 * n -> v j = v' j) -> ip n u v = ip n u' v'.
Proof. intros H1 H2; apply xsum_ext; intros i Hi; rewrite !H1, !H2 by lia; reflexivity. Qed.
Lemma ip_xor_l n u v w : ip n (fun j => xorb (u j) (v j)) w = xorb (ip n u w) (ip n v w).
Proof. unfold ip; rewrite <- xsum_xor; apply xsum_ext; intros; ring. Qed.
Lemma ip_xor_r n u v w : ip n w (fun j => xorb (u j) (v j)) = xorb (ip n w u) (ip n w v).
Proof. rewrite ip_sym, ip_xor_l, (ip_sym n u), (ip_sym n v); reflexivity. Qed.
Lemma ip_comb_l n m a f v : ip n (comb m a f) v = xsum m (fun i => a i && ip n (f i) v).
Proof.
  unfold ip, comb.
  rewrite (xsum_ext m (fun i => a i && _)
     (fun i => xsum n (fun j => a i && xorb (f i j && v (n + j)) (f i (n + j) && v j))))
    by (intros i Hi; rewrite xsum_andl; reflexivity).
  rewrite xsum_swap. apply xsum_ext; intros j Hj.
  rewrite <- !xsum_andr, <- xsum_xor. apply xsum_ext; intros; ring.
Qed.
Lemma ip_comb_r n m a f v : ip n v (comb m a f) = xsum m (fun i => a i && ip n v (f i)).
Proof. rewrite ip_sym, ip_comb_l; apply xsum_ext; intros; rewrite ip_sym; reflexivity. Qed.
