(** The encoding circuit and the encoder matrix (C111). *)
From Verif Require Import Py ZMat CodesModel RankSpec CodesSpec BoolLin Rank Gauss Logical CodesProofs CodesProofs2
  Scalar PauliModel PauliSpec PauliProofs PauliProofs2 EncoderProofs CircuitModel CircuitSpec CircuitProofs EncodeProofs CircuitProofs2 CircuitProofs3 CircuitProofs4 CircuitProofs5 UserOpsProofs2 QecProofs WorkflowProofs
  Subadd Relative EncodedSpec EncodedProofs SameCodeSpec.
From Coq Require Import Reals Lra.
Open Scope nat_scope.

(** ** Independent equations over GF(2) have a solution *)
Lemma solvable c : forall m f (e : nat -> bool), indepb f m c -> exists v, forall i, i < m -> xsum c (fun j => f i j && v j) = e i.
Proof.
  induction c as [|c IH]; intros m f e H.
  - exists (fun _ => false). intros i Hi. specialize (H (fun _ => true) ltac:(intros; lia) i Hi). discriminate.
  - assert (D : (exists i0, i0 < m /\ f i0 c = true) \/ (forall i, i < m -> f i c = false)).
    { clear -m. induction m as [|k IHk]; [right; intros; lia|].
      destruct IHk as [(i & Hi & E)|H]; [left; exists i; split; [lia|exact E]|].
      destruct (f k c) eqn:E; [left; exists k; split; [lia|exact E]|].
      right; intros i Hi; destruct (Nat.eq_dec i k); [subst; exact E|apply H; lia]. }
    destruct D as [(i0 & Hi0 & E0)|D].
    + destruct m as [|m]; [lia|].
      assert (Hne : forall i, sk i0 i <> i0) by (intros i; unfold sk; destruct (Nat.ltb_spec i i0); lia).
      set (un := fun i => if Nat.ltb i i0 then i else pred i).
      assert (Hun : forall i, un (sk i0 i) = i).
      { intros i; unfold un, sk; destruct (Nat.ltb_spec i i0); [destruct (Nat.ltb_spec i i0); lia|destruct (Nat.ltb_spec (S i) i0); lia]. }
      assert (Hsk : forall i, i < S m -> i <> i0 -> un i < m /\ sk i0 (un i) = i).
      { intros i Hi Ne; unfold un, sk; destruct (Nat.ltb_spec i i0); [destruct (Nat.ltb_spec i i0); lia|destruct (Nat.ltb_spec (pred i) i0); lia]. }
      set (g := fun i j => xorb (f (sk i0 i) j) (f (sk i0 i) c && f i0 j)).
      destruct (IH m g (fun i => xorb (e (sk i0 i)) (f (sk i0 i) c && e i0))) as (v & Hv).
      * intros a Ha i Hi.
        set (b := fun i => if Nat.eqb i i0 then xsum m (fun i => a i && f (sk i0 i) c) else a (un i)).
        assert (Hb : forall l, b (sk i0 l) = a l).
        { intros l. unfold b. destruct (Nat.eqb_spec (sk i0 l) i0) as [E|_]; [exfalso; exact (Hne _ E)|]. rewrite Hun. reflexivity. }
        rewrite <- Hb. apply H; [|unfold sk; destruct (Nat.ltb_spec i i0); lia].
        intros j Hj. unfold comb. rewrite (xsum_sk m i0) by exact Hi0.
        rewrite (xsum_ext m _ (fun l => a l && f (sk i0 l) j)) by (intros l Hl; rewrite Hb; reflexivity).
        unfold b at 1. rewrite Nat.eqb_refl. destruct (Nat.eq_dec j c) as [->|Hjc].
        -- rewrite E0. ring.
        -- specialize (Ha j ltac:(lia)). unfold comb, g in Ha.
           rewrite (xsum_ext m _ (fun l => xorb (a l && f (sk i0 l) j) ((a l && f (sk i0 l) c) && f i0 j))) in Ha by (intros; ring).
           rewrite xsum_xor, xsum_andr in Ha. rewrite <- Ha. ring.
      * set (w := xorb (e i0) (xsum c (fun j => f i0 j && v j))).
        exists (fun j => if Nat.eqb j c then w else v j). intros i Hi. cbn [xsum]. rewrite Nat.eqb_refl.
        rewrite (xsum_ext c _ (fun j => f i j && v j)).
        2:{ intros j Hj. destruct (Nat.eqb_spec j c); [lia|reflexivity]. }
        destruct (Nat.eq_dec i i0) as [->|Ne]; [rewrite E0; unfold w; ring|].
        destruct (Hsk i Hi Ne) as (Hu & Es). specialize (Hv (un i) Hu). unfold g in Hv. rewrite Es in Hv.
        rewrite (xsum_ext c _ (fun j => xorb (f i j && v j) ((f i0 j && v j) && f i c))) in Hv by (intros; ring).
        rewrite xsum_xor, xsum_andr in Hv. unfold w. revert Hv. generalize (xsum c (fun j => f i j && v j)), (xsum c (fun j => f i0 j && v j)).
        intros x y Hv. assert (x = xorb (xorb (e i) (f i c && e i0)) (y && f i c)) as -> by (rewrite <- Hv; ring). ring.
    + destruct (IH m f e) as (v & Hv).
      * intros a Ha. apply H. intros j Hj. destruct (Nat.eq_dec j c) as [->|]; [|apply Ha; lia].
        apply xsum_zero. intros i Hi. rewrite D by exact Hi. ring.
      * exists v. intros i Hi. cbn [xsum]. rewrite Hv, D by exact Hi. ring.
Qed.
(** a row with prescribed symplectic products *)
Lemma solve_ip n m f (e : nat -> bool) : indepb f m (2 * n) -> exists q, forall i, i < m -> ip n q (f i) = e i.
Proof.
  intros H. destruct (solvable (2 * n) m f e H) as (v & Hv).
  exists (fun j => if Nat.ltb j n then v (n + j) else v (j - n)). intros i Hi. rewrite <- (Hv i Hi). clear Hv.
  replace (2 * n) with (n + n) by lia. rewrite xsum_split, <- xsum_xor. unfold ip. apply xsum_ext. intros j Hj.
  destruct (Nat.ltb_spec j n); [|lia]. destruct (Nat.ltb_spec (n + j) n); [lia|]. replace (n + j - n) with j by lia. ring.
Qed.

(** ** Square isometries *)
Open Scope K_scope.
Add Ring CCring53 : (s_rt CC).
Lemma square_isometry m (X : array CC) : eqm m m (mm m (adj X) X) eye -> eqm m m (mm m X (adj X)) eye.
Proof.
  intros H. set (P := mm m X (adj X)).
  assert (HP : eqm m m (mm m (adj P) P) P).
  { intros i j Hi Hj. unfold P. rewrite adjM, adjA, mmA. rewrite <- (mmA m m (adj X)). apply mm_congr_r. intros l Hl.
    rewrite (mm_congr_l m m _ _ _ l j H Hl). apply mm_eye_l, Hl. }
  assert (PA : adj P = P) by (unfold P; rewrite adjM, adjA; reflexivity).
  rewrite PA in HP.
  assert (PC : forall a b, (P b a)^* = P a b) by (intros a b; change ((P b a)^* ) with (adj P a b); rewrite PA; reflexivity). 
  assert (TP : tr m P = tr m (mm m (adj X) X)) by apply tr_mm. clearbody P. set (D := fun i j => eye i j + - P i j).
  assert (T : bsum m (fun t => mm m (adj D) D t t) = 0).
  { rewrite (bsum_ext m _ (fun t => 1 + - P t t)).
    - assert (E : bsum m (fun t => P t t) = bsum m (fun _ => 1)).
      { change (tr m P = bsum m (fun _ => 1)). rewrite TP. apply bsum_ext. intros t Ht. rewrite H by assumption. unfold eye. rewrite Nat.eqb_refl. reflexivity. }
      rewrite bsum_add, bsum_opp, E. ring.
    - intros t Ht. unfold mm, D, adj.
      rewrite (bsum_ext m _ (fun l => (if Nat.eqb l t then 1 + - P l t + - P t l else 0) + P t l * P l t)).
      + rewrite bsum_add, (bsum_delta m t (fun l => 1 + - P l t + - P t l)) by exact Ht.
        change (bsum m (fun l => P t l * P l t)) with (mm m P P t t). rewrite (HP t t Ht Ht). ring.
      + intros l Hl. rewrite sconj_add, sconj_opp, PC. unfold eye. destruct (Nat.eqb l t); [rewrite sconj_1|rewrite sconj_0]; ring. }
  assert (Z : forall i t, i < m -> t < m -> D i t = 0).
  { assert (S0 : rsum m (fun t => rsum m (fun i => nsq (D i t))) = 0%R).
    { apply rc_inj. change (rc 0) with (0 : CC). rewrite <- T, rc_sum. apply bsum_ext. intros t Ht. symmetry. apply col_norm. }
    intros i t Hi Ht.
    assert (N : (nsq (D i t) <= 0)%R).
    { rewrite <- S0. eapply Rle_trans; [|apply (rsum_term m (fun t => rsum m (fun i => nsq (D i t))) t); [intros; apply rsum_nonneg; intros; apply nsq_nonneg|exact Ht]].
      apply (rsum_term m (fun i => nsq (D i t)) i); [intros; apply nsq_nonneg|exact Hi]. }
    destruct (D i t) as [x y]. unfold nsq in N. cbn in N. apply CC_eq; cbn; nra. }
  intros i j Hi Hj. specialize (Z i j Hi Hj). unfold D in Z. transitivity (P i j + (eye i j + - P i j)); [rewrite Z; ring|ring].
Qed.
Lemma same_columns d m (E W : array CC) : eqm m m (mm d (adj E) E) eye -> eqm m m (mm d (adj W) W) eye ->
  eqm d m (mm m E (mm d (adj E) W)) W -> eqm d m (mm m W (mm d (adj W) E)) E.
Proof.
  intros HE HW H. set (X := mm d (adj E) W).
  assert (EX : mm d (adj W) E = adj X) by (unfold X; rewrite adjM, adjA; reflexivity). rewrite EX.
  assert (XX : eqm m m (mm m (adj X) X) eye).
  { intros i j Hi Hj. rewrite <- EX. rewrite mmA. rewrite <- HW by assumption. apply mm_congr_r. intros l Hl. apply H; assumption. }
  apply square_isometry in XX. intros i j Hi Hj. rewrite <- (mm_congr_l d m _ _ (adj X) i j H Hi). fold X. rewrite mmA.
  rewrite (mm_congr_r m E _ eye i j) by (intros l Hl; apply XX; assumption). apply mm_eye_r, Hj.
Qed.

(** ** Indices and basis states *)
Lemma bits_of_high m i : bits_of m (2 ^ m + i) = bits_of m i.
Proof.
  apply bits_eq; [rewrite !bits_of_length; reflexivity|]. rewrite bits_of_length. intros j Hj. rewrite !getb_bits_of by exact Hj.
  set (b := (m - 1 - j)%nat). assert (Hb : (b < m)%nat) by (unfold b; lia). rewrite !Nat.testbit_odd, !Nat.shiftr_div_pow2.
  replace (2 ^ m + i)%nat with (i + 2 ^ (m - b) * 2 ^ b)%nat.
  2:{ rewrite <- Nat.pow_add_r. replace (m - b + b)%nat with m by lia. lia. }
  rewrite Nat.div_add by (apply Nat.pow_nonzero; lia). rewrite Nat.odd_add.
  replace (m - b)%nat with (S (m - b - 1)) by lia. rewrite Nat.pow_succ_r', Nat.odd_mul. replace (Nat.odd 2) with false by reflexivity. apply xorb_false_r.
Qed.
Lemma isum_bsum {K : StarRing} m : forall f : list bool -> K, isum m f = bsum (2 ^ m) (fun i => f (bits_of m i)).
Proof.
  induction m as [|m IH]; intros f; [cbn; symmetry; apply (Radd_0_l (s_rt K))|].
  cbn [isum]. rewrite !IH. rewrite Nat.pow_succ_r'. replace (2 * 2 ^ m)%nat with (2 ^ m + 2 ^ m)%nat by lia. rewrite bsum_split. f_equal; apply bsum_ext; intros i Hi; cbn [bits_of]; f_equal.
  - rewrite (testbit_high i m m) by lia. reflexivity.
  - rewrite bits_of_high. f_equal. rewrite Nat.testbit_odd, Nat.shiftr_div_pow2. replace (2 ^ m + i)%nat with (i + 1 * 2 ^ m)%nat by lia.
    rewrite Nat.div_add by (apply Nat.pow_nonzero; lia). rewrite Nat.div_small by exact Hi. reflexivity.
Qed.

(** ** Renaming qubits *)
Section Move.
Context {K : StarRing}.
Add Ring Kring111 : (s_rt K).
Variables (n : nat) (p q : nat -> nat).
Hypothesis HP : perm n p q.
Definition mv (p : nat -> nat) (y : list bool) : list bool := map (fun j => nth (p j) y false) (seq 0 n).
Lemma mv_length p' y : length (mv p' y) = n. Proof. unfold mv. rewrite map_length, seq_length. reflexivity. Qed.
Lemma getb_mv p' y j : (j < n)%nat -> getb (mv p' y) j = getb y (p' j).
Proof. intros Hj. unfold getb, mv. rewrite (nth_indep _ _ (nth (p' O) y false)) by (rewrite map_length, seq_length; exact Hj). rewrite (map_nth (fun j => nth (p' j) y false)), seq_nth by exact Hj. reflexivity. Qed.
Lemma mv_mv y : length y = n -> mv p (mv q y) = y.
Proof.
  intros L. apply bits_eq; [rewrite mv_length; auto|]. rewrite mv_length. intros j Hj. destruct (HP j Hj) as (H1 & H2 & H3 & H4). rewrite !getb_mv by assumption. rewrite H4. reflexivity.
Qed.
Lemma mv_mv' y : length y = n -> mv q (mv p y) = y.
Proof.
  intros L. apply bits_eq; [rewrite mv_length; auto|]. rewrite mv_length. intros j Hj. destruct (HP j Hj) as (H1 & H2 & H3 & H4). rewrite !getb_mv by assumption. rewrite H3. reflexivity.
Qed.
Lemma move_prow u (phi : @state K) : eqs n (prow n u (move_qubits n p phi)) (move_qubits n p (prow n (fun j => u (Gauss.lift n p j)) phi)).
Proof.
  intros y Hy. unfold prow, pact, move_qubits. fold (mv p y). fold (mv p (xorv n u y)). f_equal.
  - f_equal. rewrite <- (xsum_perm n p q _ HP). apply xsum_ext. intros j Hj. rewrite getb_mv by exact Hj. unfold Gauss.lift.
    destruct (Nat.ltb_spec (n + j) n); [lia|]. destruct (Nat.ltb_spec j n); [|lia]. replace (n + j - n)%nat with j by lia. reflexivity.
  - f_equal. apply bits_eq; [rewrite xorv_length, !mv_length; reflexivity|]. rewrite mv_length. intros j Hj. destruct (HP j Hj) as (H1 & _).
    rewrite getb_mv by exact Hj. rewrite !getb_xorv_in by (rewrite ?mv_length; lia). rewrite getb_mv by exact Hj. unfold Gauss.lift. destruct (Nat.ltb_spec j n); [|lia]. reflexivity.
Qed.
Lemma move_inner (psi phi : @state K) : inner n (move_qubits n p psi) (move_qubits n p phi) = inner n psi phi.
Proof.
  unfold inner. rewrite !isum_bsum.
  rewrite <- (bsum_perm (2 ^ n) (fun i => idx (mv p (bits_of n i))) (fun i => idx (mv q (bits_of n i))) (fun i => (psi (bits_of n i))^* * phi (bits_of n i))).
  - apply bsum_ext. intros i Hi. unfold move_qubits. fold (mv p (bits_of n i)).
    pose proof (bits_of_idx (mv p (bits_of n i))) as E. rewrite mv_length in E. rewrite E. reflexivity.
  - intros i Hi.
    pose proof (bits_of_idx (mv p (bits_of n i))) as E. rewrite mv_length in E.
    pose proof (bits_of_idx (mv q (bits_of n i))) as E'. rewrite mv_length in E'.
    pose proof (idx_lt (mv p (bits_of n i))) as L. rewrite mv_length in L.
    pose proof (idx_lt (mv q (bits_of n i))) as L'. rewrite mv_length in L'.
    split; [exact L|]. split; [exact L'|]. rewrite E, E', mv_mv, mv_mv' by apply bits_of_length. split; apply idx_bits_of, Hi.
Qed.
Lemma move_eqs (psi phi : @state K) : eqs n psi phi -> eqs n (move_qubits n p psi) (move_qubits n p phi).
Proof. intros H y Hy. apply H, mv_length. Qed.
Lemma move_inj (psi phi : @state K) : eqs n (move_qubits n p psi) (move_qubits n p phi) -> eqs n psi phi.
Proof.
  intros H y Hy. specialize (H (mv q y) (mv_length q y)). unfold move_qubits in H. fold (mv p (mv q y)) in H. rewrite mv_mv in H by exact Hy. exact H.
Qed.
End Move.

(** ** Messages *)
Open Scope nat_scope.
Definition msg (k t : nat) : list Z := map Z.b2z (bits_of k t).
Lemma msg_length k t : length (msg k t) = k. Proof. unfold msg. rewrite map_length. apply bits_of_length. Qed.
Lemma msg_binary k t : binary (msg k t).
Proof. unfold msg. apply Forall_forall. intros z Hz. apply in_map_iff in Hz. destruct Hz as (b & <- & _). destruct b; cbn; auto. Qed.
Lemma msg_inj k t s : t < 2 ^ k -> s < 2 ^ k -> msg k t = msg k s -> t = s.
Proof.
  intros Ht Hs E. rewrite <- (idx_bits_of k t Ht), <- (idx_bits_of k s Hs). f_equal.
  assert (M : forall l l' : list bool, map Z.b2z l = map Z.b2z l' -> l = l').
  { induction l as [|b l IH]; intros [|b' l'] X; try discriminate; [reflexivity|]. injection X as X1 X2. f_equal; [destruct b, b'; (reflexivity || discriminate)|apply IH, X2]. }
  apply M, E.
Qed.
Lemma msg_all k st : length st = k -> binary st -> exists t, t < 2 ^ k /\ st = msg k t.
Proof.
  intros L B. exists (idx (map (fun z => Z.eqb z 1) st)). split.
  - pose proof (idx_lt (map (fun z => Z.eqb z 1) st)) as H. rewrite map_length, L in H. exact H.
  - unfold msg. pose proof (bits_of_idx (map (fun z => Z.eqb z 1) st)) as H. rewrite map_length, L in H. rewrite H, map_map. clear -B.
    induction B as [|z l Hz B IH]; [reflexivity|]. cbn [map]. rewrite <- IH. destruct Hz as [-> | ->]; reflexivity.
Qed.
Open Scope K_scope.
Section Sup.
Context {K : StarRing}.
Add Ring Kring111b : (s_rt K).
Lemma superpose_app {A} (l l' : list (K * A)) F y : superpose (l ++ l') F y = superpose l F y + superpose l' F y.
Proof. unfold superpose. induction l as [|p l IH]; cbn [app fold_right]; [ring|]. rewrite IH. ring. Qed.
Definition every (m : nat) (a : nat -> K) (k : nat) : list (K * list Z) := map (fun t => (a t, msg k t)) (seq 0 m).
Lemma every_messages m a k : Forall (fun p => length (snd p) = k /\ binary (snd p)) (every m a k).
Proof. apply Forall_forall. intros p Hp. apply in_map_iff in Hp. destruct Hp as (t & <- & _). split; [apply msg_length|apply msg_binary]. Qed.
Lemma superpose_every m a k (F : list Z -> @state K) y : superpose (every m a k) F y = bsum m (fun t => a t * F (msg k t) y).
Proof. unfold every. induction m as [|m IH]; [reflexivity|]. rewrite seq_S, map_app, superpose_app, IH. cbn [bsum map]. unfold superpose. cbn [fold_right fst snd Nat.add]. ring. Qed.
Lemma in_columns_ext n m (E : array K) psi phi : eqs n psi phi -> in_columns n m E psi -> in_columns n m E phi.
Proof. intros H (a & Ha). exists a. intros i Hi. rewrite <- Ha by exact Hi. symmetry. apply H, bits_of_length. Qed.
Lemma in_columns_superpose {A} n m (E : array K) (l : list (K * A)) F : (forall x, In x l -> in_columns n m E (F (snd x))) -> in_columns n m E (superpose l F).
Proof.
  induction l as [|[x s] l IH]; intros H.
  - exists (fun _ => 0). intros i Hi. unfold superpose. cbn. symmetry. apply bsum_zero. intros. ring.
  - destruct IH as (a & Ha); [intros; apply H; right; assumption|]. destruct (H (x, s) (or_introl eq_refl)) as (b & Hb). cbn [snd] in Hb.
    exists (fun t => x * b t + a t). intros i Hi. unfold superpose. cbn [fold_right fst snd]. rewrite Hb by exact Hi. specialize (Ha i Hi). unfold superpose in Ha. rewrite Ha.
    rewrite <- bsum_mul_l, <- bsum_add. apply bsum_ext. intros. ring.
Qed.
Lemma prow_twice n u (psi : @state K) : exists e, eqs n (prow n u (prow n u psi)) (sscale (sgn e) psi).
Proof.
  exists (zxb n u u). intros y Hy. rewrite (prow_product n u u psi y Hy). unfold sscale. f_equal. rewrite <- (prow_none n psi y). apply prow_same. intros j Hj. apply xorb_nilpotent.
Qed.
Lemma prow_inj n u (psi phi : @state K) : eqs n (prow n u psi) (prow n u phi) -> eqs n psi phi.
Proof.
  intros H. pose proof (prow_eqs n u _ _ H) as H2. intros y Hy. specialize (H2 y Hy). rewrite (prow_product n u u psi y Hy), (prow_product n u u phi y Hy) in H2. unfold sscale in H2.
  rewrite !(prow_same n (fun j => xorb (u j) (u j)) (fun _ => false)) in H2 by (intros; apply xorb_nilpotent). rewrite !prow_none in H2.
  destruct (zxb n u u); cbn [sgn] in H2; [transitivity (- (- (1) * psi y)); [ring|rewrite H2; ring]|transitivity (1 * psi y); [ring|rewrite H2; ring]].
Qed.
End Sup.

(** ** The two encoders *)
Section Same.
Variable eigh : marr CC -> (nat -> R) * marr CC.
Hypothesis EO : eigh_ok eigh.
Variables h im : CC.
Hypothesis HC : qubit_constants h im.
Variables (g : gens) (n k : nat) (c : code).
Hypothesis HI : init g n k None = Ok c.
Hypothesis HV : valid_generators n k (zd (stab c)).
Hypothesis HE : Forall (fun row => Nat.even (y_count n row) = true) (zd (stab c)).
Notation enc := (encode h im n c).

Lemma okm_stab : okm n (n - k)%nat (stab c) /\ indepb (bz (stab c)) (n - k)%nat (2 * n)%nat.
Proof.
  destruct (init_inv _ _ _ _ _ HI) as (M & W & _ & ZC & ES & _). rewrite ES in HV |- *. destruct (valid_bool n k M W ZC HV) as (O & Z & _ & I).
  rewrite Z in O, I. split; assumption.
Qed.
Lemma encoder : exists Ss E, Forall2 (fun row S => mr S = (2 ^ n)%nat /\ mc S = (2 ^ n)%nat /\ is_pauli n (me S) row) (zd (stab c)) Ss /\
    encode_krauss_operators eigh c = Ok (MA (2 ^ n) (2 ^ k) E) /\ eqm (2 ^ k) (2 ^ k) (mm (2 ^ n) (adj E) E) eye /\
    (forall S, In S Ss -> eqm (2 ^ n) (2 ^ k) (mm (2 ^ n) (me S) E) E) /\
    (forall v : nat -> CC, (forall S, In S Ss -> forall i, (i < 2 ^ n)%nat -> bsum (2 ^ n) (fun l => me S i l * v l) = v i) ->
       forall i, (i < 2 ^ n)%nat -> bsum (2 ^ k) (fun t => E i t * bsum (2 ^ n) (fun l => (E l t)^* * v l)) = v i).
Proof.
  pose proof HV as (V1 & V2 & V3 & V4 & V5 & V6). destruct (dims g n k c HI HV) as (Hn & _ & _).
  destruct (encoder_isometry eigh g n k None c EO HI Hn V4 HE) as (Ss & m & E & E1 & E2 & E3 & E4 & E5 & E6).
  specialize (E6 V6 V2). subst m. exists Ss, E.
  destruct (mats_of (K := CC) n (stab c) (n - k)%nat (proj1 okm_stab) Hn) as (Ss' & ES & F). rewrite E1 in ES. injection ES as <-.
  repeat (split; [assumption|]). assumption.
Qed.

Section Image.
Variables (Ss : list (marr CC)) (E : array CC).
Hypothesis FS : Forall2 (fun row S => mr S = (2 ^ n)%nat /\ mc S = (2 ^ n)%nat /\ is_pauli n (me S) row) (zd (stab c)) Ss.
Hypothesis IE : eqm (2 ^ k) (2 ^ k) (mm (2 ^ n) (adj E) E) eye.
Hypothesis CE : forall v : nat -> CC, (forall S, In S Ss -> forall i, (i < 2 ^ n)%nat -> bsum (2 ^ n) (fun l => me S i l * v l) = v i) ->
       forall i, (i < 2 ^ n)%nat -> bsum (2 ^ k) (fun t => E i t * bsum (2 ^ n) (fun l => (E l t)^* * v l)) = v i.
Lemma fixed_columns (psi : @state CC) : (forall r, In r (zd (stab c)) -> eqs n (prow n (brow r) psi) psi) ->
  forall i, (i < 2 ^ n)%nat -> bsum (2 ^ k) (fun t => E i t * bsum (2 ^ n) (fun l => (E l t)^* * psi (bits_of n l))) = psi (bits_of n i).
Proof.
  intros H. apply (CE (fun i => psi (bits_of n i))). intros S HS.
  assert (X : exists r, In r (zd (stab c)) /\ is_pauli n (me S) r).
  { clear -FS HS. induction FS as [|r S' rs Ss' (_ & _ & P) F IH]; [destruct HS|]. destruct HS as [->|HS]; [exists r; split; [left; reflexivity|exact P]|].
    destruct (IH F HS) as (r' & Hr & P'). exists r'. split; [right; exact Hr|exact P']. }
  destruct X as (r & Hr & P). apply (fixes_prow n (me S) r psi P), H, Hr.
Qed.
Variables (p q : nat -> nat) (u : list Z).
Hypothesis HP : perm n p q.
Hypothesis FX : forall r st, In r (zd (stab c)) -> length st = k -> binary st -> eqs n (prow n (brow (relabel n p r)) (prow n (brow u) (enc st))) (prow n (brow u) (enc st)).
Definition timage (psi : @state CC) : @state CC := move_qubits n p (prow n (brow u) psi).
Lemma timage_fixed st r : length st = k -> binary st -> In r (zd (stab c)) -> eqs n (prow n (brow r) (timage (enc st))) (timage (enc st)).
Proof.
  intros L B Hr y Hy. unfold timage. rewrite (move_prow n p q HP (brow r) _ y Hy). apply move_eqs; [|exact Hy].
  intros z Hz. rewrite (prow_same n _ (brow (relabel n p r))) by (intros j Hj; symmetry; apply brow_relabel, Hj). apply FX; assumption.
Qed.
Lemma timage_superpose (l : list (CC * list Z)) F y : timage (superpose l F) y = superpose l (fun s => timage (F s)) y.
Proof. unfold timage, move_qubits. rewrite prow_superpose. reflexivity. Qed.
Lemma timage_inner (psi phi : @state CC) : inner n (timage psi) (timage phi) = inner n psi phi.
Proof. unfold timage. rewrite (move_inner n p q HP). apply (prow_unitary h im HC). Qed.
Lemma timage_inj (psi phi : @state CC) : eqs n (timage psi) (timage phi) -> eqs n psi phi.
Proof. intros H. apply (move_inj n p q HP) in H. apply prow_inj in H. exact H. Qed.
Lemma timage_eqs (psi phi : @state CC) : eqs n psi phi -> eqs n (timage psi) (timage phi).
Proof. intros H. apply move_eqs, prow_eqs, H. Qed.
Theorem same_span (psi : @state CC) : encoded_by n k enc psi <-> in_columns n (2 ^ k) E (timage psi).
Proof.
  assert (IN : forall st, length st = k -> binary st -> in_columns n (2 ^ k) E (timage (enc st))).
  { intros st L B. exists (fun t => bsum (2 ^ n) (fun l => (E l t)^* * timage (enc st) (bits_of n l))). intros i Hi. symmetry. apply fixed_columns; [|exact Hi]. intros r Hr. apply timage_fixed; assumption. }
  split.
  - intros (l & Hl & El). apply (in_columns_ext n _ _ (superpose l (fun s => timage (enc s)))).
    + intros y Hy. rewrite <- timage_superpose. symmetry. apply (timage_eqs _ _ El y Hy).
    + apply in_columns_superpose. intros x Hx. rewrite Forall_forall in Hl. destruct (Hl x Hx). apply IN; assumption.
  - intros (a & Ha). set (W := fun i t => timage (enc (msg k t)) (bits_of n i)).
    assert (IW : eqm (2 ^ k) (2 ^ k) (mm (2 ^ n) (adj W) W) eye).
    { intros t s Ht Hs. change (bsum (2 ^ n) (fun i => (timage (enc (msg k t)) (bits_of n i))^* * timage (enc (msg k s)) (bits_of n i)) = eye t s).
      rewrite <- (isum_bsum n (fun y => (timage (enc (msg k t)) y)^* * timage (enc (msg k s)) y)).
      change (inner n (timage (enc (msg k t))) (timage (enc (msg k s))) = eye t s). rewrite timage_inner.
      destruct (encoding_ok h im g n k c HI HV HE HC (msg k t) (msg_length k t) (msg_binary k t)) as (_ & N & _ & O).
      unfold eye. destruct (Nat.eqb_spec t s) as [<-|Ne]; [exact N|]. apply O; [apply msg_length|apply msg_binary|]. intros X. apply Ne. symmetry. apply (msg_inj k); assumption. }
    assert (EW : eqm (2 ^ n) (2 ^ k) (mm (2 ^ k) E (mm (2 ^ n) (adj E) W)) W).
    { intros i t Hi Ht. apply (fixed_columns (timage (enc (msg k t)))); [|exact Hi]. intros r Hr. apply timage_fixed; [apply msg_length|apply msg_binary|exact Hr]. }
    pose proof (same_columns (2 ^ n) (2 ^ k) E W IE IW EW) as S. set (X := mm (2 ^ n) (adj W) E) in S.
    exists (every (2 ^ k) (fun s => bsum (2 ^ k) (fun t => X s t * a t)) k). split; [apply every_messages|].
    apply timage_inj. intros y Hy. rewrite timage_superpose, superpose_every.
    rewrite <- (bits_of_idx y), Hy. set (i := idx y). assert (Hi : (i < 2 ^ n)%nat) by (unfold i; rewrite <- Hy; apply idx_lt). rewrite (Ha i Hi).
    rewrite (bsum_ext (2 ^ k) _ (fun t => bsum (2 ^ k) (fun s => W i s * X s t * a t))).
    + rewrite bsum_swap. apply bsum_ext. intros s Hs. rewrite <- bsum_mul_r. apply bsum_ext. intros t Ht. unfold W. ring.
    + intros t Ht. rewrite bsum_mul_r. f_equal. symmetry. apply (S i t Hi Ht).
Qed.
End Image.

Lemma perm_id : perm n (fun j => j) (fun j => j).
Proof. intros i Hi. repeat split; exact Hi. Qed.
Lemma move_id (psi : @state CC) : eqs n (move_qubits n (fun j => j) psi) psi.
Proof.
  intros y Hy. unfold move_qubits. f_equal. apply bits_eq; [rewrite map_length, seq_length; auto|]. rewrite map_length, seq_length. intros j Hj. apply (getb_mv n (fun j => j)), Hj.
Qed.
Lemma timage_id (psi : @state CC) : eqs n (timage (fun j => j) [] psi) psi.
Proof.
  intros y Hy. unfold timage. rewrite (move_id _ y Hy). rewrite (prow_same n (brow []) (fun _ => false)); [apply prow_none|]. intros [|j] Hj; reflexivity.
Qed.
Lemma relabel_id r : length r = (2 * n)%nat -> forall j, (j < 2 * n)%nat -> brow (relabel n (fun j => j) r) j = brow r j.
Proof. intros L j Hj. rewrite brow_relabel by exact Hj. unfold Gauss.lift. destruct (Nat.ltb_spec j n); [reflexivity|]. f_equal. lia. Qed.
Lemma enc_encoded st : length st = k -> binary st -> encoded_by n k enc (enc st).
Proof.
  intros L B. exists [(1, st)]. split; [constructor; [split; assumption|constructor]|]. intros y Hy. unfold superpose. cbn [fold_right fst snd]. transitivity (1 * enc st y + 0); [ring|reflexivity].
Qed.
Lemma fixed_span E Ss : Forall2 (fun row S => mr S = (2 ^ n)%nat /\ mc S = (2 ^ n)%nat /\ is_pauli n (me S) row) (zd (stab c)) Ss ->
  eqm (2 ^ k) (2 ^ k) (mm (2 ^ n) (adj E) E) eye ->
  (forall v : nat -> CC, (forall S, In S Ss -> forall i, (i < 2 ^ n)%nat -> bsum (2 ^ n) (fun l => me S i l * v l) = v i) ->
       forall i, (i < 2 ^ n)%nat -> bsum (2 ^ k) (fun t => E i t * bsum (2 ^ n) (fun l => (E l t)^* * v l)) = v i) ->
  (forall r st, In r (zd (stab c)) -> length st = k -> binary st -> eqs n (prow n (brow r) (enc st)) (enc st)) ->
  forall psi, encoded_by n k enc psi <-> in_columns n (2 ^ k) E psi.
Proof.
  intros FS IE CE FX psi. pose proof HV as (_ & _ & W & _). rewrite Forall_forall in W.
  rewrite (same_span Ss E FS IE CE (fun j => j) (fun j => j) [] perm_id).
  - split; apply in_columns_ext; [apply timage_id|apply eqs_sym, timage_id].
  - intros r st Hr L B.
    assert (Z : eqs n (prow n (brow []) (enc st)) (enc st)).
    { intros y Hy. rewrite (prow_same n (brow []) (fun _ => false)); [apply prow_none|]. intros [|j] Hj; reflexivity. }
    intros y Hy. rewrite (prow_same n _ (brow r)) by (apply relabel_id, W, Hr). rewrite (prow_eqs n (brow r) _ _ Z y Hy), (Z y Hy). apply FX; assumption.
Qed.

(** the general relation *)
Theorem same_exact : exists E p w Q, encode_krauss_operators eigh c = Ok (MA (2 ^ n) (2 ^ k) E) /\
  qubit_perm n p /\ (forall v, in_rowspace n (map (relabel n p) (zd (stab c))) v <-> in_rowspace n (zd (normal_form c)) v) /\
  length w = (2 * n)%nat /\ binary w /\ binary_rep_to_pauli_mat (ZM 1 (2 * n) [w]) = Ok [MA (2 ^ n) (2 ^ n) Q] /\
  forall psi phi, matrix_maps n Q psi phi -> (encoded_by n k enc psi <-> in_columns n (2 ^ k) E (move_qubits n p phi)).
Proof.
  destruct encoder as (Ss & E & FS & EE & IE & FE & CE). pose proof HV as (V1 & V2 & W & B & _). destruct (dims g n k c HI HV) as (Hn & Lf & Ls).
  destruct (normal_form_same_code g n k None c HI B) as (_ & _ & _ & _ & p & P & R). destruct (qubit_perm_inv n p P) as (q & HP).
  (* the sign of every relabelled generator *)
  assert (SG : forall i, (i < n - k)%nat -> exists e, forall st, length st = k -> binary st ->
     eqs n (prow n (fun j => bz (stab c) i (Gauss.lift n p j)) (enc st)) (sscale (sgn e) (enc st))).
  { intros i Hi. set (r := nth i (zd (stab c)) []). assert (Hr : In r (zd (stab c))) by (apply nth_In; lia).
    assert (I : in_rowspace n (zd (normal_form c)) (relabel n p r)).
    { apply R. apply in_rowspace_b. apply (in_map (relabel n p)) in Hr. apply (In_nth _ _ []) in Hr. destruct Hr as (i' & Hi' & <-). apply (inspan_row (brows _)), Hi'. }
    apply in_rowspace_b in I. rewrite Lf in I. destruct I as (a & Ha).
    exists (esign n (n - k) a (bz (normal_form c))). intros st L Bs y Hy.
    rewrite (prow_same n _ (brow (relabel n p r))); [exact (span_sign h im g n k c HI HV HE st _ a L Bs Ha y Hy)|].
    intros j Hj. rewrite brow_relabel by exact Hj. reflexivity. }
  assert (SE : exists e : nat -> bool, forall i, (i < n - k)%nat -> forall st, length st = k -> binary st ->
     eqs n (prow n (fun j => bz (stab c) i (Gauss.lift n p j)) (enc st)) (sscale (sgn (e i)) (enc st))).
  { clear -SG. induction (n - k)%nat as [|m IH]; [exists (fun _ => false); intros; lia|].
    destruct IH as (e & He); [intros; apply SG; lia|]. destruct (SG m ltac:(lia)) as (b & Hb).
    exists (fun i => if Nat.eqb i m then b else e i). intros i Hi. destruct (Nat.eqb_spec i m) as [->|]; [exact Hb|apply He; lia]. }
  destruct SE as (e & He).
  destruct (solve_ip n (n - k)%nat (fun i j => bz (stab c) i (Gauss.lift n p j)) e (indep_lift n p q _ _ HP (proj2 okm_stab))) as (v & Hv).
  set (w := map (fun j => Z.b2z (v j)) (seq 0 (2 * n))).
  assert (Lw : length w = (2 * n)%nat) by (unfold w; rewrite map_length, seq_length; reflexivity).
  assert (Bw : binary w).
  { apply Forall_forall. intros z Hz. apply in_map_iff in Hz. destruct Hz as (j & <- & _). destruct (v j); cbn; auto. }
  assert (Ew : forall j, (j < 2 * n)%nat -> brow w j = v j).
  { intros j Hj. unfold brow, w. rewrite (nth_map_seq (fun j => Z.b2z (v j))) by exact Hj. destruct (v j); reflexivity. }
  destruct (one_matrix (K := CC) g n k c HI HV w Lw Bw) as (Q & EQ & PQ).
  exists E, p, w, Q. split; [exact EE|]. split; [exact P|]. split; [exact R|]. split; [exact Lw|]. split; [exact Bw|]. split; [exact EQ|].
  intros psi phi M. apply (maps_prow n Q w psi phi PQ) in M.
  rewrite (same_span Ss E FS IE CE p q w HP).
  - split; apply in_columns_ext; [|apply eqs_sym]; apply move_eqs, M.
  - intros r st Hr L Bs. apply (In_nth _ _ []) in Hr. destruct Hr as (i & Hi & <-). rewrite Ls in Hi.
    set (f := fun j => bz (stab c) i (Gauss.lift n p j)).
    intros y Hy. rewrite (prow_same n _ f) by (intros j Hj; apply brow_relabel, Hj).
    unfold prow at 1 2. rewrite (pact_anticommute n n _ _ _ _ _ ltac:(lia) y Hy). unfold sscale.
    change (sgn (ip n f (brow w)) * prow n (brow w) (prow n f (enc st)) y = prow n (brow w) (enc st) y).
    pose proof (prow_eqs n (brow w) _ _ (He i Hi st L Bs) y Hy) as X. fold f in X. rewrite X. clear X. unfold prow at 1. rewrite pact_scale. unfold sscale. fold (prow n (brow w) (enc st)).
    replace (ip n f (brow w)) with (e i).
    + destruct (e i); cbn [sgn]; ring.
    + rewrite <- (Hv i Hi), ip_sym. unfold ip. apply xsum_ext. intros j Hj. rewrite !Ew by lia. reflexivity.
Qed.

(** exactly when the generators fix the encoded states *)
Theorem same_iff : exists E, encode_krauss_operators eigh c = Ok (MA (2 ^ n) (2 ^ k) E) /\
  ((forall psi, encoded_by n k enc psi <-> in_columns n (2 ^ k) E psi) <->
   (forall r st, In r (zd (stab c)) -> length st = k -> binary st -> exists A : array CC,
      binary_rep_to_pauli_mat (ZM 1 (2 * n) [r]) = Ok [MA (2 ^ n) (2 ^ n) A] /\ matrix_fixes n A (enc st))).
Proof.
  destruct encoder as (Ss & E & FS & EE & IE & FE & CE). pose proof HV as (V1 & V2 & W & B & _). rewrite Forall_forall in W, B. exists E. split; [exact EE|]. split.
  - intros H r st Hr L Bs. destruct (one_matrix (K := CC) g n k c HI HV r (W r Hr) (B r Hr)) as (A & EA & PA). exists A. split; [exact EA|].
    assert (X : exists S, In S Ss /\ is_pauli n (me S) r).
    { clear -FS Hr. induction FS as [|r' S' rs Ss' (_ & _ & P) F IH]; [destruct Hr|]. destruct Hr as [->|Hr]; [exists S'; split; [left; reflexivity|exact P]|].
      destruct (IH Hr) as (S & HS & P'). exists S. split; [right; exact HS|exact P']. }
    destruct X as (S & HS & PS). destruct (proj1 (H (enc st)) (enc_encoded st L Bs)) as (a & Ha).
    intros i Hi. rewrite (Ha i Hi).
    rewrite (bsum_ext (2 ^ n) _ (fun l => bsum (2 ^ k) (fun t => me S i l * E l t * a t))).
    + rewrite bsum_swap. apply bsum_ext. intros t Ht. rewrite bsum_mul_r. f_equal. exact (FE S HS i t Hi Ht).
    + intros l Hl. rewrite (Ha l Hl), <- bsum_mul_l. apply bsum_ext. intros t Ht. rewrite (PA i l Hi Hl), <- (PS i l Hi Hl). ring.
  - intros H. apply (fixed_span E Ss FS IE CE). intros r st Hr L Bs. destruct (H r st Hr L Bs) as (A & EA & FA).
    destruct (one_matrix (K := CC) g n k c HI HV r (W r Hr) (B r Hr)) as (A' & EA' & PA). rewrite EA in EA'. injection EA' as <-. apply (fixes_prow n A r _ PA), FA.
Qed.
(** a condition on the generators that suffices *)
Theorem same_guarded : (forall r, In r (zd (stab c)) -> in_rowspace n (zd (normal_form c)) r) ->
  (forall r s, In r (zd (stab c)) -> In s (zd (stab c)) -> Z.even (zx_dot n r s) = true) ->
  exists E, encode_krauss_operators eigh c = Ok (MA (2 ^ n) (2 ^ k) E) /\ forall psi, encoded_by n k enc psi <-> in_columns n (2 ^ k) E psi.
Proof.
  intros HR HZ. destruct encoder as (Ss & E & FS & EE & IE & FE & CE). exists E. split; [exact EE|]. apply (fixed_span E Ss FS IE CE).
  pose proof HV as (V1 & V2 & W & B & _). destruct (dims g n k c HI HV) as (Hn & Lf & Ls).
  destruct (normal_form_same_code g n k None c HI B) as (_ & _ & _ & _ & p & P & R). destruct (qubit_perm_inv n p P) as (q & HP).
  intros r st Hr L Bs. specialize (HR r Hr). apply in_rowspace_b in HR. rewrite Lf in HR. destruct HR as (a & Ha).
  intros y Hy. rewrite (span_sign h im g n k c HI HV HE st r a L Bs Ha y Hy). rewrite esign_even; [unfold sscale; cbn [sgn]; ring|].
  assert (S : forall i, (i < n - k)%nat -> inspan (brows (map (relabel n p) (zd (stab c)))) (n - k) (2 * n) (bz (normal_form c) i)).
  { intros i Hi. pose proof (proj2 (R (nth i (zd (normal_form c)) []))) as X. rewrite !in_rowspace_b, map_length, Ls, Lf in X. apply X. apply (inspan_row (brows _)). exact Hi. }
  intros i l Hi Hl. apply (span_zx n (brows (map (relabel n p) (zd (stab c)))) (n - k)); [|apply S, Hi|apply S, Hl].
  intros i' b Ha' Hb. rewrite (zxb_ext n _ (fun j => brows (zd (stab c)) i' (Gauss.lift n p j)) _ (fun j => brows (zd (stab c)) b (Gauss.lift n p j))) by (intros j Hj; apply brows_relabel; lia).
  rewrite (zxb_lift n p q _ _ HP). unfold brows. rewrite <- zx_dot_b.
  specialize (HZ (nth i' (zd (stab c)) []) (nth b (zd (stab c)) []) ltac:(apply nth_In; lia) ltac:(apply nth_In; lia)). rewrite <- Z.negb_odd in HZ. apply negb_true_iff in HZ. exact HZ.
Qed.

(** a state that a generator maps to its opposite is orthogonal to the columns *)
Theorem opposite_off (psi : @state CC) r (A : array CC) : In r (zd (stab c)) -> binary_rep_to_pauli_mat (ZM 1 (2 * n) [r]) = Ok [MA (2 ^ n) (2 ^ n) A] ->
  matrix_maps n A psi (sscale (- (1)) psi) ->
  exists E, encode_krauss_operators eigh c = Ok (MA (2 ^ n) (2 ^ k) E) /\ off_columns n (2 ^ k) E psi.
Proof.
  intros Hr EA M. destruct encoder as (Ss & E & FS & EE & IE & FE & CE). pose proof HV as (V1 & V2 & W & B & _). rewrite Forall_forall in W, B. exists E. split; [exact EE|].
  destruct (one_matrix (K := CC) g n k c HI HV r (W r Hr) (B r Hr)) as (A' & EA' & PA). rewrite EA in EA'. injection EA' as <-.
  apply (maps_prow n A r _ _ PA) in M.
  assert (X : exists S, In S Ss /\ is_pauli n (me S) r).
  { clear -FS Hr. induction FS as [|r' S' rs Ss' (_ & _ & P) F IH]; [destruct Hr|]. destruct Hr as [->|Hr]; [exists S'; split; [left; reflexivity|exact P]|].
    destruct (IH Hr) as (S & HS & P'). exists S. split; [right; exact HS|exact P']. }
  destruct X as (S & HS & PS). intros t Ht. set (phi := (fun y => E (idx y) t) : @state CC).
  assert (F : eqs n (prow n (brow r) phi) phi).
  { apply (fixes_prow n (me S) r phi PS). intros i Hi. unfold phi. rewrite idx_bits_of by exact Hi. transitivity (mm (2 ^ n) (me S) E i t); [|apply FE; assumption]. apply bsum_ext. intros l Hl. rewrite idx_bits_of by exact Hl. reflexivity. }
  assert (I : inner n phi psi = bsum (2 ^ n) (fun i => (E i t)^* * psi (bits_of n i))).
  { unfold inner. rewrite isum_bsum. apply bsum_ext. intros i Hi. unfold phi. rewrite idx_bits_of by exact Hi. reflexivity. }
  rewrite <- I. pose proof (prow_unitary h im HC n r phi psi) as U. rewrite (inner_ext n _ _ _ _ F M) in U. unfold inner, sscale in U.
  rewrite (isum_ext n _ (fun y => - (1) * ((phi y)^* * psi y))) in U by (intros y Hy; ring). rewrite isum_mul in U. fold (inner n phi psi) in U.
  destruct (inner n phi psi) as [x y]. injection U as U1 U2. apply CC_eq; cbn in *; lra.
Qed.
Lemma off_not_in m (E : array CC) (psi : @state CC) : inner n psi psi = 1 -> off_columns n m E psi -> ~ in_columns n m E psi.
Proof.
  intros N O (a & Ha). assert (Z : inner n psi psi = 0); [|rewrite N in Z; injection Z as Z; lra]. unfold inner. rewrite isum_bsum.
  rewrite (bsum_ext (2 ^ n) _ (fun i => bsum m (fun t => (a t)^* * ((E i t)^* * psi (bits_of n i))))).
  - rewrite bsum_swap. apply bsum_zero. intros t Ht. rewrite bsum_mul_l, (O t Ht). ring.
  - intros i Hi. rewrite (Ha i Hi) at 1. rewrite bsum_conj, <- bsum_mul_r. apply bsum_ext. intros t Ht. rewrite sconj_mul. ring.
Qed.

(** a generator that anticommutes with a row of normal_form *)
Lemma columns_fixed Ss E r : Forall2 (fun row S => mr S = (2 ^ n)%nat /\ mc S = (2 ^ n)%nat /\ is_pauli n (me S) row) (zd (stab c)) Ss ->
  (forall S, In S Ss -> eqm (2 ^ n) (2 ^ k) (mm (2 ^ n) (me S) E) E) -> In r (zd (stab c)) -> forall psi : @state CC, in_columns n (2 ^ k) E psi -> eqs n (prow n (brow r) psi) psi.
Proof.
  intros FS FE Hr psi (a & Ha).
  assert (X : exists S, In S Ss /\ is_pauli n (me S) r).
  { clear -FS Hr. induction FS as [|r' S' rs Ss' (_ & _ & P) F IH]; [destruct Hr|]. destruct Hr as [->|Hr]; [exists S'; split; [left; reflexivity|exact P]|].
    destruct (IH Hr) as (S & HS & P'). exists S. split; [right; exact HS|exact P']. }
  destruct X as (S & HS & PS). apply (fixes_prow n (me S) r psi PS). intros i Hi. rewrite (Ha i Hi).
  rewrite (bsum_ext (2 ^ n) _ (fun l => bsum (2 ^ k) (fun t => me S i l * E l t * a t))).
  - rewrite bsum_swap. apply bsum_ext. intros t Ht. rewrite bsum_mul_r. f_equal. exact (FE S HS i t Hi Ht).
  - intros l Hl. rewrite (Ha l Hl), <- bsum_mul_l. apply bsum_ext. intros t Ht. ring.
Qed.
Theorem disjoint r s : In r (zd (stab c)) -> In s (zd (normal_form c)) -> inner_prod r s = 1%Z ->
  exists E, encode_krauss_operators eigh c = Ok (MA (2 ^ n) (2 ^ k) E) /\
  forall psi : @state CC, encoded_by n k enc psi -> in_columns n (2 ^ k) E psi -> eqs n psi (fun _ => 0).
Proof.
  intros Hr Hs Hip. destruct encoder as (Ss & E & FS & EE & IE & FE & CE). exists E. split; [exact EE|]. intros psi (l & Hl & El) HC'.
  pose proof (columns_fixed Ss E r FS FE Hr psi HC') as F1.
  destruct (dims g n k c HI HV) as (Hn & Lf & Ls). pose proof HV as (_ & _ & W & B & _). rewrite Forall_forall in W, B.
  destruct (struct_f g n k c HI HV) as (_ & _ & OF & _). destruct (okm_spec n (n - k) _ OF) as (_ & Wf & Bf). rewrite Forall_forall in Wf, Bf.
  assert (F2 : eqs n (prow n (brow s) psi) psi).
  { apply (In_nth _ _ []) in Hs. destruct Hs as (i & Hi & <-). rewrite Lf in Hi.
    apply (eqs_trans _ _ (prow n (bz (normal_form c) i) (superpose l enc))); [apply prow_eqs, El|].
    apply (eqs_trans _ _ (superpose l enc)); [|apply eqs_sym, El]. intros y Hy. rewrite prow_superpose. unfold superpose.
    clear El. induction Hl as [|[x st] l (L & Bs) Hl IH]; [reflexivity|]. cbn [fold_right fst snd] in *. rewrite IH. f_equal. f_equal. apply (normal_fixed h im g n k c HI HV HE st i L Bs Hi y Hy). }
  pose proof (error_sign n r s psi psi (W r Hr) (Wf s Hs) (B r Hr) (Bf s Hs) Hn F1 F2) as Z. rewrite Hip in Z.
  intros y Hy. specialize (Z y Hy). rewrite (F1 y Hy) in Z. unfold sscale in Z. cbn [Z.eqb Pos.eqb sgn] in Z. destruct (psi y) as [a b]. injection Z as Z1 Z2. apply CC_eq; cbn in *; lra.
Qed.
End Same.
