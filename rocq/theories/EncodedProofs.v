(** Encoded states and the generators the code was built from (C07, C105). *)
From Verif Require Import Py ZMat CodesModel RankSpec CodesSpec BoolLin Rank Gauss Logical CodesProofs CodesProofs2
  Scalar PauliModel PauliSpec PauliProofs PauliProofs2 CircuitModel CircuitSpec CircuitProofs EncodeProofs CircuitProofs2 CircuitProofs3 CircuitProofs4 CircuitProofs5 UserOpsProofs2 EncodedSpec.
From Coq Require Import FinFun.
Open Scope nat_scope.

(** ** Relabelling *)
Lemma qubit_perm_inv n p : qubit_perm n p -> exists q, perm n p q.
Proof.
  intros [R I].
  assert (S : forall i, i < n -> exists j, j < n /\ p j = i).
  { intros i Hi. assert (In i (map p (seq 0 n))) as H.
    - apply (NoDup_length_incl (l := map p (seq 0 n)) (l' := seq 0 n)).
      + assert (G : forall m, m <= n -> NoDup (map p (seq 0 m))).
        { induction m as [|m IH]; intros Hm; [constructor|]. rewrite seq_S, map_app. cbn [map Nat.add]. apply (Permutation.Permutation_NoDup (Permutation.Permutation_cons_append _ _)). constructor; [|apply IH; lia].
          intros H. apply in_map_iff in H. destruct H as (x & E & Hx). apply in_seq in Hx. apply I in E; lia. }
        apply G. lia.
      + rewrite map_length. lia.
      + intros x Hx. apply in_map_iff in Hx. destruct Hx as (y & <- & Hy). apply in_seq in Hy. apply in_seq. specialize (R y). lia.
      + apply in_seq. lia.
    - apply in_map_iff in H. destruct H as (j & E & Hj). apply in_seq in Hj. exists j. split; [lia|exact E]. }
  exists (fun i => match find (fun j => Nat.eqb (p j) i) (seq 0 n) with Some j => j | None => 0 end). intros i Hi.
  assert (Q : forall i, i < n -> exists j, find (fun j => Nat.eqb (p j) i) (seq 0 n) = Some j /\ j < n /\ p j = i).
  { intros a Ha. destruct (find _ (seq 0 n)) as [j|] eqn:E.
    - apply find_some in E. destruct E as [E1 E2]. apply in_seq in E1. apply Nat.eqb_eq in E2. exists j. split; [reflexivity|]. split; [lia|exact E2].
    - destruct (S a Ha) as (j & Hj & Ej). pose proof (find_none _ _ E j ltac:(apply in_seq; lia)) as N. cbv beta in N. rewrite Ej, Nat.eqb_refl in N. discriminate. }
  destruct (Q i Hi) as (j & -> & Hj & Ej). destruct (Q (p i) (R i Hi)) as (l & -> & Hl & El).
  split; [apply R, Hi|]. split; [exact Hj|]. split; [exact Ej|]. apply I; assumption.
Qed.
Lemma relabel_length n p r : length (relabel n p r) = 2 * n.
Proof. unfold relabel. rewrite map_length, seq_length. reflexivity. Qed.
Lemma relabel_binary n p r : binary r -> binary (relabel n p r).
Proof. intros B. unfold relabel. apply Forall_map, Forall_forall. intros j _. apply binary_nth, B. Qed.
Theorem inner_prod_relabel n p u v : qubit_perm n p -> length u = 2 * n -> length v = 2 * n ->
  inner_prod (relabel n p u) (relabel n p v) = inner_prod u v.
Proof.
  intros P Lu Lv. destruct (qubit_perm_inv n p P) as (q & Q). rewrite !(inner_prod_ip n) by (assumption || apply relabel_length). f_equal.
  rewrite <- (ip_lift n p q (brow u) (brow v) Q). apply ip_ext; intros j Hj; apply brow_relabel; exact Hj.
Qed.

(** ** z_u . x_w over the booleans *)
Definition zxb (n : nat) (u w : nat -> bool) : bool := xsum n (fun j => u (n + j) && w j).
Lemma zx_dot_b n a b : Z.odd (zx_dot n a b) = zxb n (brow a) (brow b).
Proof. rewrite zx_dot_xsum. reflexivity. Qed.
Lemma zxb_ext n u u' w w' : (forall j, j < 2 * n -> u j = u' j) -> (forall j, j < 2 * n -> w j = w' j) -> zxb n u w = zxb n u' w'.
Proof. intros A B. apply xsum_ext. intros j Hj. rewrite A, B by lia. reflexivity. Qed.
Lemma xsum_and_l n b f : xsum n (fun j => b && f j) = b && xsum n f.
Proof. destruct b; cbn [andb]; [reflexivity|]. induction n as [|n IH]; [reflexivity|]. cbn [xsum]. rewrite IH. reflexivity. Qed.
Lemma zxb_comb_l n m a f w : zxb n (comb m a f) w = xsum m (fun i => a i && zxb n (f i) w).
Proof.
  unfold zxb, comb. induction m as [|m IH]; cbn [xsum]; [induction n as [|n IHn]; cbn [xsum]; [reflexivity|rewrite IHn; reflexivity]|].
  rewrite <- IH, <- xsum_and_l, <- xsum_xor. apply xsum_ext. intros j Hj. generalize (xsum m (fun i => a i && f i (n + j))). intros t. destruct t, (a m), (f m (n + j)), (w j); reflexivity.
Qed.
Lemma zxb_comb_r n m a f u : zxb n u (comb m a f) = xsum m (fun i => a i && zxb n u (f i)).
Proof.
  unfold zxb, comb. induction m as [|m IH]; cbn [xsum]; [rewrite (xsum_ext n _ (fun _ => false && false)) by (intros; apply andb_false_r); apply xsum_and_l|].
  rewrite <- IH, <- xsum_and_l, <- xsum_xor. apply xsum_ext. intros j Hj. generalize (xsum m (fun i => a i && f i j)). intros t. destruct t, (a m), (f m j), (u (n + j)); reflexivity.
Qed.
Lemma zxb_lift n p q u w : perm n p q -> zxb n (fun j => u (Gauss.lift n p j)) (fun j => w (Gauss.lift n p j)) = zxb n u w.
Proof.
  intros P. unfold zxb. rewrite <- (xsum_perm n p q (fun j => u (n + j) && w j) P). apply xsum_ext. intros j Hj. unfold Gauss.lift.
  destruct (Nat.ltb_spec (n + j) n); [lia|]. destruct (Nat.ltb_spec j n); [|lia]. replace (n + j - n) with j by lia. reflexivity.
Qed.

(** ** Signs of products *)
Definition esign (n m : nat) (a : nat -> bool) (f : nat -> nat -> bool) : bool := xsum m (fun i => a i && zxb n (f i) (comb i a f)).
Section Signs.
Context {K : StarRing}.
Add Ring KringES : (s_rt K).
Open Scope K_scope.
Lemma prow_product n u w (psi : @state K) : eqs n (prow n u (prow n w psi)) (sscale (sgn (zxb n u w)) (prow n (fun j => xorb (u j) (w j)) psi)).
Proof. intros y Hy. apply (pact_mul n n u _ w _ psi (le_n n) y Hy). Qed.
Lemma prow_same n u w (psi : @state K) : (forall j, (j < 2 * n)%nat -> u j = w j) -> forall y, prow n u psi y = prow n w psi y.
Proof. intros H y. apply pact_ext. intros j Hj. split; apply H; lia. Qed.
Lemma prow_none n (psi : @state K) y : prow n (fun _ => false) psi y = psi y.
Proof. apply pact_id. Qed.
Lemma prow_comb n a f (v : @state K) m : (forall i, (i < m)%nat -> eqs n (prow n (f i) v) v) ->
  eqs n (prow n (comb m a f) v) (sscale (sgn (esign n m a f)) v).
Proof.
  induction m as [|m IH]; intros H y Hy.
  - rewrite (prow_same n _ (fun _ => false)) by reflexivity. rewrite prow_none. unfold sscale. cbn. ring.
  - assert (IHm := IH (fun i Hi => H i ltac:(lia))). destruct (a m) eqn:E.
    + rewrite (prow_same n _ (fun j => xorb (f m j) (comb m a f j))) by (intros j _; unfold comb; cbn [xsum]; rewrite E; apply xorb_comm).
      assert (P := prow_product n (f m) (comb m a f) v y Hy). unfold sscale in P.
      assert (Q : prow n (f m) (prow n (comb m a f) v) y = sgn (esign n m a f) * v y).
      { rewrite (prow_eqs n (f m) _ _ IHm y Hy). unfold prow. rewrite pact_scale. f_equal. apply (H m ltac:(lia) y Hy). }
      rewrite Q in P. unfold sscale. unfold esign. cbn [xsum]. rewrite E. cbn [andb]. fold (esign n m a f). rewrite sgn_xorb.
      transitivity (sgn (zxb n (f m) (comb m a f)) * sgn (zxb n (f m) (comb m a f)) * prow n (fun j => xorb (f m j) (comb m a f j)) v y); [rewrite sgn_sq; ring|].
      transitivity (sgn (zxb n (f m) (comb m a f)) * (sgn (esign n m a f) * v y)); [rewrite P; ring|ring].
    + rewrite (prow_same n _ (comb m a f)) by (intros j _; unfold comb; cbn [xsum]; rewrite E; apply xorb_false_r).
      rewrite (IHm y Hy). unfold sscale, esign. cbn [xsum]. rewrite E. cbn [andb]. rewrite xorb_false_r. reflexivity.
Qed.
End Signs.
Lemma esign_even n m a f : (forall i l, i < m -> l < m -> zxb n (f i) (f l) = false) -> esign n m a f = false.
Proof.
  intros H. unfold esign. rewrite (xsum_ext m _ (fun i => false && false)); [rewrite xsum_and_l; reflexivity|]. intros i Hi. rewrite zxb_comb_r.
  rewrite (xsum_ext i _ (fun l => false && false)); [rewrite xsum_and_l; destruct (a i); reflexivity|]. intros l Hl. rewrite H by lia. destruct (a l); reflexivity.
Qed.
Lemma pm1_sgn {K : StarRing} m : @pm1 K m = sgn (Z.odd m).
Proof. unfold pm1. rewrite <- Z.negb_odd. destruct (Z.odd m); reflexivity. Qed.
Lemma cross_sign_b n cs rows : Z.odd (cross_sign n cs rows) = esign n (length rows) (fun i => Z.odd (nth i cs 0%Z)) (brows rows).
Proof.
  unfold cross_sign, esign. rewrite fold_add_zsum, odd_zsum. apply xsum_ext. intros i Hi.
  rewrite fold_add_zsum, odd_zsum, zxb_comb_r, <- xsum_and_l. apply xsum_ext. intros l Hl.
  rewrite !Z.odd_mul, zx_dot_b. unfold brows. rewrite andb_assoc. reflexivity.
Qed.

(** ** The encoded states *)
Section Enc.
Context {K : StarRing}.
Variables h im : K.
Open Scope K_scope.
Variables (g : gens) (n k : nat) (c : code).
Hypothesis HI : init g n k None = Ok c.
Hypothesis HV : valid_generators n k (zd (stab c)).
Hypothesis HE : Forall (fun row => Nat.even (y_count n row) = true) (zd (stab c)).
Hypothesis HC : qubit_constants h im.

Lemma normal_fixed st i : length st = k -> binary st -> i < n - k -> eqs n (prow n (bz (normal_form c) i) (encode h im n c st)) (encode h im n c st).
Proof.
  intros L B Hi. destruct (struct_f g n k c HI HV) as (Hk & Hr & OF & U & Lx & V & Cm & Zs). pose proof (encode_enc h im g n k c HI HV st L B) as E.
  apply (eqs_trans n _ (prow n (bz (normal_form c) i) (enc h n k (n - k) (crank c) (bz (normal_form c)) (mbit st)))); [apply prow_eqs; exact E|].
  apply (eqs_trans n _ (enc h n k (n - k) (crank c) (bz (normal_form c)) (mbit st))); [|apply eqs_sym, E].
  apply (enc_stabilized h n k (n - k) (crank c) (bz (normal_form c))); try (assumption || reflexivity). apply (even_f g n k c HI HV HE).
Qed.
Lemma dims : (1 <= n)%nat /\ length (zd (normal_form c)) = (n - k)%nat /\ length (zd (stab c)) = (n - k)%nat.
Proof.
  destruct (struct_f g n k c HI HV) as (Hk & Hr & OF & _). destruct (okm_spec n (n - k) _ OF) as (L & _). destruct HV as (P & S & _). lia.
Qed.
Lemma one_matrix row : length row = (2 * n)%nat -> binary row -> exists A : array K,
  binary_rep_to_pauli_mat (ZM 1 (2 * n) [row]) = Ok [MA (2 ^ n) (2 ^ n) A] /\ is_pauli n A row.
Proof.
  intros L B. destruct dims as (Hn & _).
  destruct (rowmats (K := K) n [row]) as (Ss & ES & F); [exact Hn|constructor; [exact L|constructor]|constructor; [exact B|constructor]|].
  inversion F as [|? S ? ? (R & C & P) F2 E1 E3]. inversion F2. subst. exists (me S). split; [|exact P].
  unfold binary_rep_to_pauli_mat. cbn [zc zd]. rewrite CodesProofs.div2_double, ES. destruct S as [sr sc se]. cbn [mr mc me] in *. rewrite R, C. reflexivity.
Qed.
Lemma span_sign st row a : length st = k -> binary st -> (forall j, (j < 2 * n)%nat -> brow row j = comb (n - k) a (bz (normal_form c)) j) ->
  eqs n (prow n (brow row) (encode h im n c st)) (sscale (sgn (esign n (n - k) a (bz (normal_form c)))) (encode h im n c st)).
Proof.
  intros L B E y Hy. rewrite (prow_same n _ _ _ E). apply prow_comb; [|exact Hy]. intros i Hi. apply normal_fixed; assumption.
Qed.

Theorem sign_of_row st row cs : length st = k -> binary st -> length row = (2 * n)%nat -> binary row -> length cs = (n - k)%nat ->
  (forall j, (j < 2 * n)%nat -> (2 | nth j row 0 - lcomb cs (zd (normal_form c)) j)%Z) ->
  exists A : array K, binary_rep_to_pauli_mat (ZM 1 (2 * n) [row]) = Ok [MA (2 ^ n) (2 ^ n) A] /\
    matrix_maps n A (encode h im n c st) (sscale (pm1 (cross_sign n cs (zd (normal_form c)))) (encode h im n c st)).
Proof.
  intros L B Lr Br Lc H. destruct dims as (Hn & Lf & _). destruct (one_matrix row Lr Br) as (A & EA & P). exists A. split; [exact EA|].
  apply (maps_prow n A row _ _ P). rewrite pm1_sgn, cross_sign_b, Lf. apply span_sign; [assumption|assumption|]. intros j Hj.
  specialize (H j Hj). rewrite divide2_odd, Z.odd_sub, odd_lcomb, Lf in H by lia. apply xorb_eq in H. exact H.
Qed.
Theorem up_to_sign : exists p, qubit_perm n p /\ (forall v, in_rowspace n (map (relabel n p) (zd (stab c))) v <-> in_rowspace n (zd (normal_form c)) v) /\
  forall r, In r (zd (stab c)) -> exists (A : array K) e, binary_rep_to_pauli_mat (ZM 1 (2 * n) [relabel n p r]) = Ok [MA (2 ^ n) (2 ^ n) A] /\
    forall st, length st = k -> binary st -> matrix_maps n A (encode h im n c st) (sscale (sgn e) (encode h im n c st)).
Proof.
  pose proof HV as (_ & _ & W & B & _). destruct (normal_form_same_code g n k None c HI B) as (_ & _ & _ & _ & p & P & R). exists p. split; [exact P|]. split; [exact R|].
  intros r Hr. rewrite Forall_forall in B. destruct (one_matrix (relabel n p r) (relabel_length n p r) (relabel_binary n p r (B r Hr))) as (A & EA & PA).
  assert (I : in_rowspace n (zd (normal_form c)) (relabel n p r)).
  { apply R. apply in_rowspace_b. apply (in_map (relabel n p)) in Hr. apply (In_nth _ _ []) in Hr. destruct Hr as (i & Hi & <-). apply (inspan_row (brows _)), Hi. }
  apply in_rowspace_b in I. destruct dims as (_ & Lf & _). rewrite Lf in I. destruct I as (a & Ha).
  exists A, (esign n (n - k) a (bz (normal_form c))). split; [exact EA|]. intros st L Bs. apply (maps_prow n A _ _ _ PA). apply span_sign; assumption.
Qed.
Lemma span_zx (f : nat -> nat -> bool) m u w : (forall i l, i < m -> l < m -> zxb n (f i) (f l) = false) -> inspan f m (2 * n) u -> inspan f m (2 * n) w -> zxb n u w = false.
Proof.
  intros H (a & Ha) (b & Hb). rewrite (zxb_ext n u (comb m a f) w (comb m b f)) by assumption. rewrite zxb_comb_l.
  rewrite (xsum_ext m _ (fun i => false && false)); [rewrite xsum_and_l; reflexivity|]. intros i Hi. rewrite zxb_comb_r.
  rewrite (xsum_ext m (fun l => b l && _) (fun l => false && false)); [rewrite xsum_and_l; destruct (a i); reflexivity|]. intros l Hl. rewrite H by assumption. destruct (b l); reflexivity.
Qed.
Theorem fixed_guarded : (forall r s, In r (zd (stab c)) -> In s (zd (stab c)) -> Z.even (zx_dot n r s) = true) ->
  exists p, qubit_perm n p /\ (forall v, in_rowspace n (map (relabel n p) (zd (stab c))) v <-> in_rowspace n (zd (normal_form c)) v) /\
  forall r, In r (zd (stab c)) -> exists A : array K, binary_rep_to_pauli_mat (ZM 1 (2 * n) [relabel n p r]) = Ok [MA (2 ^ n) (2 ^ n) A] /\
    forall st, length st = k -> binary st -> matrix_fixes n A (encode h im n c st).
Proof.
  intros HZ. pose proof HV as (_ & _ & W & B & _). destruct (normal_form_same_code g n k None c HI B) as (_ & _ & _ & _ & p & P & R). exists p. split; [exact P|]. split; [exact R|].
  destruct (qubit_perm_inv n p P) as (q & Q). destruct dims as (_ & Lf & Ls).
  assert (N : forall i l, i < n - k -> l < n - k -> zxb n (bz (normal_form c) i) (bz (normal_form c) l) = false).
  { assert (S : forall i, i < n - k -> inspan (brows (map (relabel n p) (zd (stab c)))) (n - k) (2 * n) (bz (normal_form c) i)).
    { intros i Hi. pose proof (proj2 (R (nth i (zd (normal_form c)) []))) as X. rewrite !in_rowspace_b, map_length, Ls, Lf in X. apply X. apply (inspan_row (brows _)). exact Hi. }
    intros i l Hi Hl. apply (span_zx (brows (map (relabel n p) (zd (stab c)))) (n - k)); [|apply S, Hi|apply S, Hl].
    intros a b Ha Hb. rewrite (zxb_ext n _ (fun j => brows (zd (stab c)) a (Gauss.lift n p j)) _ (fun j => brows (zd (stab c)) b (Gauss.lift n p j))) by (intros j Hj; apply brows_relabel; lia).
    rewrite (zxb_lift n p q _ _ Q). unfold brows. rewrite <- zx_dot_b.
    specialize (HZ (nth a (zd (stab c)) []) (nth b (zd (stab c)) []) ltac:(apply nth_In; lia) ltac:(apply nth_In; lia)). rewrite <- Z.negb_odd in HZ. apply negb_true_iff in HZ. exact HZ. }
  intros r Hr. rewrite Forall_forall in B. destruct (one_matrix (relabel n p r) (relabel_length n p r) (relabel_binary n p r (B r Hr))) as (A & EA & PA). exists A. split; [exact EA|].
  assert (I : in_rowspace n (zd (normal_form c)) (relabel n p r)).
  { apply R. apply in_rowspace_b. apply (in_map (relabel n p)) in Hr. apply (In_nth _ _ []) in Hr. destruct Hr as (i & Hi & <-). apply (inspan_row (brows _)), Hi. }
  apply in_rowspace_b in I. rewrite Lf in I. destruct I as (a & Ha). intros st L Bs. apply (fixes_prow n A _ _ PA).
  intros y Hy. rewrite (span_sign st (relabel n p r) a L Bs Ha y Hy), (esign_even n (n - k) a _ N). unfold sscale. cbn [sgn]. apply (s_rt K).
Qed.
End Enc.

(** separate X-type and Z-type generators *)
Lemma css_even n rows : Forall (fun r => length r = 2 * n) rows -> all_commute n rows -> Forall (css_row n) rows ->
  forall r s, In r rows -> In s rows -> Z.even (zx_dot n r s) = true.
Proof.
  intros W C X r s Hr Hs. rewrite Forall_forall in X, W. rewrite <- Z.negb_odd, negb_true_iff, zx_dot_b. unfold zxb.
  assert (Z0 : forall f, (forall j, j < n -> f j = false) -> xsum n f = false).
  { intros f H. rewrite (xsum_ext n f (fun _ => false && false)) by exact H. rewrite xsum_and_l. reflexivity. }
  destruct (X r Hr) as [Zr|Xr]; [apply Z0; intros j Hj; unfold brow; rewrite Zr by exact Hj; reflexivity|].
  destruct (X s Hs) as [Zs|Xs]; [|apply Z0; intros j Hj; unfold brow; rewrite Xs by exact Hj; apply andb_false_r].
  pose proof (proj1 (commute_ip n r s) (C r s Hr Hs)) as I. unfold ip in I. rewrite <- I. apply xsum_ext. intros j Hj. unfold brow. rewrite (Xr j Hj). cbn [Z.odd andb]. symmetry. apply xorb_false_l.
Qed.
Lemma css_even_ys n rows : Forall binary rows -> Forall (css_row n) rows -> Forall (fun r => Nat.even (y_count n r) = true) rows.
Proof.
  intros _ X. eapply Forall_impl; [|exact X]. intros r H. unfold y_count.
  rewrite (filter_ext_in _ (fun _ => false)); [induction (seq 0 n); [reflexivity|assumption]|]. intros j Hj. apply in_seq in Hj.
  destruct H as [H|H]; rewrite H by lia; [apply andb_false_r|reflexivity].
Qed.
