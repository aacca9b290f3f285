(** The exchange matrix: entries, positivity, its adjoint, the blocks. *)
From Verif Require Import Py Scalar PauliModel PauliSpec KrausModel KrausSpec KrausProofs KrausProofs2 KrausProofs3 KrausProofs4 KrausProofs5 ChoiModel ChannelModel ChannelSpec.
Open Scope nat_scope.

Section E.
Context {K : StarRing}.
Add Ring Kr7 : (s_rt K).
Implicit Types (o : kraus K) (t : ten3 K).

Lemma same_nth (l m : list (marr K)) i : same_ops l m -> i < length l -> same_mat (nth i l one_by_one) (nth i m one_by_one).
Proof.
  intros H. revert i. induction H as [|A B l m E H IH]; intros i Hi; [cbn in Hi; lia|]. destruct i as [|i]; [exact E|]. apply IH. cbn in Hi. lia.
Qed.
Lemma same_len (l m : list (marr K)) : same_ops l m -> length l = length m.
Proof. induction 1; cbn; congruence. Qed.
Lemma nth_fits r c (l : list (marr K)) i : fits r c l -> i < length l -> mr (nth i l one_by_one) = r /\ mc (nth i l one_by_one) = c.
Proof. intros F H. apply (in_fits r c l); [exact F|apply nth_In, H]. Qed.
Lemma exchange_entry_same r c (l m : list (marr K)) rho rho' i j : fits r c l -> same_ops l m -> eqm c c rho rho' -> i < length l -> j < length l ->
  exchange_entry l rho i j = exchange_entry m rho' i j.
Proof.
  intros F H E Hi Hj. destruct (same_nth l m i H Hi) as (A1 & A2 & A3). destruct (same_nth l m j H Hj) as (B1 & B2 & B3).
  destruct (nth_fits r c l i F Hi) as [F1 F2]. destruct (nth_fits r c l j F Hj) as [G1 G2]. unfold exchange_entry. cbv zeta.
  rewrite <- A1, <- A2. rewrite F1, F2 in *. rewrite G1, G2 in *. apply bsum_ext. intros x Hx. apply mm_ext; intros k Hk.
  - apply mm_ext; intros y Hy; [apply A3|apply E]; assumption.
  - unfold adj. rewrite B3 by assumption. reflexivity.
Qed.
Lemma power_len (l : list (marr K)) n : length (power_ops l n) = length l ^ n.
Proof.
  induction n as [|n IH]; [reflexivity|]. cbn [power_ops Nat.pow]. unfold tens_ops. rewrite <- IH. generalize (power_ops l n). intros m. clear IH.
  induction l as [|A l IHl]; [reflexivity|]. cbn [flat_map length]. rewrite app_length, map_length, IHl. reflexivity.
Qed.

(** ** the single matrix *)
Theorem exchange_run sp a nq din dout orthogonal o0 past n rho :
  kraus_init sp a nq din dout orthogonal = Ok o0 -> arg_matrices a <> [] -> sp = true \/ orthogonal = [] ->
  Forall (fun m => 1 <= m) past -> 1 <= n -> clean sp past n -> is_square ((din ^ fst nq) ^ n) rho ->
  exists W, snd (chan_exchange (after (KrausType o0) past) rho n) = Ok [W] /\ is_square (length (arg_matrices a) ^ n) W /\
    eqm (mr W) (mc W) (me W) (exchange_entry (power_ops (arg_matrices a) n) (me rho)).
Proof.
  intros H NE OR HP Hn CL SQ. destruct (made _ _ _ _ _ _ _ H NE) as (S & SP & SL & F & E0 & E1 & E2 & EN & EO). subst sp.
  destruct (at_canon o0 past n HP Hn S CL) as (o & E & AT). rewrite E. cbn [chan_exchange]. rewrite AT. cbn [snd].
  destruct (power3_dims (kraus_ops o0) n Hn) as (D0 & D1 & D2).
  destruct (exchange_value (power3 (kraus_ops o0) n) rho) as (W & EW & QW & V); [rewrite D2, E2; exact SQ|].
  exists W. unfold entropy_exchange. cbn [canon sparse orth nth_exch]. 
  assert (OO : (sparse o0 || Nat.eqb (length (orth o0)) 0)%bool = true) by (rewrite EO; destruct OR as [->| ->]; [reflexivity|apply orb_true_r]).
  rewrite OO, EW. cbn [bind]. split; [reflexivity|]. rewrite D0, E0 in QW. split; [exact QW|]. destruct QW as [Q1 Q2]. rewrite Q1, Q2. intros i j Hi Hj.
  rewrite D0, E0 in V. rewrite V by assumption. rewrite <- SL. 
  apply (exchange_entry_same ((dout ^ snd nq) ^ n) ((din ^ fst nq) ^ n)); [|apply slices_power, Hn|apply eqm_refl|rewrite slices_len, D0, E0; assumption..].
  pose proof (fits_slices (power3 (kraus_ops o0) n)) as FS. rewrite D1, D2, E1, E2 in FS. exact FS.
Qed.

(** ** algebra of exchange entries *)
Open Scope K_scope.
Lemma exchange_hermitian r c l rho : fits r c l -> hermitian c rho -> hermitian (length l) (exchange_entry (K := K) l rho).
Proof.
  intros F H i j Hi Hj. unfold adj, exchange_entry. cbv zeta. destruct (nth_fits r c l i F Hi) as [F1 F2]. destruct (nth_fits r c l j F Hj) as [G1 G2]. rewrite F1, F2, G1, G2.
  unfold tr. rewrite bsum_conj. apply bsum_ext. intros x Hx.
  change (mm c (mm c (me (nth j l one_by_one)) rho) (adj (me (nth i l one_by_one))) x x)^* with (adj (mm c (mm c (me (nth j l one_by_one)) rho) (adj (me (nth i l one_by_one)))) x x).
  rewrite adj_mm. rewrite mm_assoc. apply mm_ext; intros k Hk; [apply adj_adj|]. rewrite adj_mm. apply mm_ext; intros y Hy; [apply H; assumption|reflexivity].
Qed.
Lemma bsum_ksum_nth {A} (l : list A) (d : A) (f : A -> K) : bsum (length l) (fun i => f (nth i l d)) = ksum (map f l).
Proof.
  rewrite <- ksum_seq. f_equal. rewrite <- (map_map (fun i => nth i l d) f). f_equal.
  induction l as [|x l IH]; [reflexivity|]. cbn [length seq map nth]. f_equal. rewrite <- seq_shift, map_map. exact IH.
Qed.
Lemma exchange_trace r c (l : list (marr K)) (rho : array K) : fits r c l -> tr (length l) (exchange_entry l rho) = tr r (channel_map l rho).
Proof.
  intros F. unfold tr at 1, exchange_entry. cbv zeta.
  rewrite (bsum_ksum_nth l one_by_one (fun A => tr (mr A) (mm (mc A) (mm (mc A) (me A) rho) (adj (me A))))). unfold channel_map. rewrite tr_ksum.
  apply ksum_ext. intros A HA. destruct (in_fits _ _ _ _ F HA) as [-> ->]. reflexivity.
Qed.
Lemma exchange_dual r c (l : list (marr K)) (A rho : array K) : fits r c l ->
  tr (length l) (mm (length l) A (exchange_entry l rho)) = tr c (mm c (exchange_adjoint l A) rho).
Proof.
  intros F.
  transitivity (bsum (length l) (fun i => bsum (length l) (fun j => A i j * tr c (mm c (mm r (adj (me (nth i l one_by_one))) (me (nth j l one_by_one))) rho)))).
  - unfold tr at 1. apply bsum_ext. intros i Hi. unfold mm at 1. apply bsum_ext. intros j Hj. f_equal. unfold exchange_entry. cbv zeta.
    destruct (nth_fits r c l i F Hi) as [F1 F2]. destruct (nth_fits r c l j F Hj) as [G1 G2]. rewrite G1, G2. rewrite tr_mm.
    apply tr_eqm. intros x y _ _. symmetry. apply mm_assoc.
  - unfold tr. symmetry. 
    transitivity (bsum c (fun x => bsum (length l) (fun i => bsum (length l) (fun j => A i j * mm c (mm r (adj (me (nth i l one_by_one))) (me (nth j l one_by_one))) rho x x)))).
    + apply bsum_ext. intros x Hx. unfold mm at 1, exchange_adjoint.
      transitivity (bsum c (fun k => bsum (length l) (fun i => bsum (length l) (fun j => A i j * (mm r (adj (me (nth i l one_by_one))) (me (nth j l one_by_one)) x k * rho k x))))).
      * apply bsum_ext. intros k Hk. rewrite <- bsum_mul_r. apply bsum_ext. intros i Hi. rewrite <- bsum_mul_r. apply bsum_ext. intros j Hj.
        rewrite (proj1 (nth_fits r c l i F Hi)). ring.
      * rewrite bsum_swap. apply bsum_ext. intros i Hi. rewrite bsum_swap. apply bsum_ext. intros j Hj. rewrite bsum_mul_l. reflexivity.
    + rewrite bsum_swap. apply bsum_ext. intros i Hi. rewrite bsum_swap. apply bsum_ext. intros j Hj. rewrite bsum_mul_l. reflexivity.
Qed.
Lemma exchange_adjoint_eye r c (l : list (marr K)) : fits r c l -> eqm c c (exchange_adjoint l eye) (gram l).
Proof.
  intros F k m Hk Hm. unfold exchange_adjoint, gram.
  rewrite <- (bsum_ksum_nth l one_by_one (fun A => mm (mr A) (adj (me A)) (me A) k m)). apply bsum_ext. intros i Hi.
  rewrite (bsum_one _ i) by (try assumption; intros j Hj N; unfold eye; rewrite (proj2 (Nat.eqb_neq i j)) by congruence; ring).
  unfold eye. rewrite Nat.eqb_refl. ring.
Qed.
Lemma exchange_adjoint_same r c (l m : list (marr K)) (A A' : array K) : fits r c l -> same_ops l m -> eqm (length l) (length l) A A' ->
  eqm c c (exchange_adjoint l A) (exchange_adjoint m A').
Proof.
  intros F H E x y Hx Hy. unfold exchange_adjoint. rewrite <- (same_len l m H). apply bsum_ext. intros i Hi. apply bsum_ext. intros j Hj.
  rewrite E by assumption. f_equal. destruct (same_nth l m i H Hi) as (A1 & A2 & A3). destruct (same_nth l m j H Hj) as (B1 & B2 & B3).
  destruct (nth_fits r c l i F Hi) as [F1 F2]. destruct (nth_fits r c l j F Hj) as [G1 G2]. rewrite <- A1, F1. rewrite F1, F2 in A3. rewrite G1, G2 in B3.
  apply mm_ext; intros k Hk; [unfold adj; f_equal; apply A3|apply B3]; assumption.
Qed.
Close Scope K_scope.
Theorem exchange_adjoint_run sp a nq din dout orthogonal o0 past n (A : marr K) :
  kraus_init sp a nq din dout orthogonal = Ok o0 -> arg_matrices a <> [] ->
  Forall (fun m => 1 <= m) past -> 1 <= n -> clean sp past n -> is_square (length (arg_matrices a) ^ n) A ->
  exists out, snd (chan_exchange_adjoint (after (KrausType o0) past) A n) = Ok out /\
    same_mat out (MA ((din ^ fst nq) ^ n) ((din ^ fst nq) ^ n) (exchange_adjoint (power_ops (arg_matrices a) n) (me A))).
Proof.
  intros H NE HP Hn CL [Q1 Q2]. destruct (made _ _ _ _ _ _ _ H NE) as (S & SP & SL & F & E0 & E1 & E2 & EN & EO). subst sp.
  destruct (at_canon o0 past n HP Hn S CL) as (o & E & AT). rewrite E. cbn [chan_exchange_adjoint]. rewrite AT. cbn [snd].
  destruct (power3_dims (kraus_ops o0) n Hn) as (D0 & D1 & D2).
  unfold entropy_exchange_adjoint. cbn [canon sparse nth_exch numb_kraus exch3 swap12 u0 u1 u2 u3 ctrans t0 t1 t2]. rewrite EN, D0, E0, Q1, Q2.
  replace (if sparse o0 then length (arg_matrices a) ^ n else length (arg_matrices a) ^ n) with (length (arg_matrices a) ^ n) by (destruct (sparse o0); reflexivity).
  rewrite !Nat.eqb_refl. cbn [andb]. eexists. split; [reflexivity|]. rewrite D2, E2. split; [reflexivity|]. split; [reflexivity|]. cbn [mr mc me]. intros k m Hk Hm.
  pose proof (fits_slices (power3 (kraus_ops o0) n)) as FS. rewrite D1, D2, E1, E2 in FS.
  assert (L : length (slices (power3 (kraus_ops o0) n)) = length (arg_matrices a) ^ n) by (rewrite slices_len, D0, E0; reflexivity).
  transitivity (exchange_adjoint (slices (power3 (kraus_ops o0) n)) (me A) k m).
  - unfold exchange_adjoint. rewrite L. apply bsum_ext. intros i Hi. apply bsum_ext. intros j Hj. rewrite !nth_slices by (rewrite D0, E0; assumption).
    unfold exch3, swap12. cbn [ue slice0 mr me te ctrans]. unfold mm, adj. ring.
  - rewrite <- SL. apply (exchange_adjoint_same ((dout ^ snd nq) ^ n) ((din ^ fst nq) ^ n)); try assumption; [apply slices_power, Hn|apply eqm_refl].
Qed.
End E.

(** ** positivity *)
Section P.
Open Scope K_scope.
Add Ring Kr8 : (s_rt CC).
Lemma psd_diag d (A : array CC) i : psd d A -> (i < d)%nat -> nonneg (A i i).
Proof.
  intros H Hi. destruct (H (fun k => if Nat.eqb k i then 1 else 0)) as (x & Hx & E). exists x. split; [exact Hx|]. rewrite <- E. symmetry.
  rewrite (bsum_one _ i) by (try assumption; intros k Hk N; apply bsum_zero; intros j Hj; rewrite (proj2 (Nat.eqb_neq k i)) by assumption; rewrite sconj_0; ring).
  rewrite (bsum_one _ i) by (try assumption; intros j Hj N; rewrite (proj2 (Nat.eqb_neq j i)) by assumption; ring).
  rewrite Nat.eqb_refl, sconj_1. ring.
Qed.
Lemma psd_trace d (A : array CC) : psd d A -> nonneg (tr d A).
Proof. intros H. apply nonneg_bsum. intros i Hi. apply (psd_diag d); assumption. Qed.
Lemma exchange_psd r c l rho : fits r c l -> psd c rho -> psd (length l) (exchange_entry l rho).
Proof.
  intros F H v. set (L := MA r c (fun x y => bsum (length l) (fun i => (v i)^* * me (nth i l one_by_one) x y)) : marr CC).
  assert (N : nonneg (tr r (channel_map [L] rho))).
  { apply psd_trace. apply (channel_psd r c); [repeat constructor|exact H]. }
  destruct N as (x & Hx & E). exists x. split; [exact Hx|]. rewrite <- E. clear E Hx x. symmetry.
  unfold channel_map. cbn [map L mr mc me].
  transitivity (bsum r (fun x => bsum (length l) (fun i => bsum (length l) (fun j => (v i)^* * mm c (mm c (me (nth i l one_by_one)) rho) (adj (me (nth j l one_by_one))) x x * v j)))).
  - apply bsum_ext. intros x Hx. rewrite ksum_cons, ksum_nil.
    transitivity (bsum c (fun k => bsum (length l) (fun i => bsum (length l) (fun j => (v i)^* * (mm c (me (nth i l one_by_one)) rho x k * adj (me (nth j l one_by_one)) k x) * v j)))).
    + transitivity (mm c (mm c (fun x y => bsum (length l) (fun i => (v i)^* * me (nth i l one_by_one) x y)) rho) (adj (fun x y => bsum (length l) (fun i => (v i)^* * me (nth i l one_by_one) x y))) x x); [unfold mm; ring|].
      unfold mm at 1. apply bsum_ext. intros k Hk.
      assert (P1 : mm c (fun x y => bsum (length l) (fun i => (v i)^* * me (nth i l one_by_one) x y)) rho x k = bsum (length l) (fun i => (v i)^* * mm c (me (nth i l one_by_one)) rho x k)).
      { unfold mm. transitivity (bsum c (fun y => bsum (length l) (fun i => (v i)^* * (me (nth i l one_by_one) x y * rho y k)))).
        - apply bsum_ext. intros y _. rewrite <- bsum_mul_r. apply bsum_ext. intros i _. ring.
        - rewrite bsum_swap. apply bsum_ext. intros i _. rewrite bsum_mul_l. reflexivity. }
      assert (P2 : adj (fun x y => bsum (length l) (fun i => (v i)^* * me (nth i l one_by_one) x y)) k x = bsum (length l) (fun j => adj (me (nth j l one_by_one)) k x * v j)).
      { unfold adj. rewrite bsum_conj. apply bsum_ext. intros j _. rewrite sconj_mul, sconj_conj. ring. }
      rewrite P1, P2. rewrite <- bsum_mul_r. apply bsum_ext. intros i _. rewrite <- bsum_mul_l. apply bsum_ext. intros j _. ring.
    + rewrite bsum_swap. apply bsum_ext. intros i _. rewrite bsum_swap. apply bsum_ext. intros j _. unfold mm at 2.
      rewrite <- bsum_mul_l, <- bsum_mul_r. apply bsum_ext. intros k _. reflexivity.
  - rewrite bsum_swap. apply bsum_ext. intros i Hi. rewrite bsum_swap. apply bsum_ext. intros j Hj. unfold exchange_entry. cbv zeta.
    destruct (nth_fits r c l i F Hi) as [F1 F2]. rewrite F1, F2. unfold tr. rewrite <- bsum_mul_l, <- bsum_mul_r. reflexivity.
Qed.
End P.
