(** The fidelity of states: products, the extreme values, and the entanglement fidelity. *)
From Verif Require Import Py Scalar PauliModel PauliSpec EncoderProofs EighExists Spectral SpectralProofs PowerSums KrausModel KrausSpec KrausProofs KrausProofs2 KrausProofs5 KrausProofs6 KrausProofs8
  ChoiModel ChannelModel ChannelSpec ChoiSpec ChoiProofs ChoiProofs2 ChoiProofs3 ParamSpec Sqrt EntropyProofs EntropySpec Subadd CohProofs CohProofs2 CohProofs4 FidelitySpec KrausProofs12.
From Coq Require Import Reals Lra.
Open Scope nat_scope.
Open Scope K_scope.
Add Ring CCring56 : (s_rt CC).

(** ** The relation *)
Lemma fid_unique d rho sigma x y : fidelity d rho sigma x -> fidelity d rho sigma y -> x = y.
Proof.
  intros (r & s & R1 & S1 & T1) (r' & s' & R2 & S2 & T2). pose proof (square_root_unique d _ _ _ R1 R2) as ER.
  assert (S2' : square_root d (mm d (mm d r sigma) r) s').
  { destruct S2 as (H & P & E). split; [exact H|]. split; [exact P|]. eapply eqm_trans; [exact E|]. intros i j Hi Hj. apply mm_ext; intros k Hk; [|symmetry; apply ER; assumption]. apply mm_ext; intros l Hl; [symmetry; apply ER; assumption|reflexivity]. }
  pose proof (square_root_unique d _ _ _ S1 S2') as ES. apply (f_equal fst) in T1. apply (f_equal fst) in T2. cbn [fst] in T1, T2. rewrite <- T1, <- T2, (tr_eqm d _ _ ES). reflexivity.
Qed.
Lemma root_ext d A B S : eqm d d A B -> square_root d A S -> square_root d B S.
Proof. intros E (H & P & Q). split; [exact H|]. split; [exact P|]. exact (eqm_trans _ _ _ _ _ Q E). Qed.
Lemma root_ext2 d A S T : eqm d d S T -> square_root d A S -> square_root d A T.
Proof.
  intros E (H & P & Q). split; [exact (hermitian_ext _ _ _ E H)|]. split; [exact (psd_ext _ _ _ E P)|]. eapply eqm_trans; [|exact Q]. intros i j Hi Hj. apply mm_ext; intros k Hk; symmetry; apply E; assumption.
Qed.
Lemma fid_ext d rho rho' sigma sigma' x : eqm d d rho rho' -> eqm d d sigma sigma' -> fidelity d rho sigma x -> fidelity d rho' sigma' x.
Proof.
  intros E1 E2 (r & s & R1 & S1 & T1). exists r, s. split; [exact (root_ext _ _ _ _ E1 R1)|]. split; [|exact T1]. apply (root_ext _ (mm d (mm d r sigma) r)); [|exact S1].
  intros i j Hi Hj. apply mm_ext; [|reflexivity]. intros k Hk. apply mm_ext; [reflexivity|]. intros l Hl. apply E2; assumption.
Qed.
Lemma root_kf d d' A B S T : square_root d A S -> square_root d' B T -> square_root (d * d') (kf d' d' A B) (kf d' d' S T).
Proof.
  intros (HS & PS & ES) (HT & PT & ET). assert (P : psd (d * d') (kf d' d' S T)) by (apply psd_kf; assumption). split; [apply psd_hermitian; exact P|]. split; [exact P|].
  intros i j Hi Hj. rewrite mm_kf. apply (kf_ext d d' d d'); assumption.
Qed.
Lemma fid_kf d d' A B A' B' x y : fidelity d A B x -> fidelity d' A' B' y -> fidelity (d * d') (kf d' d' A A') (kf d' d' B B') (x * y).
Proof.
  intros (r & s & R1 & S1 & T1) (r' & s' & R2 & S2 & T2). exists (kf d' d' r r'), (kf d' d' s s'). split; [apply root_kf; assumption|]. split.
  - apply (root_ext _ (kf d' d' (mm d (mm d r B) r) (mm d' (mm d' r' B') r'))); [|apply root_kf; assumption]. intros i j Hi Hj. rewrite <- (mm_kf d d' d' d'). apply mm_ext; [|reflexivity]. intros k Hk. symmetry. apply mm_kf.
  - rewrite tr_kf, T1, T2. apply CC_eq; cbn; ring.
Qed.
Lemma fid_one A B : A 0%nat 0%nat = 1 -> B 0%nat 0%nat = 1 -> fidelity 1 A B 1.
Proof.
  intros EA EB. assert (Q : forall C : array CC, C 0%nat 0%nat = 1 -> square_root 1 C eye).
  { intros C EC. split; [|split].
    - intros i j _ _. apply adj_eye.
    - apply (psd_ext _ (mm 1 eye (adj eye))); [|apply psd_outer]. intros i j Hi Hj. rewrite (mm_congr_r 1 _ (adj eye) eye) by (intros; apply adj_eye). apply mm_eye_l, Hi.
    - intros i j Hi Hj. replace i with 0%nat by lia. replace j with 0%nat by lia. rewrite EC. unfold mm, eye. cbn. apply CC_eq; cbn; ring. }
  exists eye, eye. split; [apply Q, EA|]. split; [apply Q; unfold mm, eye; cbn [bsum Nat.eqb]; rewrite EB; ring|]. unfold tr, eye. cbn. apply CC_eq; cbn; ring.
Qed.
Lemma fid_list D ops rhos xs : fits D D ops -> Forall2 (fun rho x => is_square D rho /\ fidelity D (me rho) (channel_map ops (me rho)) x) rhos xs ->
  fidelity (D ^ length rhos) (me (tens_all rhos)) (channel_map (power_ops ops (length rhos)) (me (tens_all rhos))) (reals_prod xs).
Proof.
  intros F H. induction H as [|rho x rhos xs [[Q1 Q2] E] H IH].
  - cbn [length Nat.pow power_ops]. apply fid_one; [reflexivity|]. cbn [tens_all fold_right]. unfold channel_map. cbn [map]. rewrite ksum_cons, ksum_nil. unfold mm, adj, one_by_one. cbn [mr mc me bsum]. rewrite sconj_1. ring.
  - assert (SS : Forall (is_square D) rhos) by (clear -H; induction H as [|? ? ? ? [? _]]; constructor; assumption).
    destruct (tens_all_dims D rhos SS) as [D1 D2]. cbn [length]. set (n := length rhos) in *. change (tens_all (rho :: rhos)) with (tens rho (tens_all rhos)). cbn [power_ops Nat.pow reals_prod fold_right].
    assert (FP : fits (D ^ n) (D ^ n) (power_ops ops n)) by (apply fits_power, F).
    assert (K : eqm (D * D ^ n) (D * D ^ n) (me (tens rho (tens_all rhos))) (kf (D ^ n) (D ^ n) (me rho) (me (tens_all rhos)))) by (intros i j _ _; rewrite me_tens, D1, D2; reflexivity).
    assert (FT : fits (D * D ^ n) (D * D ^ n) (tens_ops ops (power_ops ops n))) by (apply fits_tens; assumption).
    pose proof (fid_kf _ _ _ _ _ _ _ _ E IH) as G. revert G. apply fid_ext; [apply eqm_sym, K|].
    intros i j Hi Hj. rewrite (channel_map_same (D * D ^ n) (D * D ^ n) _ _ _ _ FT (same_ops_refl _) K i j Hi Hj). symmetry. apply (channel_tens D D (D ^ n) (D ^ n)); assumption.
Qed.
Lemma fid_extremes d rho sigma x : density d rho -> density d sigma -> fidelity d rho sigma x ->
  (0 <= x <= 1)%R /\ (x = 1%R <-> eqm d d sigma rho) /\ (x = 0%R <-> orthogonal_states d rho sigma).
Proof.
  intros Dr Ds (r & s & R1 & S1 & T1). split; [|split; split].
  - destruct (fidelity_bound d rho sigma r s Dr Ds R1 S1) as (y & Ey & By). rewrite T1 in Ey. apply (f_equal fst) in Ey. cbn in Ey. subst y. exact By.
  - intros ->. apply (fidelity_one d rho sigma r s Dr Ds R1 S1). rewrite T1. reflexivity.
  - intros E. assert (S2 : square_root d (mm d (mm d r sigma) r) rho).
    { destruct Dr as (Hr & Pr & Tr). split; [exact Hr|]. split; [exact Pr|]. destruct R1 as (RH & RP & RR). intros i j Hi Hj.
      rewrite (mm_ext d rho (mm d r r) rho (mm d r r)) by (intros; symmetry; apply RR; assumption). rewrite <- mm_assoc. apply mm_ext; [|reflexivity]. intros l Hl.
      rewrite mm_assoc. apply mm_congr_r. intros k Hk. rewrite E by assumption. apply RR; assumption. }
    pose proof (tr_eqm d _ _ (square_root_unique d _ _ _ S1 S2)) as E2. rewrite T1, (proj2 (proj2 Dr)) in E2. apply (f_equal fst) in E2. exact E2.
  - intros ->. apply (fidelity_zero d rho sigma r s (proj1 (proj2 Ds)) R1 S1). rewrite T1. reflexivity.
  - intros O. pose proof (fidelity_orthogonal d rho sigma r s (proj1 (proj2 Dr)) (proj1 (proj2 Ds)) R1 S1 O) as Z. rewrite T1 in Z. apply (f_equal fst) in Z. exact Z.
Qed.

(** ** fidelity_two_states returns it *)
Lemma fidelity_run sqrtm c rho n out D N : sqrtm_ok sqrtm -> is_square D rho -> density D (me rho) ->
  snd (chan_channel c rho n false) = Ok out -> is_square D out -> eqm D D (me out) N -> density D N ->
  exists x, snd (fidelity_two_states sqrtm c rho n) = Ok x /\ fidelity D (me rho) N x.
Proof.
  intros OK SQ HD E [Q1 Q2] V DN. pose proof HD as (H1 & H2 & H3). assert (DO : density D (me out)) by (apply (density_ext _ N); [apply eqm_sym, V|exact DN]).
  destruct (OK D rho SQ H1 H2) as [[R1 R2] SR]. set (r := sqrtm rho) in *.
  unfold fidelity_two_states. destruct (chan_channel c rho n false) as [c1 q]. cbn [snd] in *. subst q. cbn [bind]. fold r.
  unfold np_dot at 1. rewrite R2, Q1, Nat.eqb_refl. cbn [guard bind]. unfold np_dot. cbn [mr mc me]. rewrite Q2, R1, Nat.eqb_refl. cbn [guard bind].
  set (b := MA _ _ _). assert (QB : is_square D b) by (split; [reflexivity|exact R2]).
  assert (RH : eqm D D (adj (me r)) (me r)) by apply SR.
  assert (PB : psd D (me b)). { cbn [b me]. apply (psd_ext _ (mm D (mm D (adj (me r)) (me out)) (me r))); [|apply psd_sandwich, DO]. intros i j Hi Hj. apply mm_ext; [|reflexivity]. intros l Hl. apply mm_ext; [|reflexivity]. intros k Hk. apply RH; assumption. }
  destruct (OK D b QB (psd_hermitian D (me b) PB) PB) as [[S1 S2] SS]. set (s := sqrtm b) in *.
  destruct (fidelity_bound D (me rho) (me out) (me r) (me s) HD DO SR SS) as (x & Ex & Bx).
  rewrite S1, S2, Nat.min_id, Ex. exists x. split.
  - assert (B : below (Rabs (snd (rc x))) tol5 = true). { apply below_true. cbn [rc snd]. rewrite Rabs_R0. unfold tol5. apply Rinv_0_lt_compat. lra. }
    rewrite B. reflexivity.
  - apply (fid_ext D (me rho) (me rho) (me out) N); [apply eqm_refl|exact V|]. exists (me r), (me s). split; [exact SR|]. split; [exact SS|exact Ex].
Qed.

(** ** The entanglement fidelity is at most the square of the fidelity *)
Section Mink.
Context {T : Type}.
Variable l : list T.
Definition n2 (f : T -> CC) : R := reals_sum (map (fun A => Cmod (f A) ^ 2)%R l).
Definition ip (f g : T -> CC) : R := reals_sum (map (fun A => fst (f A) * fst (g A) + snd (f A) * snd (g A))%R l).
Lemma n2_nonneg f : (0 <= n2 f)%R.
Proof. unfold n2, reals_sum. induction l as [|A m IH]; cbn [map fold_right]; [lra|]. pose proof (pow2_ge_0 (Cmod (f A))). lra. Qed.
Lemma n2_comb f g (a b : R) : n2 (fun A => rc a * f A + rc b * g A) = (a * a * n2 f + b * b * n2 g + 2 * (a * b) * ip f g)%R.
Proof.
  unfold n2, ip, reals_sum. induction l as [|A m IH]; cbn [map fold_right]; [ring|]. rewrite IH, !Cmod_sq. cbn. ring.
Qed.
Lemma cauchy f g : (ip f g * ip f g <= n2 f * n2 g)%R.
Proof.
  pose proof (n2_nonneg f) as F. pose proof (n2_nonneg g) as G. set (I := ip f g).
  assert (C : forall a b, (0 <= a * a * n2 f + b * b * n2 g + 2 * (a * b) * I)%R) by (intros a b; unfold I; rewrite <- n2_comb; apply n2_nonneg).
  destruct (Rle_lt_or_eq_dec 0 (n2 g) G) as [Gp|G0].
  - specialize (C (n2 g) (- I)%R). assert (0 <= n2 g * (n2 g * n2 f - I * I))%R by lra. assert (0 <= n2 g * n2 f - I * I)%R; [|lra]. apply Rmult_le_reg_l with (n2 g); lra.
  - rewrite <- G0 in *. pose proof (C I (- (n2 f + 1))%R) as X. nra.
Qed.
Lemma mink f g U W : (0 <= U)%R -> (0 <= W)%R -> (n2 f <= U * U)%R -> (n2 g <= W * W)%R -> (n2 (fun A => sadd (f A) (g A)) <= (U + W) * (U + W))%R.
Proof.
  intros HU HW F G. assert (E : n2 (fun A => f A + g A) = n2 (fun A => rc 1 * f A + rc 1 * g A)). { unfold n2. f_equal. apply map_ext. intros A. do 2 f_equal. change (rc 1) with (1 : CC). ring. }
  rewrite E, n2_comb. pose proof (cauchy f g) as C. pose proof (n2_nonneg f). pose proof (n2_nonneg g). set (I := ip f g) in *.
  assert (I <= U * W)%R. { apply Rnot_lt_le. intros L. assert (n2 f * n2 g <= (U * U) * (W * W))%R by (apply Rmult_le_compat; assumption). assert (0 <= U * W)%R by nra. nra. }
  lra.
Qed.
Lemma mink_sum (c : T -> nat -> CC) (e : nat -> R) n : (forall t, t < n -> (0 <= e t)%R /\ (n2 (fun A => c A t) <= e t * e t)%R) -> (n2 (fun A => bsum n (c A)) <= rsum n e * rsum n e)%R /\ (0 <= rsum n e)%R.
Proof.
  induction n as [|n IH]; intros H.
  - cbn [bsum rsum]. split; [|lra]. unfold n2, reals_sum. clear. assert (E : (Cmod (0 : CC) ^ 2 = 0)%R) by (rewrite Cmod_sq; cbn; ring). induction l as [|A m IH]; cbn [map fold_right]; [lra|]. rewrite E in *. lra.
  - destruct IH as [I1 I2]; [intros; apply H; lia|]. destruct (H n ltac:(lia)) as [H1 H2]. cbn [bsum rsum]. split; [|lra]. apply mink; assumption.
Qed.
End Mink.
#[local] Existing Instance Sqrt.eqm_equiv.
#[local] Existing Instance Sqrt.mm_proper.
#[local] Existing Instance Sqrt.adj_proper.
#[local] Existing Instance Sqrt.tr_proper.
#[local] Existing Instance Sqrt.msub_proper.
Lemma mm_ksum_mid {X} d (P Q : array CC) (f : X -> array CC) l i j :
  mm d (mm d P (fun i j => ksum (map (fun x => f x i j) l))) Q i j = ksum (map (fun x => mm d (mm d P (f x)) Q i j) l).
Proof.
  induction l as [|x l IH].
  - cbn [map]. rewrite ksum_nil. unfold mm. apply bsum_zero. intros k Hk. rewrite bsum_zero; [ring|]. intros. ring.
  - cbn [map]. rewrite ksum_cons, <- IH. unfold mm. rewrite <- bsum_add. apply bsum_ext. intros k Hk. rewrite <- !bsum_mul_r, <- bsum_add. apply bsum_ext. intros m Hm. rewrite ksum_cons. ring.
Qed.
Lemma re_ksum {X} (f : X -> CC) l : fst (ksum (map f l)) = reals_sum (map (fun x => fst (f x)) l).
Proof. unfold reals_sum. induction l as [|x l IH]; [reflexivity|]. cbn [map fold_right]. rewrite ksum_cons, <- IH. reflexivity. Qed.
Lemma row_bound d (M : array CC) t : t < d -> (Cmod (M t t) ^ 2 <= fst (mm d M (adj M) t t))%R.
Proof.
  intros Ht. unfold mm, adj. set (f := fun k => M t k * (M t k)^*). assert (G : forall n, (0 <= fst (bsum n f))%R /\ (t < n -> (Cmod (M t t) ^ 2 <= fst (bsum n f))%R)).
  { assert (P : forall k, fst (f k) = (Cmod (M t k) ^ 2)%R) by (intros k; unfold f; rewrite mul_conj_self; reflexivity).
    induction n as [|n [I1 I2]]; [split; [cbn; lra|lia]|]. pose proof (pow2_ge_0 (Cmod (M t n))) as P0. rewrite <- P in P0. assert (S1 : fst (bsum (S n) f) = (fst (bsum n f) + fst (f n))%R) by reflexivity. rewrite S1. split; [lra|].
    intros H. destruct (Nat.eq_dec t n) as [->|N]; [rewrite <- P; lra|]. specialize (I2 ltac:(lia)). lra. }
  apply G, Ht.
Qed.
Theorem entanglement_le D ops rho x : fits D D ops -> density D (me rho) -> fidelity D (me rho) (channel_map ops (me rho)) x -> (entanglement_fidelity ops rho <= x * x)%R.
Proof.
  intros F (Hr & Pr & Tr) (r & s & (HR & PR & RR) & (HS & PS & SS) & TS).
  destruct (spectral D s HS) as (V & e & ED). pose proof (psd_eig D s V e ED PS) as Pe. pose proof (eig_sum _ _ _ _ ED) as ES. rewrite TS in ES. cbn [fst] in ES. destruct ED as [[U1 U2] EV].
  assert (Hr' : eqm D D (adj r) r) by exact HR. set (W := mm D r V).
  assert (WW : eqm D D (mm D W (adj W)) (me rho)). { unfold W. rewrite adjm, Hr'. rewrite assoc, <- (assoc D V), U2, eyel. exact RR. }
  set (M := fun A : marr CC => mm D (mm D (adj W) (me A)) W).
  assert (TM : forall A, tr D (mm D (me A) (me rho)) = tr D (M A)). { intros A. unfold M. rewrite (tr_comm D _ W), <- assoc, WW. apply tr_comm. }
  assert (E1 : entanglement_fidelity ops rho = n2 ops (fun A => bsum D (fun t => M A t t))).
  { unfold entanglement_fidelity, n2. f_equal. apply map_ext_in. intros A HA. destruct (in_fits _ _ _ _ F HA) as [-> ->]. rewrite TM. reflexivity. }
  rewrite E1, <- ES. apply mink_sum. intros t Ht. split; [apply Pe, Ht|].
  apply Rle_trans with (reals_sum (map (fun A => fst (mm D (M A) (adj (M A)) t t)) ops)).
  - unfold n2. apply reals_sum_le. intros A HA. apply row_bound, Ht.
  - rewrite <- re_ksum. apply Req_le.
    assert (E2 : ksum (map (fun A => mm D (M A) (adj (M A)) t t) ops) = mm D (mm D (adj W) (channel_map ops (me rho))) W t t).
    { unfold channel_map. rewrite (mm_ksum_mid D (adj W) W (fun A => mm (mc A) (mm (mc A) (me A) (me rho)) (adj (me A)))). apply ksum_ext. intros A HA. destruct (in_fits _ _ _ _ F HA) as [_ ->].
      assert (Q : eqm D D (mm D (M A) (adj (M A))) (mm D (mm D (adj W) (mm D (mm D (me A) (me rho)) (adj (me A)))) W)); [|apply Q; assumption].
      unfold M. rewrite !adjm, adja. rewrite <- WW. rewrite !assoc. reflexivity. }
    rewrite E2. assert (Q : eqm D D (mm D (mm D (adj W) (channel_map ops (me rho))) W) (mm D (mm D (adj V) (mm D s s)) V)).
    { rewrite SS. unfold W. rewrite adjm, Hr'. rewrite !assoc. reflexivity. }
    rewrite Q by assumption. assert (Q2 : mm D (mm D (adj V) (mm D s s)) V t t = rc (e t * e t)); [|rewrite Q2; reflexivity].
    assert (Q3 : mm D (mm D (adj V) (mm D s s)) V t t = mm D (adj V) (mm D s (mm D s V)) t t). { assert (X : eqm D D (mm D (mm D (adj V) (mm D s s)) V) (mm D (adj V) (mm D s (mm D s V)))) by (rewrite !assoc; reflexivity). apply X; assumption. }
    rewrite Q3. transitivity (mm D (adj V) V t t * rc (e t * e t)); [|rewrite U1 by assumption; unfold eye; rewrite Nat.eqb_refl; ring].
    unfold mm at 1. unfold mm at 3. rewrite <- bsum_mul_r. apply bsum_ext. intros k Hk.
    assert (Q4 : mm D s (mm D s V) k t = V k t * rc (e t * e t)).
    { unfold mm at 1. transitivity (bsum D (fun m => s k m * V m t) * rc (e t)).
      - rewrite <- bsum_mul_r. apply bsum_ext. intros m Hm. rewrite EV by assumption. unfold rc. ring.
      - fold (mm D s V k t). rewrite EV by assumption. rewrite <- rc_mul. unfold rc. ring. }
    rewrite Q4. ring.
Qed.

(** ** Entanglement fidelity one *)
Lemma tr_adj d (A : array CC) : tr d (adj A) = (tr d A)^*.
Proof. unfold tr, adj. symmetry. apply bsum_conj. Qed.
Lemma deviation D (A r rho : array CC) (a : CC) : eqm D D (adj r) r -> eqm D D (mm D r r) rho -> tr D rho = 1 -> tr D (mm D A rho) = a ->
  tr D (mm D (adj (msub (mm D A r) (scale a r))) (msub (mm D A r) (scale a r))) = tr D (mm D (mm D A rho) (adj A)) - rc (Cmod a ^ 2).
Proof.
  intros Hr RR T1 TA. rewrite adj_msub, msub_l, !msub_r, !tr_msub.
  assert (S1 : forall B, eqm D D (mm D B (scale a r)) (scale a (mm D B r))). { intros B i j _ _. unfold mm, scale. rewrite <- bsum_mul_l. apply bsum_ext; intros; ring. }
  assert (S2 : forall B, eqm D D (mm D (adj (scale a r)) B) (scale (a^*) (mm D r B))).
  { intros B i j Hi _. unfold mm, scale, adj. rewrite <- bsum_mul_l. apply bsum_ext; intros k Hk. rewrite sconj_mul. specialize (Hr i k Hi Hk). unfold adj in Hr. rewrite Hr. ring. }
  assert (TS : forall (c : CC) B, tr D (scale c B) = c * tr D B) by (intros; unfold tr, scale; apply bsum_mul_l).
  rewrite !S1, !TS. rewrite !S2, !TS. rewrite RR, T1.
  assert (X1 : tr D (mm D r (mm D A r)) = a). { rewrite tr_comm, assoc, RR. exact TA. }
  assert (X2 : tr D (mm D (adj (mm D A r)) r) = a^*).
  { rewrite <- X1. rewrite <- (tr_adj D). rewrite (adjm D r (mm D A r)), Hr. reflexivity. }
  assert (X3 : tr D (mm D (adj (mm D A r)) (mm D A r)) = tr D (mm D (mm D A rho) (adj A))).
  { rewrite tr_comm, adjm, Hr, !assoc, <- (assoc D r r), RR. reflexivity. }
  rewrite X1, X2, X3. rewrite <- mul_conj_self. ring.
Qed.
Lemma sum_zero {X} (g : X -> R) l : (forall x, In x l -> (0 <= g x)%R) -> reals_sum (map g l) = 0%R -> forall x, In x l -> g x = 0%R.
Proof.
  unfold reals_sum. induction l as [|y l IH]; intros P Z x Hx; [destruct Hx|]. cbn [map fold_right] in Z.
  assert (Q : (0 <= fold_right Rplus 0 (map g l))%R). { assert (P' : forall x, In x l -> (0 <= g x)%R) by (intros; apply P; right; assumption). clear -P'. induction l as [|z l IH]; cbn [map fold_right]; [lra|]. pose proof (P' z (or_introl eq_refl)). assert (0 <= fold_right Rplus 0 (map g l))%R by (apply IH; intros; apply P'; right; assumption). lra. }
  pose proof (P y (or_introl eq_refl)) as Py. destruct Hx as [<-|Hx]; [lra|]. apply IH; [intros; apply P; right; assumption|lra|exact Hx].
Qed.
Lemma sum_diff {X} (f g : X -> R) l : reals_sum (map (fun x => f x - g x)%R l) = (reals_sum (map f l) - reals_sum (map g l))%R.
Proof. unfold reals_sum. induction l as [|x l IH]; cbn [map fold_right]; [ring|]. rewrite IH. ring. Qed.
Lemma total_one D ops rho : fits D D ops -> trace_preserving D ops -> density D (me rho) -> reals_sum (map (fun A => fst (tr D (mm D (mm D (me A) (me rho)) (adj (me A))))) ops) = 1%R.
Proof.
  intros F TP DE. assert (C : tr D (channel_map ops (me rho)) = 1). { rewrite (channel_trace D D) by assumption. apply DE. }
  unfold channel_map in C. rewrite tr_ksum in C. apply (f_equal fst) in C. rewrite re_ksum in C. change (fst (1 : CC)) with 1%R in C. rewrite <- C. f_equal. apply map_ext_in. intros A HA. destruct (in_fits _ _ _ _ F HA) as [_ ->]. reflexivity.
Qed.
Theorem entanglement_one D ops rho : fits D D ops -> trace_preserving D ops -> density D (me rho) -> (entanglement_fidelity ops rho = 1%R <-> untouched D ops (me rho)).
Proof.
  intros F TP DE. pose proof (total_one D ops rho F TP DE) as TO. destruct DE as (Hr & Pr & Tr). unfold entanglement_fidelity.
  rewrite (map_ext_in (fun A => Cmod (tr (mr A) (mm (mc A) (me A) (me rho))) ^ 2)%R (fun A => Cmod (tr D (mm D (me A) (me rho))) ^ 2)%R) by (intros A HA; destruct (in_fits _ _ _ _ F HA) as [-> ->]; reflexivity).
  split.
  - intros E. destruct (square_root_exists D (me rho) Pr) as (r & HR & PR & RR). assert (Hr' : eqm D D (adj r) r) by exact HR.
    apply Forall_forall. intros A HA. exists (tr D (mm D (me A) (me rho))).
    pose proof (deviation D (me A) r (me rho) _ Hr' RR Tr eq_refl) as Dv. set (B := msub (mm D (me A) r) (scale (tr D (mm D (me A) (me rho))) r)) in *.
    assert (G : (fst (tr D (mm D (mm D (me A) (me rho)) (adj (me A)))) - Cmod (tr D (mm D (me A) (me rho))) ^ 2 = 0)%R).
    { revert A HA B Dv. cut (forall A, In A ops -> (fst (tr D (mm D (mm D (me A) (me rho)) (adj (me A)))) - Cmod (tr D (mm D (me A) (me rho))) ^ 2)%R = 0%R); [intros C A HA _ _; apply C, HA|].
      apply (sum_zero (fun A => fst (tr D (mm D (mm D (me A) (me rho)) (adj (me A)))) - Cmod (tr D (mm D (me A) (me rho))) ^ 2)%R).
      - intros A HA. pose proof (deviation D (me A) r (me rho) _ Hr' RR Tr eq_refl) as Dv. destruct (psd_trace D _ (psd_gram D (msub (mm D (me A) r) (scale (tr D (mm D (me A) (me rho))) r)))) as (y & Hy & Ey). rewrite Ey in Dv. apply (f_equal fst) in Dv. cbn in Dv |- *. lra.
      - rewrite sum_diff, TO, E. lra. }
    assert (B0 : forall i j, i < D -> j < D -> B i j = 0).
    { apply gram_zero. destruct (psd_trace D _ (psd_gram D B)) as (y & Hy & Ey). rewrite Ey in *. apply (f_equal fst) in Dv. cbn in Dv, G. replace y with 0%R by lra. reflexivity. }
    assert (AR : eqm D D (mm D (me A) r) (scale (tr D (mm D (me A) (me rho))) r)). { intros i j Hi Hj. specialize (B0 i j Hi Hj). unfold B, msub in B0. set (u := mm D (me A) r i j) in *. set (v := scale _ r i j) in *. transitivity (u - v + v); [ring|]. rewrite B0. ring. }
    rewrite <- RR at 1. rewrite <- assoc, AR. intros i j Hi Hj. unfold scale at 2. rewrite <- (RR i j Hi Hj). unfold mm, scale. rewrite <- bsum_mul_l. apply bsum_ext. intros; ring.
  - intros U. rewrite <- TO. f_equal. apply map_ext_in. intros A HA. unfold untouched in U. rewrite Forall_forall in U. destruct (U A HA) as (a & Ea).
    assert (Ta : tr D (mm D (me A) (me rho)) = a). { rewrite Ea. transitivity (a * tr D (me rho)); [unfold tr, scale; apply bsum_mul_l|rewrite Tr; ring]. }
    rewrite Ta. rewrite Ea. assert (X : tr D (mm D (scale a (me rho)) (adj (me A))) = a * a^*).
    { transitivity (a * tr D (mm D (me rho) (adj (me A)))). { unfold tr, mm, scale. rewrite <- bsum_mul_l. apply bsum_ext. intros i Hi. rewrite <- bsum_mul_l. apply bsum_ext. intros; ring. }
      f_equal. rewrite <- Ta at 1. rewrite <- tr_adj, adjm. assert (HH : eqm D D (adj (me rho)) (me rho)) by exact Hr. rewrite HH. reflexivity. }
    rewrite X, mul_conj_self. reflexivity.
Qed.
Lemma Ceq_dec0 (z : CC) : {z = 0} + {z <> 0}.
Proof. destruct z as [x y]. destruct (Req_EM_T x 0) as [->|N]; [destruct (Req_EM_T y 0) as [->|N]|]; [left; reflexivity| |]; right; intros E; apply N; [exact (f_equal snd E)|exact (f_equal fst E)]. Qed.
Lemma definite_kernel d (rho B : array CC) : positive_definite d rho -> eqm d d (mm d B rho) (fun _ _ => 0) -> eqm d d B (fun _ _ => 0).
Proof.
  intros [HH PD] Z i j Hi Hj. destruct (Ceq_dec0 (B i j)) as [E|N]; [exact E|exfalso].
  specialize (PD (fun k => (B i k)^*)). assert (P : exists k, k < d /\ (B i k)^* <> 0). { exists j. split; [exact Hj|]. intros E. apply N. rewrite <- (sconj_conj (B i j)), E. apply sconj_0. }
  specialize (PD P). revert PD. apply Rle_not_lt. right. 
  transitivity (fst (0 : CC)); [|reflexivity]. f_equal. rewrite bsum_swap. apply bsum_zero. intros k Hk. transitivity (mm d B rho i k * (B i k)^*).
  - unfold mm. rewrite <- bsum_mul_r. apply bsum_ext. intros l Hl. rewrite sconj_conj. reflexivity.
  - rewrite Z by assumption. ring.
Qed.
Theorem untouched_identity D ops rho : fits D D ops -> trace_preserving D ops -> positive_definite D (me rho) -> untouched D ops (me rho) -> 1 <= D -> forall X, eqm D D (channel_map ops X) X.
Proof.
  intros F TP PD U HD X.
  assert (SC : forall A, In A ops -> exists a : CC, eqm D D (me A) (scale a eye)).
  { intros A HA. unfold untouched in U. rewrite Forall_forall in U. destruct (U A HA) as (a & Ea). exists a.
    assert (Z : eqm D D (msub (me A) (scale a eye)) (fun _ _ => 0)).
    { apply (definite_kernel D (me rho) _ PD). rewrite msub_l, Ea. intros i j Hi Hj. unfold msub. assert (Q : mm D (scale a eye) (me rho) i j = scale a (me rho) i j); [|rewrite Q; ring].
      unfold scale. rewrite <- (mm_eye_l D (me rho) i j Hi). unfold mm. rewrite <- bsum_mul_l. apply bsum_ext. intros; ring. }
    intros i j Hi Hj. specialize (Z i j Hi Hj). unfold msub in Z. set (u := me A i j) in *. set (v := scale a eye i j) in *. transitivity (u - v + v); [ring|]. rewrite Z. ring. }
  (* sum |a|^2 = 1 *)
  assert (G : exists q : CC, (forall X, eqm D D (channel_map ops X) (scale q X)) /\ eqm D D (adjoint_map ops eye) (scale q eye)).
  { clear TP U PD. induction ops as [|A l IH].
    - exists 0. split; [intros Y|]; intros i j _ _; unfold channel_map, adjoint_map; cbn [map]; rewrite ksum_nil; unfold scale; ring.
    - apply Forall_cons_iff in F. destruct F as [[A1 A2] F]. destruct (IH F) as (q & Q1 & Q2); [intros; apply SC; right; assumption|]. destruct (SC A (or_introl eq_refl)) as (a & Ea). exists (a * a^* + q).
      assert (Ea' : eqm D D (adj (me A)) (scale (a^*) eye)). { intros i j Hi Hj. unfold adj. rewrite Ea by assumption. unfold scale. rewrite sconj_mul. f_equal. apply adj_eye. }
      assert (L : forall (c : CC) Y, eqm D D (mm D (scale c eye) Y) (scale c Y)). { intros c Y i j Hi Hj. unfold scale at 2. rewrite <- (mm_eye_l D Y i j Hi). unfold mm, scale. rewrite <- bsum_mul_l. apply bsum_ext. intros; ring. }
      assert (R : forall (c : CC) Y, eqm D D (mm D Y (scale c eye)) (scale c Y)). { intros c Y i j Hi Hj. unfold scale at 2. rewrite <- (mm_eye_r D Y i j Hj). unfold mm, scale. rewrite <- bsum_mul_l. apply bsum_ext. intros; ring. }
      split.
      + intros Y i j Hi Hj. unfold channel_map. cbn [map]. rewrite ksum_cons. fold (channel_map l Y i j). rewrite Q1 by assumption. rewrite A2.
        assert (E : eqm D D (mm D (mm D (me A) Y) (adj (me A))) (scale (a * a^*) Y)). { rewrite Ea', Ea, L, R. intros x y _ _. unfold scale. ring. }
        rewrite E by assumption. unfold scale. ring.
      + intros i j Hi Hj. unfold adjoint_map. cbn [map]. rewrite ksum_cons. match goal with |- ?u + ?v = _ => change v with (adjoint_map l eye i j) end. rewrite Q2 by assumption. rewrite ?A1, ?A2.
        assert (E : eqm D D (mm D (mm D (adj (me A)) eye) (me A)) (scale (a * a^*) eye)). { rewrite eyer, Ea', Ea, L. intros x y _ _. unfold scale. ring. }
        rewrite E by assumption. unfold scale. ring. }
  destruct G as (q & Q1 & Q2). assert (q1 : q = 1).
  { specialize (Q2 0%nat 0%nat ltac:(lia) ltac:(lia)). pose proof (proj2 (unital_iff D D ops F) TP 0%nat 0%nat ltac:(lia) ltac:(lia)) as Un. rewrite Un in Q2. unfold scale, eye in Q2. cbn [Nat.eqb] in Q2. transitivity (q * 1); [ring|]. symmetry. exact Q2. }
  intros i j Hi Hj. rewrite Q1 by assumption. rewrite q1. unfold scale. ring.
Qed.
