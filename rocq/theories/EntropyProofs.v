(** Bounds of the entropy and the values of fidelity_two_states. *)
From Verif Require Import Py Scalar PauliModel PauliSpec EncoderProofs EighExists Spectral SpectralProofs PowerSums KrausModel KrausSpec KrausProofs KrausProofs2 KrausProofs6 KrausProofs8 KrausProofs12
  ChoiModel ChannelModel ChannelSpec ChoiSpec ChoiProofs2 ChoiProofs3 Sqrt.
From Coq Require Import Reals Lra Setoid Morphisms.
Open Scope R_scope.

(** ** lists of eigenvalues *)
Lemma ln2_pos : 0 < ln 2. Proof. rewrite <- ln_1. apply ln_increasing; lra. Qed.
Lemma xlogx_le x : 0 <= x <= 1 -> x * log2 x <= 0.
Proof.
  intros [H0 H1]. destruct (Req_dec x 0) as [->|N]; [rewrite Rmult_0_l; lra|]. unfold log2.
  assert (ln x <= 0). { destruct (Req_dec x 1) as [->|N1]; [rewrite ln_1; lra|]. apply Rlt_le. rewrite <- ln_1. apply ln_increasing; lra. }
  pose proof ln2_pos. assert (ln x / ln 2 <= 0). { unfold Rdiv. pose proof (Rinv_0_lt_compat _ H2). nra. } nra.
Qed.
Theorem entropy_nonneg cut l : Forall (fun x => 0 <= x <= 1) l -> 0 <= entropy_of cut l.
Proof.
  intros F. unfold entropy_of. apply Ropp_0_ge_le_contravar. apply Rle_ge. induction F as [|x l H F IH]; cbn [map fold_right]; [lra|].
  fold (log2 x). destruct (Rlt_dec cut (Rabs x)); [pose proof (xlogx_le x H); unfold log2 in *; lra|lra].
Qed.
Lemma ln_le_minus y : 0 < y -> ln y <= y - 1.
Proof.
  intros H. pose proof (exp_ineq1_le (ln y)) as E. rewrite exp_ln in E by exact H. lra.
Qed.
Lemma gibbs k l : 0 < k -> Forall (fun x => 0 < x) l -> - sumof (fun x => x * ln x) l <= sumof (fun x => x) l * ln k + INR (length l) / k - sumof (fun x => x) l.
Proof.
  intros K F. induction F as [|x l H F IH]; [cbn; unfold sumof, Rdiv; cbn; lra|]. unfold sumof in *. cbn [map fold_right length]. rewrite S_INR.
  assert (Y : 0 < / (k * x)) by (apply Rinv_0_lt_compat; nra). pose proof (ln_le_minus _ Y) as G. rewrite ln_Rinv in G by nra. rewrite ln_mult in G by assumption.
  assert (x * (- (ln k + ln x)) <= x * (/ (k * x) - 1)) by (apply Rmult_le_compat_l; lra).
  replace (x * (/ (k * x) - 1)) with (/ k - x) in H0 by (field; lra). unfold Rdiv in *. lra.
Qed.
(** the eigenvalues that count *)
Definition kept (cut : R) (l : list R) : list R := filter (fun x => if Rlt_dec cut (Rabs x) then true else false) l.
Lemma entropy_kept cut l : entropy_of cut l = - (sumof (fun x => x * ln x) (kept cut l)) / ln 2.
Proof.
  unfold entropy_of, kept, sumof. pose proof ln2_pos. unfold Rdiv. rewrite <- Ropp_mult_distr_l. f_equal. induction l as [|x l IH]; cbn [map filter fold_right]; [lra|].
  destruct (Rlt_dec cut (Rabs x)); cbn [map fold_right]; rewrite IH; lra.
Qed.
Theorem entropy_le_kept cut l : Forall (fun x => 0 <= x) l -> 0 <= cut -> sumof (fun x => x) (kept cut l) = 1 -> entropy_of cut l <= log2 (INR (length (kept cut l))).
Proof.
  intros F C S1. rewrite entropy_kept. set (m := kept cut l) in *.
  assert (P : Forall (fun x => 0 < x) m).
  { apply Forall_forall. intros x Hx. apply filter_In in Hx as [Hx B]. rewrite Forall_forall in F. specialize (F x Hx). destruct (Rlt_dec cut (Rabs x)) as [L|]; [|discriminate]. rewrite Rabs_pos_eq in L by exact F. lra. }
  assert (L : 0 < INR (length m)). { destruct m; [unfold sumof in S1; cbn in S1; lra|]. apply lt_0_INR. cbn. lia. }
  pose proof (gibbs (INR (length m)) m L P) as G. rewrite S1 in G. unfold Rdiv in G at 1. rewrite Rinv_r in G by lra. unfold log2, Rdiv. pose proof (Rinv_0_lt_compat _ ln2_pos). nra.
Qed.
Lemma kept0_mono cut l : 0 <= cut -> Forall (fun x => 0 <= x <= 1) l -> entropy_of cut l <= entropy_of 0 l.
Proof.
  intros C F. unfold entropy_of. apply Ropp_le_contravar. induction F as [|x l H F IH]; cbn [map fold_right]; [lra|].
  pose proof (xlogx_le x H) as G. unfold log2 in G. destruct (Rlt_dec cut (Rabs x)); destruct (Rlt_dec 0 (Rabs x)); lra.
Qed.
Lemma kept0_sum l : sumof (fun x => x) (kept 0 l) = sumof (fun x => x) l.
Proof.
  unfold kept, sumof. induction l as [|x l IH]; [reflexivity|]. cbn [filter map fold_right]. destruct (Rlt_dec 0 (Rabs x)) as [L|L]; cbn [map fold_right]; rewrite IH; [reflexivity|].
  assert (x = 0); [|lra]. destruct (Req_dec x 0) as [E|N]; [exact E|]. exfalso. apply L, Rabs_pos_lt, N.
Qed.
Lemma entropy_le_length cut l : 0 <= cut -> Forall (fun x => 0 <= x <= 1) l -> sumof (fun x => x) l = 1 -> entropy_of cut l <= log2 (INR (length l)).
Proof.
  intros C F S1. eapply Rle_trans; [apply kept0_mono; assumption|]. eapply Rle_trans; [apply entropy_le_kept|]; [eapply Forall_impl; [|exact F]; cbn; intros; lra|lra|rewrite kept0_sum; exact S1|].
  assert (L : 0 < INR (length (kept 0 l))).
  { rewrite <- kept0_sum in S1. destruct (kept 0 l); [unfold sumof in S1; cbn in S1; lra|]. apply lt_0_INR. cbn. lia. }
  assert (L' : INR (length (kept 0 l)) <= INR (length l)). { apply le_INR. unfold kept. clear. induction l as [|x l IH]; cbn; [lia|]. destruct (Rlt_dec 0 (Rabs x)); cbn; lia. }
  unfold log2, Rdiv. apply Rmult_le_compat_r; [left; apply Rinv_0_lt_compat, ln2_pos|]. destruct (Req_dec (INR (length (kept 0 l))) (INR (length l))) as [->|N]; [lra|]. left. apply ln_increasing; lra.
Qed.

(** ** density matrices *)
Open Scope nat_scope.
Open Scope K_scope.
Add Ring CCring10 : (s_rt CC).
Lemma density_eigs d A l : density d A -> spectrum d A l -> Forall (fun x => (0 <= x <= 1)%R) l /\ sumof (fun x => x) l = 1%R.
Proof.
  intros (H & P & T) SP. pose proof (spectrum_power d A l 1 SP) as E.
  assert (E1 : tr d (mpow d A 1) = tr d A) by (apply tr_eqm; cbn [mpow]; intros i j Hi Hj; apply mm_eye_r, Hj). rewrite E1, T in E.
  assert (S1 : sumof (fun x => x) l = 1%R) by (rewrite <- (sumof_ext (fun x => (x ^ 1)%R)) by (intros; ring); exact E).
  destruct SP as (L & V & ED). pose proof (psd_eig d A V _ ED P) as Pe.
  assert (F0 : Forall (fun x => (0 <= x)%R) l). { apply Forall_forall. intros x Hx. destruct (In_nth l x 0%R Hx) as (t & Ht & <-). apply Pe. lia. }
  split; [|exact S1]. clear - F0 S1. assert (G : Forall (fun x => (x <= sumof (fun x => x) l)%R) l /\ (0 <= sumof (fun x => x) l)%R).
  { clear S1. unfold sumof. induction F0 as [|x l H F IH]; cbn [map fold_right]; [split; [constructor|lra]|]. destruct IH as [IH S0]. split; [|lra]. constructor; [lra|]. eapply Forall_impl; [|exact IH]. cbn. intros; lra. }
  rewrite S1 in G. destruct G as [G _]. rewrite Forall_forall in *. intros x Hx. split; auto.
Qed.
Theorem vn_bounds d A s : density d A -> vn_entropy d A s -> (0 <= s <= log2 (INR d))%R.
Proof.
  intros H (l & SP & ->). destruct (density_eigs d A l H SP) as [F S1]. split; [apply entropy_nonneg, F|]. destruct SP as [<- _]. apply entropy_le_length; [|exact F|exact S1]. left. apply Rinv_0_lt_compat. lra.
Qed.
Lemma entropy_by_sums cut d A l m : (0 <= cut)%R -> spectrum d A l -> (forall p, tr d (mpow d A (S p)) = rc (sumof (fun x => (x ^ S p)%R) m)) -> entropy_of cut l = entropy_of cut m.
Proof.
  intros C SP H. rewrite !entropy_sum. f_equal. apply same_sums; [intros k; rewrite (spectrum_power d A l _ SP), H; reflexivity|].
  rewrite Rabs_R0. destruct (Rlt_dec cut 0); [ring|reflexivity].
Qed.
Lemma pure_idem d v : unit_vector d v -> eqm d d (mm d (pure v) (pure v)) (pure v).
Proof.
  intros U i j Hi Hj. unfold mm, pure. transitivity (v i * bsum d (fun k => (v k)^* * v k) * (v j)^*); [|rewrite U; ring].
  rewrite <- bsum_mul_l, <- bsum_mul_r. apply bsum_ext; intros; ring.
Qed.
Lemma pure_trace d v : unit_vector d v -> tr d (pure v) = 1.
Proof. intros U. rewrite <- U. unfold tr, pure. apply bsum_ext; intros; ring. Qed.
Lemma pure_hermitian d v : hermitian d (pure v).
Proof. intros i j _ _. unfold adj, pure. rewrite sconj_mul, sconj_conj. ring. Qed.
Lemma pure_psd d v : psd d (pure v).
Proof.
  intros w. set (z := dot d v w). exists (Cmod z ^ 2)%R. split; [apply pow2_ge_0|]. change ((_, 0%R) : CC) with (rc (Cmod z ^ 2)). rewrite <- mul_conj_self. unfold z at 2. rewrite dot_conj. unfold z, dot, pure.
  rewrite <- bsum_mul_l. apply bsum_ext; intros i Hi. rewrite <- bsum_mul_r. apply bsum_ext; intros; ring.
Qed.
Lemma pure_density d v : unit_vector d v -> density d (pure v).
Proof. intros U. split; [apply pure_hermitian|]. split; [apply pure_psd|apply pure_trace, U]. Qed.
Lemma pure_power d v p : unit_vector d v -> eqm d d (mpow d (pure v) (S p)) (pure v).
Proof.
  intros U. induction p as [|p IH]; [intros i j Hi Hj; cbn [mpow]; apply mm_eye_r, Hj|].
  intros i j Hi Hj. change (mpow d (pure v) (S (S p))) with (mm d (pure v) (mpow d (pure v) (S p))). rewrite (mm_congr_r d _ _ (pure v)) by (intros; apply IH; assumption). apply pure_idem; assumption.
Qed.
Theorem vn_pure d A v s : unit_vector d v -> eqm d d A (pure v) -> vn_entropy d A s -> s = 0%R.
Proof.
  intros U E VN. apply (vn_ext _ _ _ _ E) in VN. destruct VN as (l & SP & ->).
  rewrite (entropy_by_sums _ d (pure v) l [1%R]); [|left; apply Rinv_0_lt_compat; lra|exact SP|].
  - unfold entropy_of. cbn [map fold_right]. rewrite Rabs_R1, ln_1. destruct (Rlt_dec _ 1); unfold Rdiv; ring.
  - intros p. rewrite (tr_eqm d _ _ (pure_power d v p U)), (pure_trace d v U). unfold sumof. cbn [map fold_right]. rewrite pow1, Rplus_0_r. reflexivity.
Qed.

(** ** fidelity_two_states *)
Section Fidelity.
Variables (sqrtm : marr CC -> marr CC) (sp : bool) (a : kraus_arg CC) (nq : nat * nat) (din dout : nat) (orthogonal : list nat) (o0 : kraus CC) (past : list nat) (n : nat).
Hypothesis OK : sqrtm_ok sqrtm.
Hypothesis I0 : kraus_init sp a nq din dout orthogonal = Ok o0.
Hypothesis NE : arg_matrices a <> [].
Hypothesis HP : Forall (fun m => 1 <= m) past.
Hypothesis Hn : 1 <= n.
Hypothesis CL : clean sp past n.
Let D := (din ^ fst nq) ^ n.
Hypothesis SQD : dout ^ snd nq = din ^ fst nq.
Hypothesis TP : trace_preserving (din ^ fst nq) (arg_matrices a).
Theorem fidelity_value rho : is_square D rho -> density D (me rho) ->
  exists r s x, snd (fidelity_two_states sqrtm (after (KrausType o0) past) rho n) = Ok x /\ square_root D (me rho) r /\
    square_root D (mm D (mm D r (channel_map (power_ops (arg_matrices a) n) (me rho))) r) s /\ tr D s = rc x /\ (0 <= x <= 1)%R.
Proof.
  intros SQ HD. pose proof HD as (H1 & H2 & H3). destruct (c31 _ _ _ _ _ _ _ past n rho I0 NE HP Hn CL SQ) as (out & E & Q & V & _ & _ & T). rewrite SQD in Q, V, T. fold D in Q, V, T. destruct (T TP) as [_ DO]. specialize (DO HD).
  destruct (OK D rho SQ H1 H2) as [[R1 R2] SR]. set (r := sqrtm rho) in *. destruct Q as [Q1 Q2].
  unfold fidelity_two_states. destruct (chan_channel (after (KrausType o0) past) rho n false) as [c1 q]. cbn [snd] in *. subst q. cbn [bind]. fold r.
  unfold np_dot at 1. rewrite R2, Q1, Nat.eqb_refl. cbn [guard bind]. unfold np_dot. cbn [mr mc me]. rewrite Q2, R1, Nat.eqb_refl. cbn [guard bind].
  set (b := MA _ _ _). assert (QB : is_square D b) by (split; [reflexivity|exact R2]).
  assert (RH : eqm D D (adj (me r)) (me r)) by apply SR.
  assert (PB : psd D (me b)). { cbn [b me]. apply (psd_ext _ (mm D (mm D (adj (me r)) (me out)) (me r))); [|apply psd_sandwich, DO]. intros i j Hi Hj. apply mm_ext; [|reflexivity]. intros l Hl. apply mm_ext; [|reflexivity]. intros k Hk. apply RH; assumption. }
  destruct (OK D b QB (psd_hermitian D (me b) PB) PB) as [[S1 S2] SS]. set (s := sqrtm b) in *.
  destruct (fidelity_bound D (me rho) (me out) (me r) (me s) HD DO SR SS) as (x & Ex & Bx).
  rewrite S1, S2, Nat.min_id, Ex. exists (me r), (me s), x. split; [|split; [exact SR|split; [|split; [exact Ex|exact Bx]]]].
  - assert (B : below (Rabs (snd (rc x))) tol5 = true). { apply below_true. cbn [rc snd]. rewrite Rabs_R0. unfold tol5. apply Rinv_0_lt_compat. lra. }
    rewrite B. reflexivity.
  - destruct SS as (SH & SP & SE). split; [exact SH|]. split; [exact SP|]. eapply eqm_trans; [exact SE|]. cbn [b me]. intros i j Hi Hj. apply mm_ext; [|reflexivity]. intros l Hl. apply mm_congr_r. intros k Hk. apply V; assumption.
Qed.
Theorem fidelity_pure rho v : is_square D rho -> unit_vector D v -> eqm D D (me rho) (pure v) ->
  exists c, expectation D (channel_map (power_ops (arg_matrices a) n) (pure v)) v = rc c /\ (0 <= c <= 1)%R /\
    snd (fidelity_two_states sqrtm (after (KrausType o0) past) rho n) = Ok (sqrt c).
Proof.
  intros SQ U E. pose proof (pure_density D v U) as HP0.
  assert (HD : density D (me rho)). { destruct HP0 as (A1 & A2 & A3). split; [apply (hermitian_ext _ _ _ (eqm_sym _ _ _ _ E) A1)|]. split; [apply (psd_ext _ (pure v)); [apply eqm_sym, E|exact A2]|]. rewrite <- A3. apply tr_eqm, E. }
  destruct (fidelity_value rho SQ HD) as (r & s & x & EX & SR & SS & TS & B). set (N := channel_map (power_ops (arg_matrices a) n) (me rho)) in *.
  assert (F : fits D D (power_ops (arg_matrices a) n)). { pose proof (fitsn sp a nq din dout orthogonal o0 n I0 NE) as X. rewrite SQD in X. exact X. }
  assert (EN : eqm D D (channel_map (power_ops (arg_matrices a) n) (pure v)) N). { apply (channel_map_same D D); [exact F|apply same_ops_refl|apply eqm_sym, E]. }
  assert (PN : psd D N) by (apply (channel_psd D D); [exact F|apply HD]).
  destruct (PN v) as (c & Hc & Ec). exists c. split; [eapply eq_trans; [|exact Ec]; apply bsum_ext; intros i Hi; apply bsum_ext; intros j Hj; rewrite EN by assumption; reflexivity|].
  (* r = |v><v| *)
  assert (SP : square_root D (me rho) (pure v)).
  { split; [apply pure_hermitian|]. split; [apply pure_psd|]. eapply eqm_trans; [apply pure_idem, U|apply eqm_sym, E]. }
  pose proof (square_root_unique D _ _ _ SR SP) as RV.
  assert (BV : eqm D D (mm D (mm D r N) r) (fun i j => pure v i j * rc c)).
  { intros i j Hi Hj. rewrite (mm_ext D (mm D r N) (mm D (pure v) N) r (pure v)); [|intros l Hl; apply mm_ext; [intros k Hk; apply RV; assumption|reflexivity]|intros l Hl; apply RV; assumption].
    unfold rc. rewrite <- Ec. unfold mm, pure. transitivity (v i * (v j)^* * bsum D (fun l => bsum D (fun k => (v k)^* * N k l * v l))); [|f_equal; apply bsum_swap].
    rewrite <- bsum_mul_l. apply bsum_ext; intros l Hl. rewrite <- bsum_mul_l, <- bsum_mul_r. apply bsum_ext; intros; ring. }
  assert (SC : square_root D (mm D (mm D r N) r) (fun i j => pure v i j * rc (sqrt c))).
  { split; [|split].
    - intros i j Hi Hj. unfold adj. rewrite sconj_mul, rc_conj. f_equal. exact (pure_hermitian D v i j Hi Hj).
    - intros w. destruct (pure_psd D v w) as (y & Hy & Ey). exists (y * sqrt c)%R. split; [apply Rmult_le_pos; [exact Hy|apply sqrt_pos]|]. change ((_, 0%R) : CC) with (rc (y * sqrt c)). rewrite <- rc_mul. unfold rc at 2. rewrite <- Ey.
      rewrite <- bsum_mul_r. apply bsum_ext; intros i Hi. rewrite <- bsum_mul_r. apply bsum_ext; intros; ring.
    - intros i j Hi Hj. rewrite BV by assumption. rewrite <- (pure_idem D v U i j Hi Hj). unfold mm. rewrite <- bsum_mul_r. apply bsum_ext; intros k Hk. rewrite <- (sqrt_sqrt c Hc) at 3. rewrite <- rc_mul. ring. }
  pose proof (square_root_unique D _ _ _ SS SC) as SV.
  assert (Xc : x = sqrt c). { apply rc_inj. rewrite <- TS, (tr_eqm D _ _ SV). unfold tr. rewrite bsum_mul_r. fold (tr D (pure v)). rewrite (pure_trace D v U). ring. }
  subst x. split; [|exact EX]. split; [exact Hc|]. rewrite <- (sqrt_sqrt c Hc). nra.
Qed.
(** a state the channel leaves alone has fidelity 1 *)
Theorem fidelity_fixed rho : is_square D rho -> density D (me rho) -> eqm D D (channel_map (power_ops (arg_matrices a) n) (me rho)) (me rho) ->
  snd (fidelity_two_states sqrtm (after (KrausType o0) past) rho n) = Ok 1%R.
Proof.
  intros SQ HD FX. destruct (fidelity_value rho SQ HD) as (r & s & x & EX & SR & SS & TS & _). rewrite EX. f_equal. apply rc_inj. rewrite <- TS. destruct HD as (HH & HPs & HT). change (rc 1) with (1 : CC). rewrite <- HT. apply tr_eqm.
  apply (square_root_unique D _ _ _ SS). split; [exact HH|]. split; [exact HPs|]. destruct SR as (RH & RP & RR).
  intros i j Hi Hj. rewrite (mm_ext D (me rho) (mm D r r) (me rho) (mm D r r)) by (intros; symmetry; apply RR; assumption). rewrite <- mm_assoc. apply mm_ext; [|reflexivity]. intros l Hl.
  rewrite mm_assoc. apply mm_congr_r. intros k Hk. rewrite FX by assumption. apply RR; assumption.
Qed.
End Fidelity.
