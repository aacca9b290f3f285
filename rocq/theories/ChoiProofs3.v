(** The complementary channel of a Choi matrix and the entropy exchange matrix have the same
    non-zero spectrum, hence the same coherent information. *)
From Verif Require Import Py Scalar PauliModel PauliSpec EncoderProofs EighExists Spectral SpectralProofs PowerSums KrausModel KrausSpec KrausProofs KrausProofs2 KrausProofs6 KrausProofs8 KrausProofs12
  ChoiModel ChannelModel ChannelSpec ChoiSpec ChoiProofs ChoiProofs2.
From Coq Require Import Reals Lra.
Open Scope nat_scope.
Open Scope K_scope.
Add Ring CCring8 : (s_rt CC).

(** ** powers *)
Lemma mpow_comm d (A : array CC) p i j : i < d -> j < d -> mm d A (mpow d A p) i j = mm d (mpow d A p) A i j.
Proof.
  revert i j. induction p as [|p IH]; intros i j Hi Hj; cbn [mpow].
  - rewrite mm_eye_r, mm_eye_l by assumption. reflexivity.
  - rewrite mm_assoc. apply mm_congr_r. intros l Hl. apply IH; assumption.
Qed.
Lemma mm_transpose d (A B : array CC) i j : mm d (transpose A) (transpose B) i j = transpose (mm d B A) i j.
Proof. unfold transpose, mm. apply bsum_ext; intros; ring. Qed.
Lemma mpow_transpose d (A : array CC) p i j : i < d -> j < d -> mpow d (transpose A) p i j = transpose (mpow d A p) i j.
Proof.
  revert i j. induction p as [|p IH]; intros i j Hi Hj; cbn [mpow].
  - unfold transpose, eye. rewrite Nat.eqb_sym. reflexivity.
  - rewrite (mm_congr_r d _ _ (transpose (mpow d A p))) by (intros; apply IH; assumption). rewrite mm_transpose. unfold transpose. symmetry. apply mpow_comm; assumption.
Qed.
Lemma tr_mpow_transpose d (A : array CC) p : tr d (mpow d (transpose A) p) = tr d (mpow d A p).
Proof. apply bsum_ext; intros i Hi. rewrite mpow_transpose by assumption. reflexivity. Qed.
Lemma mpow_eqm d (A B : array CC) p : eqm d d A B -> eqm d d (mpow d A p) (mpow d B p).
Proof. intros H. induction p as [|p IH]; cbn [mpow]; [apply eqm_refl|]. apply (mm_eqm d); assumption. Qed.
Lemma tr_mpow_eqm d (A B : array CC) p : eqm d d A B -> tr d (mpow d A p) = tr d (mpow d B p).
Proof. intros H. apply tr_eqm, mpow_eqm, H. Qed.
Lemma tr_gram n N (M : array CC) p : tr n (mpow n (mm N M (adj M)) (S p)) = tr N (mpow N (mm n (adj M) M) (S p)).
Proof.
  set (H := mm N M (adj M)). set (G := mm n (adj M) M).
  assert (L : forall p i k, i < n -> k < N -> mm n (mpow n H p) M i k = mm N M (mpow N G p) i k).
  { induction p0 as [|q IH]; intros i k Hi Hk; cbn [mpow].
    - rewrite mm_eye_l, mm_eye_r by assumption. reflexivity.
    - rewrite mm_assoc. rewrite (mm_congr_r n _ _ (mm N M (mpow N G q))) by (intros; apply IH; assumption). unfold H, G. rewrite !mm_assoc. apply mm_congr_r. intros l Hl. rewrite mm_assoc. reflexivity. }
  cbn [mpow].
  transitivity (tr N (mm n (mm n (adj M) (mpow n H p)) M)).
  - unfold H at 1. rewrite (tr_eqm n _ (mm N M (mm n (adj M) (mpow n H p)))) by (intros i j _ _; apply mm_assoc). apply tr_mm.
  - apply tr_eqm. intros i j Hi Hj. rewrite mm_assoc. rewrite (mm_congr_r n _ _ (mm N M (mpow N G p))) by (intros; apply L; assumption). unfold G. rewrite mm_assoc. reflexivity.
Qed.
Lemma spectrum_power d A l p : spectrum d A l -> sumof (fun x => (x ^ p)%R) l = fst (tr d (mpow d A p)).
Proof.
  intros (L & V & ED). rewrite (trace_power d A V _ ED). cbn [rc fst]. unfold sumof. f_equal.
  rewrite <- (map_map (fun t => nth t l 0%R) (fun x => (x ^ p)%R)). f_equal. subst d. clear. induction l as [|x l IH]; [reflexivity|]. cbn [length seq map nth]. f_equal. rewrite <- seq_shift, map_map. exact IH.
Qed.
Lemma entropy_sum cut l : entropy_of cut l = (- sumof (fun x => if Rlt_dec cut (Rabs x) then x * log2 x else 0) l)%R.
Proof. reflexivity. Qed.
Lemma entropy_eigs_of cut l : entropy_eigs cut l = entropy_of cut l.
Proof.
  unfold entropy_eigs, entropy_of. f_equal. induction l as [|x l IH]; [reflexivity|]. cbn [filter map fold_right]. unfold below at 1. destruct (Rlt_dec cut (Rabs x)); cbn [map fold_right]; rewrite IH; [reflexivity|lra].
Qed.
Theorem same_entropy cut d A l d' B l' : (0 <= cut)%R -> spectrum d A l -> spectrum d' B l' -> (forall p, tr d (mpow d A (S p)) = tr d' (mpow d' B (S p))) ->
  entropy_of cut l = entropy_of cut l'.
Proof.
  intros C SA SB H. rewrite !entropy_sum. f_equal. apply same_sums.
  - intros k. rewrite (spectrum_power d A l _ SA), (spectrum_power d' B l' _ SB), H. reflexivity.
  - rewrite Rabs_R0. destruct (Rlt_dec cut 0); [ring|reflexivity].
Qed.

(** ** the factor M *)
Section Factor.
Variables (c : choi CC) (k : nat) (ops : list (marr CC)) (rho S : marr CC).
Let D := ch_input_dim c.
Let O := ch_output_dim c.
Hypothesis SM : is_square (D * O)%nat (ch_mat c).
Hypothesis F : fits O D ops.
Hypothesis E : eqm (D * O)%nat (D * O)%nat (me (ch_mat c)) (choi_matrix ops O).
Hypothesis SS : is_square D S.
Hypothesis SR : square_root D (me rho) (me S).

Definition factor : array CC := fun x t => mm D (me (nth t ops one_by_one)) (me S) (x mod O)%nat (x / O)%nat.
Lemma tensored_l (B : array CC) i a y : i < D -> a < O ->
  mm (D * O) (me (np_kron (np_T S) (np_eye O))) B (i * O + a)%nat y = bsum D (fun i' => me S i' i * B (i' * O + a)%nat y).
Proof.
  intros Hi Ha. destruct SS as [S1 S2]. unfold mm, np_kron, np_T, np_eye. cbn [mr mc me]. rewrite bsum_blocks. apply bsum_ext; intros i' Hi'.
  rewrite (bsum_one O a); [|exact Ha|].
  - destruct (divmod_l O i a Ha) as [-> ->]. destruct (divmod_l O i' a Ha) as [-> ->]. unfold eye. rewrite Nat.eqb_refl. ring.
  - intros a' Ha' N. destruct (divmod_l O i a Ha) as [-> ->]. destruct (divmod_l O i' a' Ha') as [-> ->]. unfold eye. destruct (Nat.eqb_spec a a'); [congruence|ring].
Qed.
Lemma tensored_r (B : array CC) x j b : j < D -> b < O ->
  mm (D * O) B (me (np_kron (np_T S) (np_eye O))) x (j * O + b)%nat = bsum D (fun j' => B x (j' * O + b)%nat * me S j j').
Proof.
  intros Hj Hb. unfold mm, np_kron, np_T, np_eye. cbn [mr mc me]. rewrite bsum_blocks. apply bsum_ext; intros j' Hj'.
  rewrite (bsum_one O b); [|exact Hb|].
  - destruct (divmod_l O j b Hb) as [-> ->]. destruct (divmod_l O j' b Hb) as [-> ->]. unfold eye. rewrite Nat.eqb_refl. ring.
  - intros b' Hb' N. destruct (divmod_l O j b Hb) as [-> ->]. destruct (divmod_l O j' b' Hb') as [-> ->]. unfold eye. destruct (Nat.eqb_spec b' b); [congruence|ring].
Qed.
Theorem complementary_value sqrtm : sqrtm rho = S -> exists C, choi_complementary sqrtm c rho = Ok C /\ is_square (D * O)%nat C /\
  eqm (D * O)%nat (D * O)%nat (me C) (mm (length ops) factor (adj factor)).
Proof.
  intros ES. destruct SM as [M1 M2]. pose proof SS as [S1 S2]. unfold choi_complementary. rewrite ES. fold O. unfold np_dot at 1. 
  assert (K1 : mr (np_kron (np_T S) (np_eye O)) = (D * O)%nat) by (cbn; rewrite S2; reflexivity).
  assert (K2 : mc (np_kron (np_T S) (np_eye O)) = (D * O)%nat) by (cbn; rewrite S1; reflexivity).
  rewrite K2, M1, Nat.eqb_refl. cbn [guard bind]. unfold np_dot. cbn [mr mc me]. rewrite M2, K1, Nat.eqb_refl. cbn [guard bind]. eexists. split; [reflexivity|].
  split; [split; cbn [mr mc]; congruence|]. intros x y Hx Hy. cbn [me].
  assert (O0 : O <> 0%nat) by (intros Z; rewrite Z in Hx; lia).
  rewrite (Nat.div_mod x O), (Nat.div_mod y O) by exact O0. rewrite !(Nat.mul_comm O).
  assert (x / O < D /\ y / O < D) as [X1 Y1] by (split; apply Nat.div_lt_upper_bound; lia).
  assert (x mod O < O /\ y mod O < O) as [X2 Y2] by (split; apply Nat.mod_upper_bound; exact O0).
  set (i := x / O) in *. set (a := x mod O) in *. set (j := y / O) in *. set (b := y mod O) in *. clearbody i a j b.
  rewrite tensored_r by assumption.
  transitivity (bsum D (fun j' => bsum D (fun i' => ksum (map (fun A => me S i' i * (me A a i' * (me A b j')^*) * me S j j') ops)))).
  - apply bsum_ext; intros j' Hj'. rewrite tensored_l by assumption. rewrite <- bsum_mul_r. apply bsum_ext; intros i' Hi'. rewrite E by nia. rewrite (choi_entry ops O D) by assumption.
    rewrite KrausProofs.ksum_mul_r, KrausProofs.ksum_mul_l. reflexivity.
  - destruct SR as (HS & _ & _).
    rewrite (bsum_ext D _ (fun j' => ksum (map (fun A => bsum D (fun i' => me S i' i * (me A a i' * (me A b j')^*) * me S j j')) ops))) by (intros; apply bsum_ksum_map).
    rewrite bsum_ksum_map. rewrite <- (bsum_ksum_nth ops one_by_one). unfold mm at 1. apply bsum_ext; intros t Ht. unfold adj, factor.
    destruct (divmod_l O i a X2) as [-> ->]. destruct (divmod_l O j b Y2) as [-> ->]. unfold mm. set (A := me (nth t ops one_by_one)).
    rewrite bsum_conj, <- bsum_mul_l. apply bsum_ext; intros j' Hj'. rewrite <- bsum_mul_r. apply bsum_ext; intros i' Hi'. rewrite sconj_mul.
    rewrite <- (HS j j') by assumption. unfold adj. ring.
Qed.
Theorem exchange_value_factor : eqm (length ops) (length ops) (exchange_entry ops (me rho)) (transpose (mm (D * O) (adj factor) factor)).
Proof.
  intros s t Hs Ht. destruct SR as (HS & _ & HR). unfold transpose, mm at 1. rewrite bsum_blocks.
  destruct (nth_fits _ _ _ s F Hs) as [A1 A2]. destruct (nth_fits _ _ _ t F Ht) as [B1 B2]. unfold exchange_entry. rewrite A1, A2.
  set (A := me (nth s ops one_by_one)). set (B := me (nth t ops one_by_one)).
  transitivity (bsum D (fun i => bsum O (fun a => (mm D B (me S) a i)^* * mm D A (me S) a i))).
  2:{ apply bsum_ext; intros i Hi. apply bsum_ext; intros a Ha. unfold adj, factor. destruct (divmod_l O i a Ha) as [-> ->]. reflexivity. }
  rewrite bsum_swap. unfold tr. apply bsum_ext; intros a Ha.
  transitivity (mm D (mm D A (me S)) (adj (mm D B (me S))) a a).
  2:{ unfold mm at 1. apply bsum_ext; intros i Hi. unfold adj. ring. }
  rewrite (mm_ext D (mm D A (me S)) (mm D A (me S)) (adj (mm D B (me S))) (mm D (adj (me S)) (adj B))) by (intros; try reflexivity; apply adj_mm).
  rewrite <- mm_assoc. apply mm_ext; [|reflexivity]. intros x Hx. rewrite mm_assoc. apply mm_congr_r. intros l Hl. rewrite <- HR by assumption. apply mm_congr_r. intros q Hq. symmetry. apply HS; assumption.
Qed.
Theorem same_power_traces C p : eqm (D * O)%nat (D * O)%nat C (mm (length ops) factor (adj factor)) ->
  tr (D * O) (mpow (D * O) C (Datatypes.S p)) = tr (length ops) (mpow (length ops) (exchange_entry ops (me rho)) (Datatypes.S p)).
Proof.
  intros HC. rewrite (tr_mpow_eqm _ _ _ _ HC), tr_gram. rewrite (tr_mpow_eqm _ _ _ _ exchange_value_factor), tr_mpow_transpose. reflexivity.
Qed.
End Factor.

(** ** coherent information *)
Lemma cut10_nonneg : (0 <= cut_off10)%R. Proof. unfold cut_off10. apply Rlt_le, Rinv_0_lt_compat. lra. Qed.
Lemma vn_unique d A d' B s s' : vn_entropy d A s -> vn_entropy d' B s' -> (forall p, tr d (mpow d A (S p)) = tr d' (mpow d' B (S p))) -> s = s'.
Proof. intros (l & SA & ->) (l' & SB & ->) H. exact (same_entropy _ _ _ _ _ _ _ cut10_nonneg SA SB H). Qed.
Lemma vn_exists d A : hermitian d A -> exists s, vn_entropy d A s.
Proof.
  intros H. destruct (spectral d A H) as (V & e & ED). exists (entropy_of cut_off10 (map e (seq 0 d))), (map e (seq 0 d)). split; [|reflexivity].
  split; [rewrite map_length, seq_length; reflexivity|]. exists V. destruct ED as [U ED]. split; [exact U|]. intros i j Hi Hj. rewrite ED by assumption.
  rewrite (nth_indep _ 0%R (e O)) by (rewrite map_length, seq_length; exact Hj). rewrite map_nth, seq_nth by exact Hj. reflexivity.
Qed.
Lemma eigen_ext d A B e V : eqm d d A B -> eigen_decomposition d A e V -> eigen_decomposition d B e V.
Proof. intros E [U H]. split; [exact U|]. intros i t Hi Ht. rewrite <- H by assumption. apply mm_ext; [|reflexivity]. intros l Hl. symmetry. apply E; assumption. Qed.
Lemma spectrum_ext d A B l : eqm d d A B -> spectrum d A l -> spectrum d B l.
Proof. intros E (L & V & H). split; [exact L|]. exists V. exact (eigen_ext _ _ _ _ _ E H). Qed.
Lemma vn_ext d A B s : eqm d d A B -> vn_entropy d A s -> vn_entropy d B s.
Proof. intros E (l & H & ->). exists l. split; [exact (spectrum_ext _ _ _ _ E H)|reflexivity]. Qed.
Lemma entropy_one eigvalsh A d : eigvalsh_ok eigvalsh -> is_square d A -> hermitian d (me A) -> exists s, entropy eigvalsh [A] = Ok s /\ vn_entropy d (me A) s.
Proof.
  intros OK Q H. cbn [entropy forallb flat_map]. rewrite app_nil_r. eexists. split; [reflexivity|]. exists (eigvalsh A). split; [exact (OK d A Q H)|apply entropy_eigs_of].
Qed.

(** the Kraus-type channel, any n *)
Theorem coherent_kraus eigvalsh sqrtm sp (a : kraus_arg CC) nq din dout orthogonal o0 past n rho reg :
  eigvalsh_ok eigvalsh ->
  kraus_init sp a nq din dout orthogonal = Ok o0 -> arg_matrices a <> [] -> sp = true \/ orthogonal = [] -> Forall (fun m => 1 <= m) past -> 1 <= n -> clean sp past n ->
  let D := (din ^ fst nq) ^ n in let D' := (dout ^ snd nq) ^ n in let N := length (arg_matrices a) ^ n in is_square D rho -> hermitian D (me rho) ->
  exists s1 s2, snd (coherent_information eigvalsh sqrtm (after (KrausType o0) past) rho n reg) = Ok (if reg then (s1 - s2) / INR n else s1 - s2)%R /\
    vn_entropy D' (channel_map (power_ops (arg_matrices a) n) (me rho)) s1 /\
    vn_entropy N (exchange_entry (power_ops (arg_matrices a) n) (me rho)) s2.
Proof.
  intros OK H NE OR HP Hn CL D D' N SQ HE.
  destruct (c31 _ _ _ _ _ _ _ _ _ rho H NE HP Hn CL SQ) as (out & E1 & Q1 & V1 & _ & H1 & _).
  destruct (c35 _ _ _ _ _ _ _ (past ++ [n]) n rho H NE OR) as (W & E2 & Q2 & V2 & _ & H2 & _).
  { apply Forall_app. split; [exact HP|]. constructor; [exact Hn|constructor]. } { exact Hn. }
  { intros S1 S2. apply Forall_app. split; [apply CL; assumption|]. constructor; [exact S2|constructor]. } { exact SQ. }
  fold D D' in Q1, V1, H1. fold D N in Q2, V2, H2.
  destruct (entropy_one eigvalsh out _ OK Q1 (H1 HE)) as (s1 & S1 & VS1). destruct (entropy_one eigvalsh W _ OK Q2 (H2 HE)) as (s2 & S2 & VS2).
  exists s1, s2. split; [|split; [exact (vn_ext _ _ _ _ V1 VS1)|exact (vn_ext _ _ _ _ V2 VS2)]].
  unfold coherent_information.
  assert (L : fst (chan_channel (after (KrausType o0) past) rho n false) = after (KrausType o0) (past ++ [n])).
  { unfold after. rewrite fold_left_app. cbn [fold_left]. fold (after (KrausType o0) past).
    assert (exists k, after (KrausType o0) past = KrausType k) as [k ->].
    { unfold after. clear. revert o0. induction past as [|m l IH]; intros o0; [exists o0; reflexivity|]. cbn [fold_left update_channel_tensored].
      destruct (Nat.eqb m (current_n o0)); [apply IH|]. destruct (update_kraus_operators o0 m) as [k r]. apply IH. }
    cbn [chan_channel update_channel_tensored]. unfold at_n. destruct (Nat.eqb n (current_n k)); [reflexivity|]. destruct (update_kraus_operators k n) as [k' [u|e]]; reflexivity. }
  destruct (chan_channel (after (KrausType o0) past) rho n false) as [c1 q]. cbn [fst snd] in *. subst q c1.
  assert (exists k, after (KrausType o0) (past ++ [n]) = KrausType k) as [k EK].
  { unfold after. clear. revert o0. induction (past ++ [n]) as [|m l IH]; intros o0; [exists o0; reflexivity|]. cbn [fold_left update_channel_tensored].
    destruct (Nat.eqb m (current_n o0)); [apply IH|]. destruct (update_kraus_operators o0 m) as [k r]. apply IH. }
  rewrite EK in *. destruct (chan_exchange (KrausType k) rho n) as [c2 w]. cbn [snd] in *. subst w. cbn [bind]. rewrite S1. cbn [bind]. rewrite S2. cbn [bind]. reflexivity.
Qed.

(** the Choi-type channel *)
Theorem coherent_choi eigvalsh sqrtm sparse (c : choi CC) ops rho reg :
  eigvalsh_ok eigvalsh -> sqrtm_ok sqrtm -> num_in c = num_out c ->
  let D := ch_input_dim c in let O := ch_output_dim c in
  is_square (D * O)%nat (ch_mat c) -> fits O D ops -> eqm (D * O)%nat (D * O)%nat (me (ch_mat c)) (choi_matrix ops O) ->
  is_square D rho -> hermitian D (me rho) -> psd D (me rho) ->
  exists s1 s2, snd (coherent_information eigvalsh sqrtm (ChoiType sparse c) rho 1 reg) = Ok (s1 - s2)%R /\
    vn_entropy O (channel_map ops (me rho)) s1 /\ vn_entropy (length ops) (exchange_entry ops (me rho)) s2.
Proof.
  intros OK OS SQN. destruct c as [m ki ko di dd]. cbn [num_in num_out] in SQN. subst ki. set (c := CH m ko ko di dd). intros D O SM F E SQ HE P. destruct (OS D rho SQ HE P) as [QS SR].
  destruct (choi_channel_kraus c rho ko ops eq_refl eq_refl SQ SM F E) as (out & E1 & Q1 & V1).
  destruct (complementary_value c ops rho (sqrtm rho) SM F E QS SR sqrtm eq_refl) as (C & E2 & Q2 & V2).
  assert (H1 : hermitian O (me out)). { apply (hermitian_ext _ (channel_map ops (me rho))); [apply eqm_sym, V1|]. apply (channel_hermitian O D); assumption. }
  assert (H2 : hermitian (D * O)%nat (me C)).
  { apply (hermitian_ext _ _ _ (eqm_sym _ _ _ _ V2)). intros i j Hi Hj. rewrite adj_mm. apply mm_ext; [|reflexivity]. intros. unfold adj. apply sconj_conj. }
  destruct (entropy_one eigvalsh out _ OK Q1 H1) as (s1 & S1 & VS1). destruct (entropy_one eigvalsh C _ OK Q2 H2) as (s2 & S2 & VS2).
  exists s1, s2. split; [|split].
  - unfold coherent_information. cbn [chan_channel Nat.eqb assert_ guard bind]. unfold assert_, guard. cbn [bind]. rewrite E1. rewrite E2. cbn [bind snd]. rewrite S1. cbn [bind]. rewrite S2. cbn [bind]. f_equal. destruct reg; [|reflexivity]. cbn [INR]. field.
  - exact (vn_ext _ _ _ _ V1 VS1).
  - assert (HX : hermitian (length ops) (exchange_entry ops (me rho))) by (apply (exchange_hermitian O D); assumption).
    destruct (vn_exists _ _ HX) as (s & VS). replace s2 with s; [exact VS|]. symmetry. apply (vn_unique _ _ _ _ _ _ VS2 VS). intros p.
    exact (same_power_traces c ops rho (sqrtm rho) F SR (me C) p V2).
Qed.
Theorem coherent_agree eigvalsh sqrtm sp sparse (a : kraus_arg CC) k din dout orthogonal o0 past (m : marr CC) rho reg :
  eigvalsh_ok eigvalsh -> sqrtm_ok sqrtm ->
  kraus_init sp a (k, k) din dout orthogonal = Ok o0 -> arg_matrices a <> [] -> sp = true \/ orthogonal = [] -> Forall (fun m => 1 <= m) past -> clean sp past 1 ->
  let D := din ^ k in let O := dout ^ k in
  is_square (D * O)%nat m -> eqm (D * O)%nat (D * O)%nat (me m) (choi_matrix (arg_matrices a) O) ->
  is_square D rho -> hermitian D (me rho) -> psd D (me rho) ->
  exists r, snd (coherent_information eigvalsh sqrtm (after (KrausType o0) past) rho 1 reg) = Ok r /\
            snd (coherent_information eigvalsh sqrtm (ChoiType sparse (CH m k k din dout)) rho 1 reg) = Ok r.
Proof.
  intros OK OS H NE OR HP CL D O SM E SQ HE P.
  assert (F0 : fits O D (arg_matrices a)) by exact (fits0 sp a (k, k) din dout orthogonal o0 H NE).
  destruct (coherent_kraus eigvalsh sqrtm sp a (k, k) din dout orthogonal o0 past 1 rho reg OK H NE OR HP (le_n 1) CL) as (s1 & s2 & E1 & V1 & W1).
  { cbn [fst]. rewrite Nat.pow_1_r. exact SQ. } { cbn [fst]. rewrite Nat.pow_1_r. exact HE. }
  destruct (coherent_choi eigvalsh sqrtm sparse (CH m k k din dout) (arg_matrices a) rho reg OK OS eq_refl SM F0 E SQ HE P) as (t1 & t2 & E2 & V2 & W2).
  exists (s1 - s2)%R. split; [rewrite E1; f_equal; destruct reg; [cbn [INR]; field|reflexivity]|]. rewrite E2. cbn [fst snd] in *. rewrite !Nat.pow_1_r in *.
  pose proof (power_ops_1 (arg_matrices a)) as SO. f_equal. f_equal.
  - symmetry. apply (vn_unique _ _ _ _ _ _ V1 V2). intros p. apply tr_mpow_eqm. apply eqm_sym. apply (channel_map_same O D); [exact F0|exact SO|apply eqm_refl].
  - symmetry. apply (vn_unique _ _ _ _ _ _ W1 W2). intros p. apply tr_mpow_eqm. apply eqm_sym. intros i j Hi Hj. apply (exchange_entry_same O D); try assumption. apply eqm_refl.
Qed.
