(** The coherent information of product states. *)
From Verif Require Import Py Scalar PauliModel PauliSpec EncoderProofs EighExists Spectral SpectralProofs PowerSums KrausModel KrausSpec KrausProofs KrausProofs2 KrausProofs5 KrausProofs6 KrausProofs8 KrausProofs11 KrausProofs12
  ChoiModel ChannelModel ChannelSpec ChoiSpec ChoiProofs ChoiProofs2 ChoiProofs3 Sqrt EntropyProofs EntropySpec Subadd CohProofs CohProofs2.
From Coq Require Import Reals Lra.
Open Scope nat_scope.
Open Scope K_scope.
Add Ring CCring34 : (s_rt CC).

Lemma psd_kf d d' (A B : array CC) : psd d A -> psd d' B -> psd (d * d') (kf d' d' A B).
Proof.
  intros PA PB. destruct (square_root_exists d A PA) as (S & HS & _ & ES). destruct (square_root_exists d' B PB) as (T & HT & _ & ET).
  apply (psd_ext _ (mm (d * d') (kf d' d' S T) (adj (kf d' d' S T)))); [|apply psd_outer]. intros i j Hi Hj.
  rewrite (mm_ext _ _ (kf d' d' S T) _ (kf d' d' (adj S) (adj T))) by (intros; first [reflexivity|apply adj_kf]). rewrite mm_kf.
  apply (kf_ext d d' d d'); try assumption; intros x y Hx Hy; [rewrite <- ES|rewrite <- ET]; try assumption; apply mm_ext; intros k Hk; try reflexivity; [apply HS|apply HT]; assumption.
Qed.
Lemma density_kf d d' (A B : array CC) : density d A -> density d' B -> density (d * d') (kf d' d' A B).
Proof.
  intros (HA & PA & TA) (HB & PB & TB). split; [apply psd_hermitian|split]; try (apply psd_kf; assumption). rewrite tr_kf, TA, TB. ring.
Qed.
Lemma density_ext d (A B : array CC) : eqm d d A B -> density d A -> density d B.
Proof. intros E (H & P & T). split; [exact (hermitian_ext _ _ _ E H)|]. split; [exact (psd_ext _ _ _ E P)|]. rewrite <- T. symmetry. apply tr_eqm, E. Qed.
Lemma von_of d A V e : psd d A -> eigen_decomposition d A e V -> von_neumann d A (- rsum d (fun t => e t * ln (e t)) / ln 2)%R.
Proof.
  intros P E. set (l := map e (seq 0 d)). assert (L : length l = d) by (unfold l; rewrite map_length, seq_length; reflexivity).
  assert (N : forall t, t < d -> nth t l 0%R = e t) by (intros t Ht; unfold l; rewrite (nth_indep _ 0%R (e d)) by (rewrite map_length, seq_length; exact Ht); rewrite map_nth, seq_nth by exact Ht; reflexivity).
  exists l. split.
  - split; [exact L|]. exists V. destruct E as [U H]. split; [exact U|]. intros i t Hi Ht. rewrite N by exact Ht. apply H; assumption.
  - rewrite entropy0.
    + rewrite <- (rsum_list l (fun x => (x * ln x)%R)), L. f_equal. f_equal. apply rsum_ext. intros t Ht. rewrite N by exact Ht. reflexivity.
    + apply Forall_forall. intros x Hx. unfold l in Hx. apply in_map_iff in Hx. destruct Hx as (t & <- & Ht). apply in_seq in Ht. apply (psd_eig d A V e E P). lia.
Qed.
Lemma von_kf d d' (A B : array CC) s t : density d A -> density d' B -> von_neumann d A s -> von_neumann d' B t -> von_neumann (d * d') (kf d' d' A B) (s + t)%R.
Proof.
  intros DA DB VA VB. destruct (von_form d A s (proj1 (proj2 DA)) VA) as (U & e & EA & ->). destruct (von_form d' B t (proj1 (proj2 DB)) VB) as (V & f & EB & ->).
  set (g := fun i => (e (i / d')%nat * f (i mod d')%nat)%R).
  assert (E : eigen_decomposition (d * d') (kf d' d' A B) g (kf d' d' U V)).
  { split; [apply unitary_kf; [apply EA|apply EB]|]. intros i j Hi Hj. rewrite mm_kf. unfold kf. destruct EA as [_ EA], EB as [_ EB].
    rewrite EA, EB by first [eapply mod_lt_mul; eassumption|eapply div_lt_mul; eassumption]. unfold g. 
    replace (((e (j / d')%nat * f (j mod d')%nat)%R, 0%R) : CC) with (((e (j / d')%nat, 0%R) : CC) * ((f (j mod d')%nat, 0%R) : CC)) by (apply CC_eq; cbn; ring). ring. }
  pose proof (von_of _ _ _ _ (psd_kf d d' A B (proj1 (proj2 DA)) (proj1 (proj2 DB))) E) as W.
  replace (- rsum d (fun t => e t * ln (e t)) / ln 2 + - rsum d' (fun t => f t * ln (f t)) / ln 2)%R with (- rsum (d * d') (fun t => g t * ln (g t)) / ln 2)%R; [exact W|].
  pose proof (eig_sum _ _ _ _ EA) as SA. pose proof (eig_sum _ _ _ _ EB) as SB. rewrite (proj2 (proj2 DA)) in SA. rewrite (proj2 (proj2 DB)) in SB. cbn in SA, SB.
  pose proof (psd_eig d A U e EA (proj1 (proj2 DA))) as NA. pose proof (psd_eig d' B V f EB (proj1 (proj2 DB))) as NB.
  rewrite rsum_blocks. rewrite (rsum_ext d _ (fun k => e k * ln (e k) + e k * rsum d' (fun t => f t * ln (f t)))%R).
  - rewrite rsum_add, rsum_scale_r, SA. pose proof ln2_pos. field. lra.
  - intros k Hk. rewrite (rsum_ext d' _ (fun l => e k * ln (e k) * f l + e k * (f l * ln (f l)))%R).
    + rewrite rsum_add, !rsum_scale, SB. ring.
    + intros l Hl. unfold g. destruct (divmod_l d' k l Hl) as [-> ->]. destruct (Req_dec (e k) 0) as [->|Z1]; [ring|]. destruct (Req_dec (f l) 0) as [->|Z2]; [ring|].
      specialize (NA k Hk). specialize (NB l Hl). rewrite ln_mult by lra. ring.
Qed.
(** ** products of channels *)
Lemma tens_nth (l m : list (marr CC)) i : i < length l * length m ->
  nth i (tens_ops l m) one_by_one = tens (nth (i / length m) l one_by_one) (nth (i mod length m) m one_by_one).
Proof.
  revert i. induction l as [|A l IH]; [cbn; lia|]. intros i Hi. cbn [length] in Hi. unfold tens_ops. cbn [flat_map]. fold (tens_ops l m).
  assert (M0 : length m <> 0%nat) by lia. destruct (Nat.lt_ge_cases i (length m)) as [H|H].
  - rewrite app_nth1 by (rewrite map_length; exact H). rewrite Nat.div_small, Nat.mod_small by exact H. cbn [nth].
    rewrite (nth_indep _ one_by_one (tens A one_by_one)) by (rewrite map_length; exact H). apply map_nth.
  - rewrite app_nth2 by (rewrite map_length; exact H). rewrite map_length. rewrite IH by lia.
    replace i with (1 * length m + (i - length m))%nat at 3 4 by lia. rewrite Nat.div_add_l by exact M0. rewrite (Nat.add_comm (1 * length m)), Nat.mod_add by exact M0. cbn [nth Nat.add]. reflexivity.
Qed.
Lemma tens_len (l m : list (marr CC)) : length (tens_ops l m) = (length l * length m)%nat.
Proof. unfold tens_ops. induction l as [|A l IH]; [reflexivity|]. cbn [flat_map length]. rewrite app_length, map_length, IH. lia. Qed.
Lemma exchange_tens r c r' c' (l m : list (marr CC)) R S : fits r c l -> fits r' c' m ->
  eqm (length l * length m) (length l * length m) (exchange_entry (tens_ops l m) (kf c' c' R S)) (kf (length m) (length m) (exchange_entry l R) (exchange_entry m S)).
Proof.
  intros F M i j Hi Hj. unfold kf at 2. unfold exchange_entry. rewrite !tens_nth by assumption.
  pose proof (div_lt_mul _ _ _ Hi) as I1. pose proof (div_lt_mul _ _ _ Hj) as J1. pose proof (mod_lt_mul _ _ _ Hi) as I2. pose proof (mod_lt_mul _ _ _ Hj) as J2.
  destruct (nth_fits _ _ _ _ F I1) as [A1 A2]. destruct (nth_fits _ _ _ _ F J1) as [B1 B2]. destruct (nth_fits _ _ _ _ M I2) as [C1 C2]. destruct (nth_fits _ _ _ _ M J2) as [G1 G2].
  cbn [tens mr mc]. rewrite A1, A2, C1, C2. rewrite <- tr_kf. apply tr_eqm. intros x y Hx Hy.
  transitivity (mm (c * c') (kf r' c' (mm c (me (nth (i / length m) l one_by_one)) R) (mm c' (me (nth (i mod length m) m one_by_one)) S)) (kf c' r' (adj (me (nth (j / length m) l one_by_one))) (adj (me (nth (j mod length m) m one_by_one)))) x y).
  - apply mm_ext; intros k _.
    + rewrite <- (mm_kf c c' r' c'). apply mm_ext; intros; [|reflexivity]. rewrite me_tens, C1, C2. reflexivity.
    + rewrite <- adj_kf. unfold adj. rewrite me_tens, G1, G2. reflexivity.
  - apply mm_kf.
Qed.
(** the exact entropies of the output and of the environment *)
Definition entropies (O : nat) (ops : list (marr CC)) (rho : array CC) (p : R * R) : Prop := von_neumann O (channel_map ops rho) (fst p) /\ von_neumann (length ops) (exchange_entry ops rho) (snd p).
Definition state (D : nat) (rho : marr CC) : Prop := is_square D rho /\ density D (me rho).
Definition total (f : R * R -> R) (ps : list (R * R)) : R := fold_right Rplus 0%R (map f ps).
Lemma von_one A : A 0%nat 0%nat = s1 -> von_neumann 1 A 0.
Proof.
  intros E. assert (D : density 1 A).
  { split; [|split].
    - intros i j Hi Hj. replace i with 0%nat by lia. replace j with 0%nat by lia. unfold adj. rewrite E. apply sconj_1.
    - apply (psd_ext _ (mm 1 eye (adj eye))); [|apply psd_outer]. intros i j Hi Hj. replace i with 0%nat by lia. replace j with 0%nat by lia. rewrite E. unfold mm, adj, eye. cbn [bsum Nat.eqb]. rewrite sconj_1. ring.
    - unfold tr. cbn [bsum]. rewrite E. ring. }
  destruct (von_exists 1 A (proj1 D)) as (s & V). pose proof (von_bounds 1 A s D V) as B. unfold log2 in B. cbn [INR] in B. rewrite ln_1 in B. unfold Rdiv in B. replace 0%R with s by lra. exact V.
Qed.
Lemma density_one : density 1 (me (one_by_one : marr CC)).
Proof.
  split; [|split].
  - intros i j Hi Hj. unfold adj, one_by_one. cbn [me]. apply sconj_1.
  - apply (psd_ext _ (mm 1 eye (adj eye))); [|apply psd_outer]. intros i j Hi Hj. replace i with 0%nat by lia. replace j with 0%nat by lia. unfold one_by_one, mm, adj, eye. cbn [bsum Nat.eqb me]. rewrite sconj_1. ring.
  - unfold tr, one_by_one. cbn [bsum me]. ring.
Qed.
Lemma state_all D rhos : Forall (state D) rhos -> state (D ^ length rhos) (tens_all rhos).
Proof.
  intros F. induction F as [|rho rhos [[Q1 Q2] S] F ([E1 E2] & IH)]; [split; [split; reflexivity|apply density_one]|].
  change (tens_all (rho :: rhos)) with (tens rho (tens_all rhos)). cbn [length Nat.pow]. split; [split; cbn [tens mr mc]; congruence|].
  apply (density_ext _ (kf (D ^ length rhos) (D ^ length rhos) (me rho) (me (tens_all rhos)))); [|apply density_kf; assumption]. intros i j Hi Hj. rewrite me_tens, E1, E2. reflexivity.
Qed.
Lemma entropies_all D O ops rhos ps : fits O D ops -> trace_preserving D ops -> Forall2 (fun rho p => state D rho /\ entropies O ops (me rho) p) rhos ps ->
  entropies (O ^ length rhos) (power_ops ops (length rhos)) (me (tens_all rhos)) (total fst ps, total snd ps).
Proof.
  intros F TP H. induction H as [|rho p rhos ps [S [E1 E2]] H IH].
  - split; cbn [fst snd].
    + apply von_one. cbn [length power_ops tens_all fold_right]. unfold channel_map. cbn [map]. rewrite ksum_cons, ksum_nil. unfold mm, adj, one_by_one. cbn [mr mc me bsum]. rewrite sconj_1. ring.
    + apply von_one. cbn [length power_ops tens_all fold_right]. unfold exchange_entry. cbn [nth]. unfold tr, mm, adj, one_by_one. cbn [mr mc me bsum]. rewrite sconj_1. ring.
  - assert (SS : Forall (state D) rhos) by (clear -H; induction H as [|? ? ? ? [? _]]; constructor; assumption).
    pose proof (state_all D rhos SS) as [[Q1 Q2] DS]. destruct IH as [I1 I2]. cbn [fst snd] in I1, I2. cbn [length]. set (n := length rhos) in *.
    change (tens_all (rho :: rhos)) with (tens rho (tens_all rhos)). cbn [power_ops Nat.pow].
    assert (FP : fits (O ^ n) (D ^ n) (power_ops ops n)) by (apply fits_power, F).
    assert (TPn : trace_preserving (D ^ n) (power_ops ops n)) by (apply (tp_power O), TP; exact F).
    assert (K : eqm (D * D ^ n) (D * D ^ n) (me (tens rho (tens_all rhos))) (kf (D ^ n) (D ^ n) (me rho) (me (tens_all rhos)))) by (intros i j _ _; rewrite me_tens, Q1, Q2; reflexivity).
    assert (FT : fits (O * O ^ n) (D * D ^ n) (tens_ops ops (power_ops ops n))) by (apply fits_tens; assumption).
    assert (EX : forall R C (l : list (marr CC)) X, fits R C l -> trace_preserving C l -> density C X -> density (length l) (exchange_entry l X)).
    { intros R C l X FF T DX. split; [apply (exchange_hermitian R C); [exact FF|apply DX]|]. split; [apply (exchange_psd R C); [exact FF|apply DX]|]. rewrite (exchange_trace R C) by exact FF. rewrite (channel_trace R C l X FF T). apply DX. }
    split; cbn [fst snd]; unfold total; cbn [map fold_right].
    + apply (von_ext _ (kf (O ^ n) (O ^ n) (channel_map ops (me rho)) (channel_map (power_ops ops n) (me (tens_all rhos))))).
      * intros i j Hi Hj. rewrite (channel_map_same (O * O ^ n) (D * D ^ n) _ _ _ _ FT (same_ops_refl _) K i j Hi Hj). symmetry. apply (channel_tens O D (O ^ n) (D ^ n)); assumption.
      * apply von_kf; [apply (channel_density O D); [assumption..|apply S]|apply (channel_density (O ^ n) (D ^ n)); assumption|exact E1|exact I1].
    + rewrite tens_len. apply (von_ext _ (kf (length (power_ops ops n)) (length (power_ops ops n)) (exchange_entry ops (me rho)) (exchange_entry (power_ops ops n) (me (tens_all rhos))))).
      * intros i j Hi Hj. rewrite <- (exchange_tens O D (O ^ n) (D ^ n) ops (power_ops ops n) _ _ F FP i j Hi Hj).
        symmetry. apply (exchange_entry_same (O * O ^ n) (D * D ^ n)); [exact FT|apply same_ops_refl|exact K|rewrite tens_len; assumption..].
      * apply von_kf; [apply (EX O D); [assumption..|apply S]|apply (EX (O ^ n) (D ^ n)); assumption|exact E2|exact I2].
Qed.
Section Object.
Variables (eigvalsh : marr CC -> list R) (sqrtm : marr CC -> marr CC).
Hypothesis OK : eigvalsh_ok eigvalsh.
Variables (sp : bool) (a : kraus_arg CC) (nq : nat * nat) (din dout : nat) (orthogonal : list nat) (o0 : kraus CC) (past : list nat).
Hypothesis I0 : kraus_init sp a nq din dout orthogonal = Ok o0.
Hypothesis NE : arg_matrices a <> [].
Hypothesis OR : sp = true \/ orthogonal = [].
Hypothesis HP : Forall (fun m => 1 <= m) past.
Hypothesis TP0 : trace_preserving (din ^ fst nq) (arg_matrices a).
Let D := (din ^ fst nq)%nat.
Let D' := (dout ^ snd nq)%nat.
Let N := length (arg_matrices a).
Let loss k := (INR (Nat.min (N ^ k) (D ^ k * D' ^ k)) * slack)%R.
Let single rho := snd (coherent_information eigvalsh sqrtm (KrausType o0) rho 1 false).
(** the exact value on a state, within the cut-off *)
Lemma value_near p n rho reg : Forall (fun m => 1 <= m) p -> 1 <= n -> clean sp p n -> state (D ^ n) rho ->
  exists r t, snd (coherent_information eigvalsh sqrtm (after (KrausType o0) p) rho n reg) = Ok (if reg then r / INR n else r)%R /\
    entropies (D' ^ n) (power_ops (arg_matrices a) n) (me rho) t /\
    (fst t - snd t - INR (D' ^ n) * slack <= r <= fst t - snd t + loss n)%R.
Proof.
  intros HPp Hn CL [SQ DR]. pose proof (fitsn sp a nq din dout orthogonal o0 n I0 NE) as F. fold D D' in F.
  assert (TP : trace_preserving (D ^ n) (power_ops (arg_matrices a) n)) by (apply (tp_power D'); [eapply fits0; eassumption|exact TP0]).
  destruct (coherent_kraus eigvalsh sqrtm sp a nq din dout orthogonal o0 p n rho reg OK I0 NE OR HPp Hn CL SQ (proj1 DR)) as (s1 & s2 & E & V1 & V2).
  fold D' in V1. fold N in V2. pose proof (channel_density (D' ^ n) (D ^ n) _ (me rho) F TP DR) as DO. destruct (von_exists _ _ (proj1 DO)) as (t1 & W1).
  destruct (von_exists _ _ (exchange_hermitian (D' ^ n) (D ^ n) _ (me rho) F (proj1 DR))) as (t2 & W2).
  pose proof (vn_von _ _ _ _ DO V1 W1) as B1. assert (PL : length (power_ops (arg_matrices a) n) = (N ^ n)%nat) by apply power_len. rewrite <- PL in V2.
  pose proof (exchange_slack (D ^ n) (D' ^ n) _ (me rho) s2 t2 F TP DR V2 W2) as B2. rewrite PL in B2.
  exists (s1 - s2)%R, (t1, t2). split; [exact E|]. split; [split; assumption|]. cbn [fst snd]. unfold loss. lra.
Qed.
Theorem coherent_product rhos reg : 1 <= length rhos -> clean sp past (length rhos) -> Forall (state D) rhos ->
  exists r rs, snd (coherent_information eigvalsh sqrtm (after (KrausType o0) past) (tens_all rhos) (length rhos) reg) = Ok (if reg then r / INR (length rhos) else r)%R /\
    Forall2 (fun rho x => single rho = Ok x) rhos rs /\
    (- (INR (D' ^ length rhos) * slack + INR (length rhos) * loss 1) <= r - fold_right Rplus 0 rs <= loss (length rhos) + INR (length rhos) * (INR D' * slack))%R.
Proof.
  intros Hn CL S. destruct (value_near past (length rhos) (tens_all rhos) reg HP Hn CL (state_all D rhos S)) as (r & t & E & [T1 T2] & B).
  assert (G : exists rs ps, Forall2 (fun rho x => single rho = Ok x) rhos rs /\ Forall2 (fun rho p => state D rho /\ entropies D' (arg_matrices a) (me rho) p) rhos ps /\
    (total fst ps - total snd ps - INR (length rhos) * (INR D' * slack) <= fold_right Rplus 0 rs <= total fst ps - total snd ps + INR (length rhos) * loss 1)%R).
  { clear -S OK I0 NE OR TP0. induction S as [|rho rhos S1 S (rs & ps & I1 & I2 & I3)].
    - exists [], []. split; [constructor|]. split; [constructor|]. cbn. lra.
    - destruct (value_near [] 1 rho false) as (x & t & E & [T1 T2] & B); [constructor|lia|intros _ _; constructor|rewrite Nat.pow_1_r; exact S1|].
      exists (x :: rs), (t :: ps). split; [constructor; [exact E|exact I1]|]. split.
      + constructor; [|exact I2]. split; [exact S1|]. rewrite Nat.pow_1_r in T1.
        pose proof (fits0 sp a nq din dout orthogonal o0 I0 NE) as F0. fold D D' in F0.
        split.
        * apply (von_ext _ (channel_map (power_ops (arg_matrices a) 1) (me rho))); [|exact T1]. apply eqm_sym. apply (channel_map_same D' D); [exact F0|apply power_ops_1|apply eqm_refl].
        * assert (PL : length (power_ops (arg_matrices a) 1) = length (arg_matrices a)) by (rewrite power_len; apply Nat.pow_1_r). rewrite PL in T2. revert T2. apply von_ext. intros i j Hi Hj. symmetry. apply (exchange_entry_same D' D); [exact F0|apply power_ops_1|apply eqm_refl|assumption..].
      + rewrite Nat.pow_1_r in B. cbn [length]. rewrite S_INR. unfold total in *. cbn [map fold_right] in *. lra. }
  destruct G as (rs & ps & G1 & G2 & G3). exists r, rs. split; [exact E|]. split; [exact G1|].
  pose proof (entropies_all D D' (arg_matrices a) rhos ps (fits0 sp a nq din dout orthogonal o0 I0 NE) TP0 G2) as [U1 U2]. cbn [fst snd] in U1, U2.
  assert (fst t = total fst ps) by (apply (von_unique _ _ _ _ _ _ T1 U1); reflexivity). assert (snd t = total snd ps) by (apply (von_unique _ _ _ _ _ _ T2 U2); reflexivity). rewrite H, H0 in B. lra.
Qed.
End Object.
