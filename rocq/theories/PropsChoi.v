(** Properties of Choi channels, entropies and fidelities (C44-C49, C69, C70).
    Specification: ChoiSpec.v, KrausSpec.v.  Model: ChoiModel.v, ChannelModel.v.
    eigvalsh_ok, eigh_all_ok and sqrtm_ok say what numpy and scipy are assumed to return on
    Hermitian (positive) matrices; SpectralExists.v shows that each can be met. *)
From Verif Require Import Py Scalar PauliModel PauliSpec EncoderProofs EighExists KrausModel KrausSpec KrausProofs KrausProofs2 KrausProofs6 KrausProofs12
  ChoiModel ChannelModel ChannelSpec ChoiSpec ChoiProofs ChoiProofs2 ChoiProofs3 ChoiProofs4 SpectralExists Sqrt EntropyProofs KrausExamples.
From Coq Require Import Reals Lra.
From Coq Require String.
Import String.StringSyntax.
Open Scope nat_scope.
Add Ring CCring12 : (s_rt CC).

(** ** C44 *)
Theorem C44_choi_fidelity (c : choi CC) ops probs states :
  let D := ch_input_dim c in ch_output_dim c = D -> is_square (D * D) (ch_mat c) -> fits D D ops -> eqm (D * D) (D * D) (me (ch_mat c)) (choi_matrix ops D) ->
  length probs <= length states -> Forall (fun rho => is_square D rho /\ hermitian D (me rho)) states ->
  choi_fidelity c (map (fun p => ((p, 0%R) : CC)) probs) states = Ok ((ensemble (entanglement_fidelity ops) probs states, 0%R) : CC).
Proof. intros D E SM F EC L FS. exact (choi_fidelity_value c D ops SM F EC probs states (eq_sym E) L FS). Qed.
(** for a trace preserving list and a state the fidelity is between 0 and 1, and the identity channel has fidelity 1 *)
Theorem C44_range D ops rho : fits D D ops -> trace_preserving D ops -> density D (me rho) -> (0 <= entanglement_fidelity ops rho <= 1)%R.
Proof. exact (fidelity_le_one D ops rho). Qed.
Theorem C44_identity D rho : is_square D rho -> density D (me rho) -> entanglement_fidelity [MA D D eye] rho = 1%R.
Proof. exact (fidelity_identity D rho). Qed.
Print Assumptions C44_choi_fidelity.
Print Assumptions C44_range.
Print Assumptions C44_identity.
Definition reset_choi : choi CC := CH (choi_arr (arg_matrices reset_ops) 2 2) 1 1 2 2.
Example C44_case : choi_fidelity reset_choi (map (fun p => ((p, 0%R) : CC)) [(1 / 3)%R; (2 / 3)%R]) [plus; plus] = Ok (((1 / 2)%R, 0%R) : CC).
Proof.
  assert (HP : hermitian 2 (me plus)) by apply plus_density.
  rewrite (C44_choi_fidelity reset_choi (arg_matrices reset_ops)); [|reflexivity|split; reflexivity|exact reset_fits|apply eqm_refl|cbn; lia|repeat constructor; exact HP].
  f_equal. assert (E : entanglement_fidelity (arg_matrices reset_ops) plus = (1 / 2)%R).
  { unfold entanglement_fidelity, reals_sum. cbn [arg_matrices reset_ops map fold_right]. rewrite !Cmod_sq. cbn. lra. }
  unfold ensemble, reals_sum. cbn [combine map fold_right fst snd]. rewrite E. f_equal. field.
Qed.

(** ** C45 *)
Theorem C45_choi_is_kraus (K : StarRing) (c : choi K) rho ops k :
  num_in c = k -> num_out c = k -> let D := ch_din c ^ k in let O := ch_dout c ^ k in
  is_square D rho -> is_square (D * O) (ch_mat c) -> fits O D ops -> eqm (D * O) (D * O) (me (ch_mat c)) (choi_matrix ops O) ->
  exists out, choi_channel c rho = Ok out /\ is_square O out /\ eqm O O (me out) (channel_map ops (me rho)).
Proof. exact (choi_channel_kraus c rho k ops). Qed.
(** ... and AnalyticQChan.channel of the two kinds of object agree *)
Theorem C45_objects (a : kraus_arg CC) sp sparse k din dout orthogonal o0 past (m : marr CC) rho :
  kraus_init sp a (k, k) din dout orthogonal = Ok o0 -> arg_matrices a <> [] -> Forall (fun m => 1 <= m) past -> clean sp past 1 ->
  let D := din ^ k in let O := dout ^ k in
  is_square (D * O) m -> eqm (D * O) (D * O) (me m) (choi_matrix (arg_matrices a) O) -> is_square D rho ->
  exists x y, snd (chan_channel (after (KrausType o0) past) rho 1 false) = Ok x /\ snd (chan_channel (ChoiType sparse (CH m k k din dout)) rho 1 false) = Ok y /\
    is_square O x /\ is_square O y /\ eqm O O (me x) (me y).
Proof.
  intros H NE HP CL D O SM E SQ. assert (F0 : fits O D (arg_matrices a)) by exact (fits0 sp a (k, k) din dout orthogonal o0 H NE).
  destruct (c31 sp a (k, k) din dout orthogonal o0 past 1 rho H NE HP (le_n 1) CL) as (x & E1 & Q1 & V1 & _). { cbn [fst]. rewrite Nat.pow_1_r. exact SQ. }
  destruct (choi_channel_kraus (CH m k k din dout) rho k (arg_matrices a) eq_refl eq_refl SQ SM F0 E) as (y & E2 & Q2 & V2). exists x, y.
  cbn [fst snd] in *. rewrite Nat.pow_1_r in *. fold O in Q1, V1. split; [exact E1|]. split; [cbn [chan_channel Nat.eqb snd]; unfold assert_, guard; cbn [bind]; exact E2|]. split; [exact Q1|]. split; [exact Q2|].
  eapply eqm_trans; [exact V1|]. eapply eqm_trans; [|apply eqm_sym, V2]. apply eqm_sym. apply (channel_map_same O D); [exact F0|apply power_ops_1|apply eqm_refl].
Qed.
Print Assumptions C45_choi_is_kraus.
Print Assumptions C45_objects.
Example C45_case : match choi_channel (CH (MA 4 4 (choi_matrix (K := GI) (arg_matrices reset_ops) 2)) 1 1 2 2) (MA 2 2 (fun i j => (Z.of_nat (2 * i + j), Z.of_nat i) : GI)) with
  | Ok out => entries out = [[(3, 1); (0, 0)]; [(0, 0); (0, 0)]]%Z | Err _ => False end.
Proof. vm_compute. reflexivity. Qed.

(** ** C46 *)
Theorem C46_shapes eigh (c : choi CC) : fits (ch_output_dim c) (ch_input_dim c) (choi_kraus_operators eigh c).
Proof. exact (extract_shapes eigh c). Qed.
Theorem C46_reproduces eigh (c : choi CC) : eigh_all_ok eigh ->
  let n := ch_input_dim c * ch_output_dim c in is_square n (ch_mat c) -> psd n (me (ch_mat c)) ->
  (forall t, t < n -> (fst (eigh (ch_mat c)) t <= 0)%R \/ (/ 100000000 < fst (eigh (ch_mat c)) t)%R) ->
  eqm n n (choi_matrix (choi_kraus_operators eigh c) (ch_output_dim c)) (me (ch_mat c)).
Proof. intros OK n SM P H. exact (extract_exact eigh OK c SM P H). Qed.
(** without the condition on the eigenvalues every entry is within 1e-8 *)
Theorem C46_close eigh (c : choi CC) x y : eigh_all_ok eigh ->
  let n := ch_input_dim c * ch_output_dim c in is_square n (ch_mat c) -> psd n (me (ch_mat c)) -> x < n -> y < n ->
  (Cmod (ssub (me (ch_mat c) x y) (choi_matrix (choi_kraus_operators eigh c) (ch_output_dim c) x y)) <= / 100000000)%R.
Proof. intros OK n SM P Hx Hy. exact (extract_close eigh OK c SM P x y Hx Hy). Qed.
Theorem C46_same_channel eigh (c : choi CC) rho : eigh_all_ok eigh -> num_in c = num_out c ->
  let D := ch_input_dim c in let O := ch_output_dim c in is_square (D * O) (ch_mat c) -> psd (D * O) (me (ch_mat c)) -> is_square D rho ->
  (forall t, t < D * O -> (fst (eigh (ch_mat c)) t <= 0)%R \/ (/ 100000000 < fst (eigh (ch_mat c)) t)%R) ->
  exists out, choi_channel c rho = Ok out /\ is_square O out /\ eqm O O (me out) (channel_map (choi_kraus_operators eigh c) (me rho)).
Proof. exact (extract_channel eigh c rho). Qed.
(** the Choi matrix of any Kraus list is positive *)
Theorem C46_positive O D ops : fits O D ops -> psd (D * O) (choi_matrix (K := CC) ops O).
Proof. exact (choi_psd O D ops). Qed.
Print Assumptions C46_shapes.
Print Assumptions C46_reproduces.
Print Assumptions C46_close.
Print Assumptions C46_same_channel.
Print Assumptions C46_positive.
Example C46_case : exists eigh, eigh_all_ok eigh /\ is_square 4 (ch_mat reset_choi) /\ psd 4 (me (ch_mat reset_choi)) /\
  (forall t, t < 4 -> (fst (eigh (ch_mat reset_choi)) t <= 0)%R \/ (/ 100000000 < fst (eigh (ch_mat reset_choi)) t)%R).
Proof.
  destruct eigh_exists as (eigh & OK). exists eigh. split; [exact OK|]. assert (SM : is_square 4 (ch_mat reset_choi)) by (split; reflexivity). split; [exact SM|].
  assert (P : psd 4 (me (ch_mat reset_choi))) by exact (choi_psd 2 2 _ reset_fits). split; [exact P|]. intros t Ht.
  destruct (OK 4 (ch_mat reset_choi) SM (SpectralProofs.psd_hermitian _ _ P)) as [_ ED]. destruct (idem_eigs 4 _ _ _ reset_choi_idem ED t Ht) as [-> | ->]; [left|right]; lra.
Qed.

(** ** C47 *)
Theorem C47_common_factor (c : choi CC) ops rho sqrtm : sqrtm_ok sqrtm ->
  let D := ch_input_dim c in let n := D * ch_output_dim c in
  is_square n (ch_mat c) -> fits (ch_output_dim c) D ops -> eqm n n (me (ch_mat c)) (choi_matrix ops (ch_output_dim c)) ->
  is_square D rho -> hermitian D (me rho) -> psd D (me rho) ->
  exists C M, choi_complementary sqrtm c rho = Ok C /\ is_square n C /\
    eqm n n (me C) (mm (length ops) M (adj M)) /\
    eqm (length ops) (length ops) (transpose (exchange_entry ops (me rho))) (mm n (adj M) M) /\
    forall p, 1 <= p -> tr n (mpow n (me C) p) = tr (length ops) (mpow (length ops) (exchange_entry ops (me rho)) p).
Proof.
  intros OS D n SM F E SQ HE P. destruct (OS D rho SQ HE P) as [QS SR].
  destruct (complementary_value c ops rho (sqrtm rho) SM F E QS SR sqrtm eq_refl) as (C & E2 & Q2 & V2).
  exists C, (factor c ops (sqrtm rho)). split; [exact E2|]. split; [exact Q2|]. split; [exact V2|]. split.
  - intros i j Hi Hj. unfold transpose at 1. rewrite (exchange_value_factor c ops rho (sqrtm rho) F SR j i Hj Hi). reflexivity.
  - intros [|p] Hp; [lia|]. exact (same_power_traces c ops rho (sqrtm rho) F SR (me C) p V2).
Qed.
(** the value of coherent_information: von Neumann entropies of the output and of the exchange matrix *)
Theorem C47_kraus_value eigvalsh sqrtm sp (a : kraus_arg CC) nq din dout orthogonal o0 past n rho reg :
  eigvalsh_ok eigvalsh ->
  kraus_init sp a nq din dout orthogonal = Ok o0 -> arg_matrices a <> [] -> sp = true \/ orthogonal = [] -> Forall (fun m => 1 <= m) past -> 1 <= n -> clean sp past n ->
  let D := (din ^ fst nq) ^ n in let D' := (dout ^ snd nq) ^ n in let N := length (arg_matrices a) ^ n in is_square D rho -> hermitian D (me rho) ->
  exists s1 s2, snd (coherent_information eigvalsh sqrtm (after (KrausType o0) past) rho n reg) = Ok (if reg then (s1 - s2) / INR n else s1 - s2)%R /\
    vn_entropy D' (channel_map (power_ops (arg_matrices a) n) (me rho)) s1 /\
    vn_entropy N (exchange_entry (power_ops (arg_matrices a) n) (me rho)) s2.
Proof. exact (coherent_kraus eigvalsh sqrtm sp a nq din dout orthogonal o0 past n rho reg). Qed.
Theorem C47_entropy_unique d A s s' : vn_entropy d A s -> vn_entropy d A s' -> s = s'.
Proof. intros H H'. apply (vn_unique d A d A s s' H H'). reflexivity. Qed.
(** both routes give the same number *)
Theorem C47_coherent_information eigvalsh sqrtm sp sparse (a : kraus_arg CC) k din dout orthogonal o0 past (m : marr CC) rho reg :
  eigvalsh_ok eigvalsh -> sqrtm_ok sqrtm ->
  kraus_init sp a (k, k) din dout orthogonal = Ok o0 -> arg_matrices a <> [] -> sp = true \/ orthogonal = [] -> Forall (fun m => 1 <= m) past -> clean sp past 1 ->
  let D := din ^ k in let O := dout ^ k in
  is_square (D * O) m -> eqm (D * O) (D * O) (me m) (choi_matrix (arg_matrices a) O) ->
  is_square D rho -> hermitian D (me rho) -> psd D (me rho) ->
  exists r, snd (coherent_information eigvalsh sqrtm (after (KrausType o0) past) rho 1 reg) = Ok r /\
            snd (coherent_information eigvalsh sqrtm (ChoiType sparse (CH m k k din dout)) rho 1 reg) = Ok r.
Proof. exact (coherent_agree eigvalsh sqrtm sp sparse a k din dout orthogonal o0 past m rho reg). Qed.
Print Assumptions C47_common_factor.
Print Assumptions C47_kraus_value.
Print Assumptions C47_entropy_unique.
Print Assumptions C47_coherent_information.
Example C47_case : exists eigvalsh sqrtm o0, eigvalsh_ok eigvalsh /\ sqrtm_ok sqrtm /\ kraus_init false reset_ops (1, 1) 2 2 [] = Ok o0 /\ density 2 (me plus) /\
  is_square 4 (choi_arr (arg_matrices reset_ops) 2 2) /\ eqm 4 4 (me (choi_arr (arg_matrices reset_ops) 2 2)) (choi_matrix (arg_matrices reset_ops) 2) /\
  exists r, snd (coherent_information eigvalsh sqrtm (after (KrausType o0) [3; 2]) plus 1 true) = Ok r /\
            snd (coherent_information eigvalsh sqrtm (ChoiType true reset_choi) plus 1 true) = Ok r.
Proof.
  destruct eigvalsh_exists as (ev & OK). destruct sqrtm_exists as (sq & OS). destruct (reset_init (K := CC) false) as (o0 & H0). exists ev, sq, o0. split; [exact OK|]. split; [exact OS|]. split; [exact H0|].
  split; [exact plus_density|]. split; [split; reflexivity|]. split; [apply eqm_refl|].
  apply (C47_coherent_information ev sq false true reset_ops 1 2 2 [] o0 [3; 2] (choi_arr (arg_matrices reset_ops) 2 2) plus true OK OS H0);
    [discriminate|right; reflexivity|repeat constructor; lia|intros; discriminate|split; reflexivity|apply eqm_refl|split; reflexivity|apply plus_density|apply plus_density].
Qed.

(** ** C48: the adjoint flag is ignored by Choi channels *)
Theorem C48_refuted : exists (c : choi CC) X rho A N, fits 2 2 (arg_matrices (K := CC) reset_ops) /\ trace_preserving (K := CC) 2 (arg_matrices reset_ops) /\
  eqm 4 4 (me (ch_mat c)) (choi_matrix (arg_matrices reset_ops) 2) /\ is_square 2 X /\ is_square 2 rho /\
  snd (chan_channel (ChoiType false c) rho 1 false) = Ok N /\ snd (chan_channel (ChoiType false c) X 1 true) = Ok A /\
  tr 2 (mm 2 (me X) (me N)) <> tr 2 (mm 2 (me A) (me rho)).
Proof.
  set (X := unit_mat (K := CC) 2 2 0 0). set (rho := unit_mat (K := CC) 2 2 1 1).
  destruct (choi_channel_kraus reset_choi rho 1 (arg_matrices reset_ops) eq_refl eq_refl) as (N & E1 & Q1 & V1); [split; reflexivity|split; reflexivity|exact reset_fits|apply eqm_refl|].
  destruct (choi_channel_kraus reset_choi X 1 (arg_matrices reset_ops) eq_refl eq_refl) as (A & E2 & Q2 & V2); [split; reflexivity|split; reflexivity|exact reset_fits|apply eqm_refl|].
  exists reset_choi, X, rho, A, N. split; [exact reset_fits|]. split; [exact reset_tp|]. split; [apply eqm_refl|]. split; [split; reflexivity|]. split; [split; reflexivity|].
  split; [exact E1|]. split; [exact E2|]. cbn [ch_dout Nat.pow Nat.mul Nat.add reset_choi] in V1, V2.
  rewrite (tr_eqm 2 (mm 2 (me X) (me N)) (mm 2 (me X) (channel_map (arg_matrices reset_ops) (me rho)))) by (intros i j Hi Hj; apply mm_congr_r; intros; apply V1; assumption).
  rewrite (tr_eqm 2 (mm 2 (me A) (me rho)) (mm 2 (channel_map (arg_matrices reset_ops) (me X)) (me rho))) by (intros i j Hi Hj; apply mm_ext; [intros; apply V2; assumption|reflexivity]).
  intros H. apply (f_equal fst) in H. cbn in H. lra.
Qed.
(** exactly: channel(rho, n, adjoint=True) is channel(rho, n) *)
Theorem C48_ignored_partial sparse (c : choi CC) rho n : chan_channel (ChoiType sparse c) rho n true = chan_channel (ChoiType sparse c) rho n false.
Proof. exact (adjoint_ignored sparse c rho n true false). Qed.
(** so it is right for Hermitian Kraus operators, e.g. Pauli channels *)
Theorem C48_hermitian_partial sparse (c : choi CC) X rho ops k : num_in c = k -> num_out c = k -> ch_din c = ch_dout c -> let D := ch_din c ^ k in
  is_square (D * D) (ch_mat c) -> fits D D ops -> Forall (fun A => hermitian D (me A)) ops -> eqm (D * D) (D * D) (me (ch_mat c)) (choi_matrix ops D) -> is_square D X -> is_square D rho ->
  exists A N, snd (chan_channel (ChoiType sparse c) rho 1 false) = Ok N /\ snd (chan_channel (ChoiType sparse c) X 1 true) = Ok A /\ is_square D A /\ is_square D N /\
    tr D (mm D (me X) (me N)) = tr D (mm D (me A) (me rho)).
Proof.
  intros K1 K2 ED D SM F HF E QX QR. assert (EO : ch_dout c ^ k = D) by (unfold D; congruence).
  destruct (choi_channel_kraus c rho k ops K1 K2 QR) as (N & E1 & Q1 & V1); [rewrite EO; exact SM|rewrite EO; exact F|rewrite EO; exact E|].
  destruct (choi_channel_kraus c X k ops K1 K2 QX) as (A & E2 & Q2 & V2); [rewrite EO; exact SM|rewrite EO; exact F|rewrite EO; exact E|]. rewrite EO in *.
  exists A, N. split; [exact E1|]. split; [exact E2|]. split; [exact Q2|]. split; [exact Q1|].
  transitivity (tr D (mm D (me X) (channel_map ops (me rho)))); [apply tr_eqm; intros i j Hi Hj; apply mm_congr_r; intros; apply V1; assumption|].
  transitivity (tr D (mm D (channel_map ops (me X)) (me rho))); [|apply tr_eqm; intros i j Hi Hj; apply mm_ext; [intros; symmetry; apply V2; assumption|reflexivity]].
  rewrite (channel_adjoint D D ops (me rho) (me X) F). apply tr_eqm. intros i j Hi Hj. apply mm_ext; [|reflexivity]. intros l Hl. unfold adjoint_map, channel_map. f_equal. apply map_ext_in. intros B HB.
  destruct (in_fits _ _ _ _ F HB) as [-> ->]. rewrite Forall_forall in HF. specialize (HF B HB).
  rewrite (mm_ext D (mm D (adj (me B)) (me X)) (mm D (me B) (me X)) (me B) (adj (me B))); [reflexivity|intros; apply mm_ext; [intros; apply HF; assumption|reflexivity]|intros; symmetry; apply HF; assumption].
Qed.
Print Assumptions C48_refuted.
Print Assumptions C48_ignored_partial.
Print Assumptions C48_hermitian_partial.
Example C48_case : fits 2 2 [unit_mat (K := CC) 2 2 0 0; unit_mat 2 2 1 1] /\ Forall (fun A => hermitian 2 (me A)) [unit_mat (K := CC) 2 2 0 0; unit_mat 2 2 1 1].
Proof.
  split; [repeat constructor|]. repeat constructor; intros i j Hi Hj; unfold adj; cbn [unit_mat me].
  - rewrite Bool.andb_comm. destruct (Nat.eqb i 0 && Nat.eqb j 0)%bool; [apply sconj_1|apply sconj_0].
  - rewrite Bool.andb_comm. destruct (Nat.eqb i 1 && Nat.eqb j 1)%bool; [apply sconj_1|apply sconj_0].
Qed.

(** ** C49: numb_krauss always raises *)
Theorem C49_raises_partial (K : StarRing) (c : chan K) : numb_krauss c = Err AttributeError \/ numb_krauss c = Err AssertionError.
Proof. destruct c as [k|sp c]; [left|right]; reflexivity. Qed.
Theorem C49_refuted : exists c, chan_init reset_ops (1, 1) 2 2 [] false = Ok c /\ numb_krauss c <> Ok 2.
Proof. destruct (reset_chan false) as (c & H). exists c. split; [exact H|]. destruct (C49_raises_partial CC c) as [-> | ->]; discriminate. Qed.
(** the misspelt attribute holds the number, whatever was called before *)
Theorem C49_attribute_partial (K : StarRing) sp (a : kraus_arg K) nq din dout orthogonal o0 past :
  kraus_init sp a nq din dout orthogonal = Ok o0 -> exists k, after (KrausType o0) past = KrausType k /\ kraus_getattr k "numb_kraus"%string = Ok (length (arg_matrices a)).
Proof. exact (attribute_count K sp a nq din dout orthogonal o0 past). Qed.
Print Assumptions C49_raises_partial.
Print Assumptions C49_refuted.
Print Assumptions C49_attribute_partial.

(** ** C69 *)
Theorem C69_nonnegative cut l : Forall (fun x => 0 <= x <= 1)%R l -> (0 <= entropy_eigs cut l)%R.
Proof. intros F. rewrite entropy_eigs_of. exact (entropy_nonneg cut l F). Qed.
Theorem C69_at_most cut l : Forall (fun x => 0 <= x)%R l -> (0 <= cut)%R ->
  let kept := filter (fun x => if Rlt_dec cut (Rabs x) then true else false) l in
  fold_right Rplus 0%R kept = 1%R -> (entropy_eigs cut l <= ln (INR (length kept)) / ln 2)%R.
Proof. intros F C kept S1. rewrite entropy_eigs_of. apply (entropy_le_kept cut l F C). unfold PowerSums.sumof. rewrite map_id. exact S1. Qed.
(** the entropy method on one density matrix *)
Theorem C69_density eigvalsh d A : eigvalsh_ok eigvalsh -> is_square d A -> density d (me A) ->
  exists s, entropy eigvalsh [A] = Ok s /\ vn_entropy d (me A) s /\ (0 <= s <= ln (INR d) / ln 2)%R.
Proof.
  intros OK Q H. destruct (entropy_one eigvalsh A d OK Q (proj1 H)) as (s & E & V). exists s. split; [exact E|]. split; [exact V|]. exact (vn_bounds d (me A) s H V).
Qed.
Theorem C69_pure eigvalsh d A v : eigvalsh_ok eigvalsh -> is_square d A -> unit_vector d v -> eqm d d (me A) (pure v) -> entropy eigvalsh [A] = Ok 0%R.
Proof.
  intros OK Q U E. assert (H : hermitian d (me A)) by exact (hermitian_ext _ _ _ (eqm_sym _ _ _ _ E) (pure_hermitian d v)).
  destruct (entropy_one eigvalsh A d OK Q H) as (s & Es & V). rewrite Es. f_equal. exact (vn_pure d (me A) v s U E V).
Qed.
(** the completely mixed state has entropy log2 d, as long as 1/d is above the cut-off *)
Theorem C69_mixed eigvalsh d : eigvalsh_ok eigvalsh -> 0 < d -> (/ 10000000000 < / INR d)%R ->
  entropy eigvalsh [MA d d (fun i j => if Nat.eqb i j then (((/ INR d)%R, 0%R) : CC) else s0)] = Ok (ln (INR d) / ln 2)%R.
Proof. exact (entropy_mixed eigvalsh d). Qed.
Print Assumptions C69_nonnegative.
Print Assumptions C69_at_most.
Print Assumptions C69_density.
Print Assumptions C69_pure.
Print Assumptions C69_mixed.
Example C69_case : (exists eigvalsh, eigvalsh_ok eigvalsh) /\ density 2 (me plus) /\ eqm 2 2 (me plus) (pure (fun _ => ((/ sqrt 2)%R, 0%R) : CC)) /\ unit_vector 2 (fun _ => ((/ sqrt 2)%R, 0%R) : CC) /\
  (/ 10000000000 < / INR 2)%R /\ Forall (fun x => 0 <= x <= 1)%R [1 / 4; 0; 3 / 4]%R /\
  fold_right Rplus 0%R (filter (fun x => if Rlt_dec (1 / 10) (Rabs x) then true else false) [1 / 4; 0; 3 / 4]%R) = 1%R.
Proof.
  split; [exact eigvalsh_exists|]. split; [exact plus_density|].
  assert (S2 : (/ sqrt 2 * / sqrt 2 = / 2)%R) by (rewrite <- Rinv_mult, sqrt_sqrt by lra; reflexivity).
  split; [|split; [|split; [|split]]].
  - intros i j _ _. unfold pure. cbn. rewrite <- S2. apply injective_projections; cbn; ring.
  - unfold unit_vector. cbn. apply injective_projections; cbn; lra.
  - cbn. lra.
  - repeat constructor; lra.
  - cbn [filter]. rewrite Rabs_R0, !Rabs_pos_eq by lra. repeat (destruct (Rlt_dec _ _); try lra). cbn. lra.
Qed.

(** ** C70 *)
Theorem C70_pure sqrtm sp (a : kraus_arg CC) nq din dout orthogonal o0 past n rho v : sqrtm_ok sqrtm ->
  kraus_init sp a nq din dout orthogonal = Ok o0 -> arg_matrices a <> [] -> Forall (fun m => 1 <= m) past -> 1 <= n -> clean sp past n ->
  let D := (din ^ fst nq) ^ n in dout ^ snd nq = din ^ fst nq -> trace_preserving (din ^ fst nq) (arg_matrices a) ->
  is_square D rho -> unit_vector D v -> eqm D D (me rho) (pure v) ->
  exists c, expectation D (channel_map (power_ops (arg_matrices a) n) (pure v)) v = ((c, 0%R) : CC) /\ (0 <= c <= 1)%R /\
    snd (fidelity_two_states sqrtm (after (KrausType o0) past) rho n) = Ok (sqrt c).
Proof. intros OK H NE HP Hn CL D SQD TP. exact (fidelity_pure sqrtm sp a nq din dout orthogonal o0 past n OK H NE HP Hn CL SQD TP rho v). Qed.
(** for every state: the trace of the root of sqrt(rho) N(rho) sqrt(rho), between 0 and 1 *)
Theorem C70_states sqrtm sp (a : kraus_arg CC) nq din dout orthogonal o0 past n rho : sqrtm_ok sqrtm ->
  kraus_init sp a nq din dout orthogonal = Ok o0 -> arg_matrices a <> [] -> Forall (fun m => 1 <= m) past -> 1 <= n -> clean sp past n ->
  let D := (din ^ fst nq) ^ n in dout ^ snd nq = din ^ fst nq -> trace_preserving (din ^ fst nq) (arg_matrices a) ->
  is_square D rho -> density D (me rho) ->
  exists r s x, snd (fidelity_two_states sqrtm (after (KrausType o0) past) rho n) = Ok x /\ square_root D (me rho) r /\
    square_root D (mm D (mm D r (channel_map (power_ops (arg_matrices a) n) (me rho))) r) s /\ tr D s = ((x, 0%R) : CC) /\ (0 <= x <= 1)%R.
Proof. intros OK H NE HP Hn CL D SQD TP. exact (fidelity_value sqrtm sp a nq din dout orthogonal o0 past n OK H NE HP Hn CL SQD TP rho). Qed.
(** ... which is well defined ... *)
Theorem C70_root_unique d A S T : square_root d A S -> square_root d A T -> eqm d d S T.
Proof. exact (square_root_unique d A S T). Qed.
(** ... and 1 when the channel leaves the state alone *)
Theorem C70_fixed sqrtm sp (a : kraus_arg CC) nq din dout orthogonal o0 past n rho : sqrtm_ok sqrtm ->
  kraus_init sp a nq din dout orthogonal = Ok o0 -> arg_matrices a <> [] -> Forall (fun m => 1 <= m) past -> 1 <= n -> clean sp past n ->
  let D := (din ^ fst nq) ^ n in dout ^ snd nq = din ^ fst nq -> trace_preserving (din ^ fst nq) (arg_matrices a) ->
  is_square D rho -> density D (me rho) -> eqm D D (channel_map (power_ops (arg_matrices a) n) (me rho)) (me rho) ->
  snd (fidelity_two_states sqrtm (after (KrausType o0) past) rho n) = Ok 1%R.
Proof. intros OK H NE HP Hn CL D SQD TP. exact (fidelity_fixed sqrtm sp a nq din dout orthogonal o0 past n OK H NE HP Hn CL SQD TP rho). Qed.
Print Assumptions C70_pure.
Print Assumptions C70_states.
Print Assumptions C70_root_unique.
Print Assumptions C70_fixed.
Example C70_case : exists sqrtm o0, sqrtm_ok sqrtm /\ kraus_init true reset_ops (1, 1) 2 2 [] = Ok o0 /\ trace_preserving (K := CC) 2 (arg_matrices reset_ops) /\
  snd (fidelity_two_states sqrtm (after (KrausType o0) []) plus 1) = Ok (sqrt (/ 2)).
Proof.
  destruct sqrtm_exists as (sq & OS). destruct (reset_init (K := CC) true) as (o0 & H0). exists sq, o0. split; [exact OS|]. split; [exact H0|]. split; [exact reset_tp|].
  destruct C69_case as (_ & _ & E & U & _).
  destruct (C70_pure sq true reset_ops (1, 1) 2 2 [] o0 [] 1 plus (fun _ => ((/ sqrt 2)%R, 0%R) : CC) OS H0) as (c & Ec & _ & Ef);
    [discriminate|constructor|lia|intros _ _; constructor|reflexivity|exact reset_tp|split; reflexivity|exact U|exact E|].
  assert (S2 : (/ sqrt 2 * / sqrt 2 = / 2)%R) by (rewrite <- Rinv_mult, sqrt_sqrt by lra; reflexivity).
  rewrite Ef. f_equal. f_equal. apply (f_equal fst) in Ec. unfold expectation in Ec. cbn [fst Nat.pow Nat.mul Nat.add] in Ec. 
  erewrite bsum_ext in Ec; [|intros i Hi; apply bsum_ext; intros j Hj; rewrite <- (channel_map_same 2 2 (arg_matrices reset_ops) (power_ops (arg_matrices reset_ops) 1) (pure (fun _ => ((/ sqrt 2)%R, 0%R) : CC)) (pure (fun _ => ((/ sqrt 2)%R, 0%R) : CC)) reset_fits (power_ops_1 _) (eqm_refl _ _ _) i j Hi Hj); reflexivity].
  revert Ec. set (q := (/ sqrt 2)%R) in *. clearbody q. cbn. intros Ec. rewrite <- Ec. nra.
Qed.
