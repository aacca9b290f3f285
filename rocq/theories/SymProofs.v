(** Proofs for C141 and C142. *)
From Verif Require Import Py Scalar PauliModel PauliSpec EncoderProofs EighExists Spectral SpectralProofs PowerSums KrausModel KrausSpec KrausProofs KrausProofs2 KrausProofs5 KrausProofs6 KrausProofs8 KrausProofs9 KrausProofs11 KrausProofs12
  ChoiModel ChannelModel ChannelSpec ChoiSpec ChoiProofs ChoiProofs2 ChoiProofs3 EntropyProofs EntropySpec CohProofs CohProofs2 CohProofs3 CohProofs4 Processing ProcessingSpec Processing2 Degradable KnownProofs3 SymSpec.
From Coq Require Import Reals Lra.
Open Scope nat_scope.
Open Scope K_scope.

Add Ring CCring73 : (s_rt CC).
Lemma environment_comp O D l : environment_ops O D l = Processing2.comp O D l.
Proof. reflexivity. Qed.
Lemma prepared_prod V l : prepared V l = prod_ops l [V].
Proof. unfold prepared, prod_ops. induction l as [|A l IH]; [reflexivity|]. cbn [map flat_map]. rewrite IH. reflexivity. Qed.
Lemma power_single (V : marr CC) n : exists W, power_ops [V] n = [W].
Proof. induction n as [|n (W & IH)]; [eexists; reflexivity|]. cbn [power_ops]. rewrite IH. eexists. reflexivity. Qed.
Lemma exchange_prepared O E D (V : marr CC) l rho i j : fits O E l -> mr V = E -> mc V = D -> i < length l -> j < length l ->
  exchange_entry (prod_ops l [V]) rho i j = exchange_entry l (channel_map [V] rho) i j.
Proof.
  intros F R C Hi Hj. rewrite <- prepared_prod. unfold exchange_entry, prepared. destruct (nth_fits _ _ _ i F Hi) as [I1 I2]. destruct (nth_fits _ _ _ j F Hj) as [J1 J2].
  assert (N : forall t, t < length l -> nth t (map (fun A => MA (mr A) (mc V) (mm (mc A) (me A) (me V))) l) one_by_one = MA (mr (nth t l one_by_one)) (mc V) (mm (mc (nth t l one_by_one)) (me (nth t l one_by_one)) (me V))).
  { intros t Ht. rewrite (nth_indep _ one_by_one ((fun A => MA (mr A) (mc V) (mm (mc A) (me A) (me V))) one_by_one)) by (rewrite map_length; exact Ht). rewrite (map_nth (fun A => MA (mr A) (mc V) (mm (mc A) (me A) (me V))) l one_by_one t). reflexivity. }
  rewrite !N by assumption. cbn [mr mc me]. rewrite I1, I2, J2, C. set (A := me (nth i l one_by_one)). set (B := me (nth j l one_by_one)). unfold tr. apply bsum_ext; intros x Hx.
  assert (CM : forall a b, channel_map [V] rho a b = mm D (mm D (me V) rho) (adj (me V)) a b) by (intros; unfold channel_map, ksum; cbn [map fold_right]; rewrite C; ring).
  transitivity (mm D (mm D (mm E A (me V)) rho) (mm E (adj (me V)) (adj B)) x x).
  { apply mm_ext; [intros; reflexivity|]. intros k Hk. apply adj_mm. }
  rewrite <- mm_assoc. apply mm_ext; [|intros; reflexivity]. intros k Hk. rewrite (mm_ext E A A (channel_map [V] rho) (mm D (mm D (me V) rho) (adj (me V)))) by (intros; first [apply CM|reflexivity]).
  rewrite <- mm_assoc. apply mm_ext; [|intros; reflexivity]. intros m Hm. rewrite <- mm_assoc. reflexivity.
Qed.
Lemma prepared_entropies O E D (V : marr CC) l n rho t : fits O E l -> mr V = E -> mc V = D -> density (D ^ n) rho ->
  entropies (O ^ n) (power_ops l n) (channel_map (power_ops [V] n) rho) t -> entropies (O ^ n) (power_ops (prepared V l) n) rho t.
Proof.
  intros F R C DR [V1 V2]. rewrite prepared_prod. assert (FV : fits E D [V]) by (constructor; [split; assumption|constructor]).
  pose proof (power_prod O E D l [V] n F FV) as SC. pose proof (fits_power _ _ _ n F) as Fn. pose proof (fits_power _ _ _ n FV) as Vn. pose proof (fits_prod _ _ _ _ _ Fn Vn) as Fp. pose proof (fits_power _ _ _ n (fits_prod _ _ _ _ _ F FV)) as Fq.
  destruct (power_single V n) as (W & EW). split.
  - apply (von_ext _ (channel_map (power_ops l n) (channel_map (power_ops [V] n) rho))); [|exact V1]. intros x y Hx Hy. destruct (same_maps _ _ _ _ rho Fq Fp SC) as [M _]. rewrite M by assumption. symmetry. apply (channel_prod (O ^ n) (E ^ n) (D ^ n)); assumption.
  - destruct (von_exists (length (power_ops (prod_ops l [V]) n)) (exchange_entry (power_ops (prod_ops l [V]) n) rho)) as (w & Hw); [apply (exchange_hermitian (O ^ n) (D ^ n)); [exact Fq|apply DR]|].
    assert (U : von_neumann (length (prod_ops (power_ops l n) (power_ops [V] n))) (exchange_entry (prod_ops (power_ops l n) (power_ops [V] n)) rho) (snd t)).
    { rewrite EW in *. inversion Vn as [|? ? [W1 W2] _]; subst. assert (L : length (prod_ops (power_ops l n) [W]) = length (power_ops l n)) by (rewrite <- prepared_prod; apply map_length). rewrite L.
      apply (von_ext _ (exchange_entry (power_ops l n) (channel_map [W] rho))); [|exact V2]. intros x y Hx Hy. symmetry. apply (exchange_prepared (O ^ n) (mr V ^ n) (mc V ^ n)); assumption. }
    replace (snd t) with w; [exact Hw|]. apply (von_unique _ _ _ _ _ _ Hw U). intros p. apply (same_exchange (O ^ n) (D ^ n)); [exact Fq|exact Fp|exact SC|apply DR].
Qed.
(** the objects that AnalyticQChan returns for given operators *)
Section Object.
Variables (O D : nat) (ops : list (marr CC)) (sp : bool) (c : chan CC).
Hypothesis F : fits O D ops.
Hypothesis NE : ops <> [].
Hypothesis C : channel_of ops sp c.
Lemma object_inv : exists a nq din dout k, c = KrausType k /\ kraus_init sp a nq din dout [] = Ok k /\ arg_matrices a <> [] /\ same_ops (arg_matrices a) ops /\ fits O D (arg_matrices a) /\ dout ^ snd nq = O /\ din ^ fst nq = D.
Proof.
  destruct C as (a & nq & din & dout & I & S). destruct (chan_init_made _ _ _ _ _ _ _ I) as (k & -> & K).
  assert (NA : arg_matrices a <> []) by (apply (same_nonempty ops); [apply same_ops_sym, S|exact NE]).
  assert (I0 : kraus_init sp a nq din dout [] = Ok k) by (destruct sp; exact K). pose proof (fits0 sp a nq din dout [] k I0 NA) as F0.
  assert (FA : fits O D (arg_matrices a)) by (apply (same_ops_fits _ _ ops); [apply same_ops_sym, S|exact F]).
  exists a, nq, din, dout, k. do 4 (split; [first [reflexivity|assumption]|]). split; [exact FA|]. destruct (arg_matrices a) as [|A l]; [congruence|]. destruct (Forall_inv F0) as [A1 A2], (Forall_inv FA) as [B1 B2]. lia.
Qed.
Lemma object_channel past n rho : Forall (fun m => 1 <= m) past -> 1 <= n -> clean sp past n -> is_square (D ^ n) rho ->
  exists out, snd (chan_channel (after c past) rho n false) = Ok out /\ is_square (O ^ n) out /\ eqm (O ^ n) (O ^ n) (me out) (channel_map (power_ops ops n) (me rho)).
Proof.
  intros HP Hn CL SQ. destruct object_inv as (a & nq & din & dout & k & -> & I0 & NA & S & FA & <- & <-). destruct (c31 _ _ _ _ _ _ _ _ _ rho I0 NA HP Hn CL SQ) as (out & E & Q & V & _).
  exists out. split; [exact E|]. split; [exact Q|]. eapply eqm_trans; [exact V|]. apply (channel_map_same (( dout ^ snd nq) ^ n) ((din ^ fst nq) ^ n)); [apply fits_power, FA|apply power_same, S|apply eqm_refl].
Qed.
Lemma object_exchange past n rho : Forall (fun m => 1 <= m) past -> 1 <= n -> clean sp past n -> is_square (D ^ n) rho ->
  exists W, snd (chan_exchange (after c past) rho n) = Ok [W] /\ is_square (length ops ^ n) W /\ eqm (length ops ^ n) (length ops ^ n) (me W) (exchange_entry (power_ops ops n) (me rho)).
Proof.
  intros HP Hn CL SQ. destruct object_inv as (a & nq & din & dout & k & -> & I0 & NA & S & FA & <- & <-). destruct (c35 _ _ _ _ _ _ _ _ _ rho I0 NA (or_intror eq_refl) HP Hn CL SQ) as (W & E & Q & V & _).
  rewrite <- (same_len _ _ S). exists W. split; [exact E|]. split; [exact Q|]. eapply eqm_trans; [exact V|]. intros i j Hi Hj.
  apply (exchange_entry_same ((dout ^ snd nq) ^ n) ((din ^ fst nq) ^ n)); [apply fits_power, FA|apply power_same, S|apply eqm_refl|rewrite power_len; assumption..].
Qed.
End Object.
Lemma prepared_fits O E D (V : marr CC) l : fits O E l -> mr V = E -> mc V = D -> fits O D (prepared V l).
Proof. intros F R C. rewrite prepared_prod. apply (fits_prod O E D); [exact F|constructor; [split; assumption|constructor]]. Qed.
Lemma prepared_tp O E D (V : marr CC) l : fits O E l -> mr V = E -> mc V = D -> trace_preserving E l -> trace_preserving D [V] -> trace_preserving D (prepared V l).
Proof. intros F R C T TV. rewrite prepared_prod. apply (tp_prod O E D); [exact F|constructor; [split; assumption|constructor]|exact T|exact TV]. Qed.
