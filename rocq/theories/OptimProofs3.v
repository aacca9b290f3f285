(** The Lipschitz assumption of the sampler, and its failure for coherent information. *)
From Verif Require Import Py Scalar PauliModel PauliSpec EncoderProofs KrausModel KrausSpec KrausProofs KrausProofs6 KrausProofs8 KrausExamples ChoiModel ChoiSpec ChoiProofs3 EntropyProofs ChannelModel ChannelSpec ParamModel OptimModel OptimSpec OptimProofs OptimProofs2.
From Coq Require Import Reals Lra Sorted.
Open Scope nat_scope.
Add Ring CCring18 : (s_rt CC).

Lemma sorted_length l t : StronglySorted lt l -> Forall (fun x => x <= t) l -> length l <= S t.
Proof.
  intros SS0 F. assert (G : forall l a, StronglySorted lt l -> Forall (fun x => a <= x <= t) l -> length l <= S t - a).
  { clear. induction l as [|x l IH]; intros a SS F; [cbn; lia|]. inversion SS as [|? ? S1 S2]; subst. inversion F as [|? ? F1 F2]; subst. cbn [length].
    specialize (IH (Datatypes.S x) S1). assert (length l <= Datatypes.S t - Datatypes.S x); [|lia]. apply IH. rewrite Forall_forall in *. intros y Hy. specialize (S2 y Hy). specialize (F2 y Hy). lia. }
  specialize (G l 0 SS0). rewrite Nat.sub_0_r in G. apply G. eapply Forall_impl; [|exact F]. cbn. intros; lia.
Qed.

(** a Lipschitz objective: the sampler keeps the draws with the greatest value *)
Lemma keeps_best f p nsize rank c ns nt c' vecs evals success k v rho y :
  steady f c -> initial_guesses_lipschitz f nsize rank p c ns nt = (c', Ok (vecs, evals, success)) ->
  (forall v1 rho1 y1 v2 rho2 y2, p_rho p v1 nsize rank = Ok rho1 -> p_rho p v2 nsize rank = Ok rho2 -> snd (f c v1) = Ok y1 -> snd (f c v2) = Ok y2 ->
     (Rabs (y1 - y2) <= entry_dist (mr rho1) (mc rho1) (me rho1) (me rho2))%R) ->
  p_random p k nsize rank = Ok v -> p_rho p v nsize rank = Ok rho -> snd (f c v) = Ok y ->
  (forall j v' y', p_random p j nsize rank = Ok v' -> snd (f c v') = Ok y' -> (y <= y')%R) ->
  k <= Z.to_nat nt -> (Z.of_nat (length vecs) < ns)%Z -> In v vecs.
Proof.
  intros SF H L Hv Hr Hy B K NS. destruct (sampler_run f p nsize rank c SF _ _ _ _ _ _ H) as (-> & tried & kept & <- & <- & D & SS & F0 & CH & FT & T1 & T2 & N1 & N2 & SU).
  rewrite map_length in NS. destruct T2 as [T2|T2]; [|lia].
  rewrite Forall_forall in D. assert (I : In k (map s_draw kept)).
  { destruct k as [|k].
    - destruct kept as [|x kept]; [discriminate F0|]. cbn in *. left. exact F0.
    - apply (CH (Datatypes.S k) v rho ltac:(lia) Hv Hr). intros a b Ha Hb. apply filter_In in Ha, Hb. destruct Ha as [Ha _], Hb as [Hb _].
      destruct (D a Ha) as (A1 & A2 & A3). destruct (D b Hb) as (B1 & B2 & B3). pose proof (B _ _ _ A1 A3). pose proof (L _ _ _ _ _ _ Hr B2 Hy B3) as L1.
      unfold Rabs in L1. destruct (Rcase_abs _) in L1; lra. }
  apply in_map_iff in I. destruct I as (x & Ex & Hx). apply in_map_iff. exists x. split; [|exact Hx]. destruct (D x Hx) as (X1 & _). rewrite Ex, Hv in X1. congruence.
Qed.

(** ** diagonal states and the identity channel on two qubits *)
Definition diag_mat (l : list R) : array CC := fun i j => if Nat.eqb i j then ((nth i l 0%R, 0%R) : CC) else s0.
Lemma diag_spectrum d l : length l = d -> spectrum d (diag_mat l) l.
Proof.
  intros L. split; [exact L|]. exists eye. split.
  - split; intros i j Hi Hj.
    + rewrite mm_eye_r by exact Hj. apply adj_eye.
    + rewrite mm_eye_l by exact Hi. apply adj_eye.
  - intros i t Hi Ht. rewrite mm_eye_r by exact Ht. unfold diag_mat, eye. destruct (Nat.eqb_spec i t); subst; apply CC_eq; cbn; ring.
Qed.
Lemma diag_hermitian d l : hermitian d (diag_mat l).
Proof. intros i j _ _. unfold adj, diag_mat. rewrite Nat.eqb_sym. destruct (Nat.eqb i j) eqn:E; [apply Nat.eqb_eq in E; subst; apply CC_eq; cbn; ring|apply sconj_0]. Qed.

Lemma diag_density l : length l = 4 -> reals_sum l = 1%R -> Forall (fun x => 0 <= x)%R l -> density 4 (diag_mat l).
Proof.
  intros L S P. split; [apply diag_hermitian|]. destruct l as [|a [|b [|c [|d [|]]]]]; try discriminate L. cbn in S. inversion P as [|? ? Pa P1]; subst. inversion P1 as [|? ? Pb P2]; subst. inversion P2 as [|? ? Pc P3]; subst. inversion P3 as [|? ? Pd P4]; subst.
  split; [|apply CC_eq; cbn; lra]. intros v. destruct (v 0) as [x0 y0] eqn:E0, (v 1) as [x1 y1] eqn:E1, (v 2) as [x2 y2] eqn:E2, (v 3) as [x3 y3] eqn:E3.
  exists (a * (x0 * x0 + y0 * y0) + b * (x1 * x1 + y1 * y1) + c * (x2 * x2 + y2 * y2) + d * (x3 * x3 + y3 * y3))%R. split.
  - repeat apply Rplus_le_le_0_compat; apply Rmult_le_pos; try assumption; nra.
  - cbn [bsum]. rewrite E0, E1, E2, E3. unfold diag_mat. cbn [Nat.eqb nth]. apply CC_eq; cbn; ring.
Qed.
Lemma id_init : exists o, kraus_init (K := CC) false (ident 4) (2, 2) 2 2 [] = Ok o.
Proof. eexists. reflexivity. Qed.
Lemma id_chan : exists o, chan_init (ident 4) (2, 2) 2 2 [] false = Ok (KrausType o) /\ kraus_init (K := CC) false (ident 4) (2, 2) 2 2 [] = Ok o.
Proof.
  destruct (ident_chan (2, 2) 2 2 [] false eq_refl) as (c & E). change (2 ^ fst (2, 2)) with 4 in E. destruct (chan_init_made _ _ _ _ _ _ _ E) as (k & -> & Ek). exists k. auto.
Qed.
Lemma kraus_init_n (sp : bool) (a : kraus_arg CC) nq din dout orthogonal o : kraus_init sp a nq din dout orthogonal = Ok o -> current_n o = 1.
Proof.
  unfold kraus_init. intros H. repeat (apply bind_ok in H; destruct H as (? & _ & H)). injection H as <-. reflexivity.
Qed.
Lemma id_fits d : fits (K := CC) d d (arg_matrices (ident (K := CC) d)).
Proof. repeat constructor. Qed.
Lemma id_map d rho : eqm d d (channel_map (K := CC) (power_ops (arg_matrices (ident (K := CC) d)) 1) rho) rho.
Proof.
  eapply eqm_trans; [apply eqm_sym; apply (channel_map_same d d (arg_matrices (ident (K := CC) d)) _ rho rho (id_fits d) (power_ops_1 _)), eqm_refl|].
  intros i j Hi Hj. unfold channel_map. cbn [arg_matrices ident map ksum fold_right me mc]. unfold mm at 1. rewrite (bsum_one d j).
  - rewrite mm_eye_l by exact Hi. rewrite adj_eye. unfold eye. rewrite Nat.eqb_refl. ring.
  - exact Hj.
  - intros k Hk N. rewrite adj_eye. unfold eye. destruct (Nat.eqb_spec k j); [congruence|ring].
Qed.
Lemma id_exchange d rho : eqm 1 1 (exchange_entry (K := CC) (power_ops (arg_matrices (ident (K := CC) d)) 1) rho) (fun _ _ => tr d rho).
Proof.
  intros i j Hi Hj. rewrite <- (exchange_entry_same d d (arg_matrices (ident (K := CC) d)) (power_ops (arg_matrices (ident (K := CC) d)) 1) rho rho i j (id_fits d) (power_ops_1 _) (eqm_refl _ _ _)) by assumption.
  assert (i = 0) as -> by lia. assert (j = 0) as -> by lia. unfold exchange_entry. cbn [arg_matrices ident nth me mr mc]. apply tr_eqm.
  intros a b Ha Hb. unfold mm at 1. rewrite (bsum_one d b).
  - rewrite mm_eye_l by exact Ha. rewrite adj_eye. unfold eye. rewrite Nat.eqb_refl. ring.
  - exact Hb.
  - intros k Hk N. rewrite adj_eye. unfold eye. destruct (Nat.eqb_spec k b); [congruence|ring].
Qed.
Lemma one_entropy s : vn_entropy 1 (fun _ _ => (1 : CC)%K) s -> s = 0%R.
Proof.
  intros V. assert (W : vn_entropy 1 (fun _ _ => (1 : CC)%K) (entropy_of (/ 10000000000) [1%R])).
  { exists [1%R]. split; [|reflexivity]. apply (spectrum_ext 1 (diag_mat [1%R])); [|apply diag_spectrum; reflexivity]. intros i j Hi Hj. assert (i = 0) as -> by lia. assert (j = 0) as -> by lia. reflexivity. }
  rewrite (vn_unique _ _ _ _ _ _ V W) by (intros; reflexivity). unfold entropy_of. cbn [map fold_right]. rewrite ln_1. destruct (Rlt_dec _ _); lra.
Qed.

Section Id.
Variables (ev : marr CC -> list R) (sq : marr CC -> marr CC) (o0 : kraus CC).
Hypothesis OK : eigvalsh_ok ev.
Hypothesis H0 : kraus_init false (ident 4) (2, 2) 2 2 [] = Ok o0.
(** the coherent information of the identity channel is the entropy of the state *)
Lemma id_coherent rho : is_square 4 rho -> hermitian 4 (me rho) -> tr 4 (me rho) = (1 : CC)%K ->
  exists s, snd (coherent_information ev sq (KrausType o0) rho 1 false) = Ok s /\ vn_entropy 4 (me rho) s.
Proof.
  intros Q HE T. destruct (coherent_kraus ev sq false (ident 4) (2, 2) 2 2 [] o0 [] 1 rho false OK H0) as (s1 & s2 & E & V1 & V2);
    [discriminate|right; reflexivity|constructor|lia|intros X; discriminate X|exact Q|exact HE|].
  cbn [after fold_left] in E. change (((2 ^ snd (2, 2)) ^ 1)) with 4 in V1. change (length (arg_matrices (ident (K := CC) 4)) ^ 1) with 1 in V2.
  apply (vn_ext _ _ _ _ (id_map 4 (me rho))) in V1. apply (vn_ext _ _ _ _ (id_exchange 4 (me rho))) in V2. rewrite T in V2. apply one_entropy in V2.
  exists s1. split; [|exact V1]. rewrite E. f_equal. lra.
Qed.
Lemma id_diag l : length l = 4 -> reals_sum l = 1%R -> snd (coherent_information ev sq (KrausType o0) (MA 4 4 (diag_mat l)) 1 false) = Ok (entropy_of (/ 10000000000) l).
Proof.
  intros L S. destruct (id_coherent (MA 4 4 (diag_mat l))) as (s & E & V); [split; reflexivity|apply diag_hermitian| |].
  - destruct l as [|a [|b [|c [|d [|]]]]]; try discriminate L. cbn in S. apply CC_eq; cbn; lra.
  - rewrite E. f_equal. apply (vn_unique _ _ _ _ _ _ V (ex_intro _ l (conj (diag_spectrum 4 l L) eq_refl))). reflexivity.
Qed.
Lemma id_at_most rho y : is_square 4 rho -> density 4 (me rho) -> snd (coherent_information ev sq (KrausType o0) rho 1 false) = Ok y -> (y <= 2)%R.
Proof.
  intros Q D E. destruct (id_coherent rho Q (proj1 D) (proj2 (proj2 D))) as (s & E2 & V). rewrite E in E2. injection E2 as <-.
  pose proof (vn_bounds 4 (me rho) y D V) as [_ B]. unfold log2 in B. replace (INR 4) with (2 * 2)%R in B by (cbn; ring). rewrite ln_mult in B by lra.
  assert (0 < ln 2)%R by (rewrite <- ln_1; apply ln_increasing; lra). replace ((ln 2 + ln 2) / ln 2)%R with 2%R in B by (field; lra). exact B.
Qed.
End Id.

(** the entropies of the three states *)
Lemma log_half k : (ln ((/ 2) ^ k) / ln 2 = - INR k)%R.
Proof.
  assert (0 < ln 2)%R by (rewrite <- ln_1; apply ln_increasing; lra). induction k as [|k IH]; [cbn [pow INR]; rewrite ln_1; field; lra|].
  rewrite S_INR. cbn [pow]. rewrite ln_mult; [|lra|apply pow_lt; lra]. rewrite Rdiv_plus_distr, IH, ln_Rinv by lra. field. lra.
Qed.
Definition pure4 : list R := [1; 0; 0; 0]%R.
Definition mixed4 : list R := [(/ 2) ^ 2; (/ 2) ^ 2; (/ 2) ^ 2; (/ 2) ^ 2]%R.
Definition middle4 : list R := [(/ 2) ^ 1; (/ 2) ^ 2; (/ 2) ^ 3; (/ 2) ^ 3]%R.
Lemma pow_abs k : (k <= 4)%nat -> (/ 10000000000 < Rabs ((/ 2) ^ k))%R.
Proof. intros H. rewrite Rabs_pos_eq by (apply pow_le; lra). do 5 (destruct k as [|k]; [cbn; lra|]). lia. Qed.
Lemma pure4_entropy : entropy_of (/ 10000000000) pure4 = 0%R.
Proof. unfold entropy_of, pure4. cbn [map fold_right]. rewrite ln_1, Rabs_R0. repeat destruct (Rlt_dec _ _); lra. Qed.
Lemma half_entropy l : Forall (fun k => k <= 4) l -> entropy_of (/ 10000000000) (map (fun k => (/ 2) ^ k)%R l) = reals_sum (map (fun k => (/ 2) ^ k * INR k)%R l).
Proof.
  unfold entropy_of. induction 1 as [|k l H F IH]; [cbn; ring|]. cbn [map fold_right]. destruct (Rlt_dec _ _) as [_|N]; [|exfalso; apply N, pow_abs, H].
  rewrite log_half. unfold reals_sum in *. cbn [fold_right]. rewrite <- IH. ring.
Qed.
Lemma mixed4_entropy : entropy_of (/ 10000000000) mixed4 = 2%R.
Proof. change mixed4 with (map (fun k => (/ 2) ^ k)%R [2; 2; 2; 2]). rewrite half_entropy by (repeat constructor; lia). cbn. lra. Qed.
Lemma middle4_entropy : entropy_of (/ 10000000000) middle4 = (7 / 4)%R.
Proof. change middle4 with (map (fun k => (/ 2) ^ k)%R [1; 2; 3; 3]). rewrite half_entropy by (repeat constructor; lia). cbn. lra. Qed.
Lemma diag_dist (l m : list R) : length l = 4 -> length m = 4 -> entry_dist 4 4 (diag_mat l) (diag_mat m) = reals_sum (map (fun p => Rabs (fst p - snd p)) (combine l m)).
Proof.
  intros L M. destruct l as [|a [|b [|c [|d [|]]]]]; try discriminate L. destruct m as [|a' [|b' [|c' [|d' [|]]]]]; try discriminate M.
  assert (Z : Cmod (ssub s0 s0) = 0%R). { unfold Cmod. cbn. rewrite <- sqrt_0. f_equal. ring. }
  assert (G : forall x y, Cmod (ssub ((x, 0%R) : CC) ((y, 0%R) : CC)) = Rabs (x - y)). { intros x y. unfold Cmod. cbn. rewrite <- sqrt_Rsqr_abs. f_equal. unfold Rsqr. ring. }
  unfold entry_dist. cbn [seq map combine reals_sum fold_right]. unfold diag_mat. cbn [Nat.eqb nth]. rewrite !Z, !G. unfold reals_sum. cbn [fold_right fst snd]. ring.
Qed.

(** a parameterisation by the eigenvalues; the draws are given *)
Definition diag_param (draw : nat -> list R) : paramet :=
  Paramet (fun n _ => Ok (repeat (0%R, 1%R) n)) (fun v n _ => if Nat.eqb (length v) n then Ok (MA n n (diag_mat v)) else Err AssertionError) (fun k _ _ => Ok (draw k)).
Definition three_draws (k : nat) : list R := match k with 0 => pure4 | 1 => middle4 | _ => mixed4 end.
