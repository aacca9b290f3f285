(** Proofs about noisy circuits on the device. *)
From Verif Require Import Py Scalar PauliModel PauliSpec EncoderProofs CircuitModel CircuitSpec CircuitProofs CircuitProofs2 ChannelModel OptimModel ChoiProofs2 DeviceModel DeviceSpec DeviceProofs DeviceProofs2 DeviceProofs3 DeviceProofs4 DeviceProofs5 DeviceProofs6 PropsDevice TwirlSpec TwirlSpec3 TwirlSpec4 TwirlProofs TwirlProofs2 TwirlProofs3 TwirlProofs4 TwirlProofs5 PropsTwirl PropsTwirl3.
From Coq Require Import Reals Lra Permutation.
Open Scope nat_scope.
Add Ring CCring82 : (s_rt CC).

(** ** expected values *)
Lemma expected_len r : forall f g, (forall d, length d = length r -> f d = g d) -> expected r f = expected r g.
Proof. induction r as [|k r IH]; intros f g H; cbn [expected]; [apply H; reflexivity|]. f_equal. f_equal. apply map_ext. intros i. apply IH. intros d Hd. apply H. cbn; lia. Qed.
Lemma expected_lin r : forall f g c, expected r (fun d => c * f d + g d)%R = (c * expected r f + expected r g)%R.
Proof.
  induction r as [|k r IH]; intros f g c; cbn [expected]; [reflexivity|].
  assert (S : forall l : list nat, fold_right Rplus 0%R (map (fun i => expected r (fun d => c * f (i :: d) + g (i :: d))%R) l) = (c * fold_right Rplus 0 (map (fun i => expected r (fun d => f (i :: d))) l) + fold_right Rplus 0 (map (fun i => expected r (fun d => g (i :: d))) l))%R).
  { induction l as [|i l IHl]; [cbn; ring|]. cbn [map fold_right]. rewrite IHl, (IH (fun d => f (i :: d)) (fun d => g (i :: d)) c). ring. }
  rewrite S. unfold Rdiv. ring.
Qed.
Lemma expected_0 r : expected r (fun _ => 0%R) = 0%R.
Proof. induction r as [|k r IH]; cbn [expected]; [reflexivity|]. rewrite IH. assert (Z : forall l : list nat, fold_right Rplus 0%R (map (fun _ => 0%R) l) = 0%R) by (induction l as [|i l IHl]; [reflexivity|]; cbn [map fold_right]; rewrite IHl; ring). rewrite Z. unfold Rdiv. ring. Qed.
Lemma expected_weighted r q : forall h : nat -> list nat -> R, expected r (fun d => weighted q (fun i => h i d)) = weighted q (fun i => expected r (h i)).
Proof. induction q as [|x q IH]; intros h; cbn [weighted]; [apply expected_0|]. rewrite expected_lin, (IH (fun i => h (S i))). reflexivity. Qed.
Lemma weighted_ext q : forall h h', (forall i, i < length q -> h i = h' i) -> weighted q h = weighted q h'.
Proof. induction q as [|x q IH]; intros h h' H; cbn [weighted]; [reflexivity|]. rewrite (H 0) by (cbn; lia). f_equal. apply IH. intros i Hi. apply H. cbn; lia. Qed.
Lemma weighted_affine q c b : forall h, weighted q (fun i => c * h i + b)%R = (c * weighted q h + sum_of q * b)%R.
Proof. induction q as [|x q IH]; intros h; cbn [weighted]; [unfold sum_of; cbn; ring|]. rewrite IH. unfold sum_of. cbn [fold_right]. ring. Qed.
Lemma weighted_between q (lo hi : R) : distribution q -> forall h, (forall i : nat, (i < length q)%nat -> lo <= h i <= hi)%R -> (lo <= weighted q h <= hi)%R.
Proof.
  intros [F S] h H. assert (G : forall q h, Forall (fun x => 0 <= x)%R q -> (forall i : nat, (i < length q)%nat -> lo <= h i <= hi)%R -> (sum_of q * lo <= weighted q h <= sum_of q * hi)%R).
  { clear. induction q as [|x q IH]; intros h F H; cbn [weighted]; [unfold sum_of; cbn; lra|]. inversion F; subst. specialize (IH (fun i => h (S i)) ltac:(assumption) ltac:(intros; apply H; cbn; lia)). specialize (H 0 ltac:(cbn; lia)). unfold sum_of in *. cbn [fold_right]. nra. }
  specialize (G q h F H). rewrite S in G. lra.
Qed.
Lemma weighted_close q e : distribution q -> forall h h', (forall i : nat, (i < length q)%nat -> Rabs (h i - h' i) <= e)%R -> (Rabs (weighted q h - weighted q h') <= e)%R.
Proof.
  intros D h h' H. assert (E : (weighted q h - weighted q h' = weighted q (fun i => h i - h' i))%R).
  { clear. revert h h'. induction q as [|x q IH]; intros h h'; cbn [weighted]; [ring|]. rewrite <- (IH (fun i => h (S i)) (fun i => h' (S i))). ring. }
  rewrite E. apply Rabs_le. apply weighted_between; [exact D|]. intros i Hi. specialize (H i Hi). pose proof (Rle_abs (h i - h' i)%R). pose proof (Rle_abs (- (h i - h' i))%R) as A2. rewrite Rabs_Ropp in A2. lra.
Qed.

(** ** the random numbers a design uses *)
Lemma choices_left l m : forall d, snd (choices l m d) = skipn m d.
Proof.
  induction m as [|m IH]; intros d; [reflexivity|]. cbn [choices]. unfold choice. specialize (IH (tl d)). destruct (choices l m (tl d)) as [xs d2]. cbn [snd] in *. rewrite IH. destruct d; [rewrite !skipn_nil; reflexivity|reflexivity].
Qed.
Lemma skipn_twice {X} a b (l : list X) : skipn a (skipn b l) = skipn (b + a) l.
Proof. revert l. induction b as [|b IH]; intros l; [reflexivity|]. destruct l; [rewrite !skipn_nil; reflexivity|apply IH]. Qed.
Lemma round_left n d : snd (round_phases n d) = skipn (n + length (pairs n)) d.
Proof.
  unfold round_phases. pose proof (choices_left phases3 n d) as E1. destruct (choices phases3 n d) as [x d1]. cbn [snd] in E1. pose proof (choices_left phases2 (length (pairs n)) d1) as E2. destruct (choices phases2 (length (pairs n)) d1) as [y d2]. cbn [snd] in *. rewrite E2, E1. apply skipn_twice.
Qed.
Section Draws.
Variables (register ids : list nat) (n : nat).
Hypothesis L : length register = n.
Hypothesis PE : Permutation register ids.
Lemma rounds_left t : forall w w' used, w_qubits w = ids -> design_rounds register n t w = Ok (w', used) -> w_draws w' = skipn (t * (n + length (pairs n))) (w_draws w).
Proof.
  induction t as [|t IH]; intros w w' used Q H; [injection H as <- <-; reflexivity|]. cbn [design_rounds] in *.
  destruct (design_round_run register n L (w_draws w)) as (ps & qs & d1 & E & ER & _). rewrite E in H. cbn [bind] in H. pose proof (round_left n (w_draws w)) as RL. rewrite ER in RL. cbn [snd] in RL.
  rewrite execute_all_ok in H by (cbn [w_qubits set_draws]; rewrite Q; apply (forward_on register n L ids (reg_incl register ids PE))). cbn [bind] in H.
  apply bind_ok in H. destruct H as ([w2 rest] & H2 & [= <- <-]). rewrite (IH (set_wave (set_draws w d1) (gacts (w_qubits (set_draws w d1)) (forward register n ps qs) (w_wave (set_draws w d1)))) w2 rest Q H2). cbn [w_draws set_wave set_draws]. rewrite RL, skipn_twice. f_equal. 
Qed.
Lemma after_prefix t : forall d e psi, length d = t * (n + length (pairs n)) -> after register ids n t (d ++ e) psi = after register ids n t d psi.
Proof.
  induction t as [|t IH]; intros d e psi Ld; [reflexivity|]. cbn [after].
  assert (E : exists e1 e2 rest, d = e1 ++ e2 ++ rest /\ length e1 = n /\ length e2 = length (pairs n) /\ length rest = t * (n + length (pairs n))).
  { exists (firstn n d), (firstn (length (pairs n)) (skipn n d)), (skipn (length (pairs n)) (skipn n d)). rewrite !firstn_skipn. split; [reflexivity|]. rewrite !firstn_length, !skipn_length, Ld. lia. }
  destruct E as (e1 & e2 & rest & -> & L1 & L2 & L3). rewrite <- !app_assoc. rewrite !round_draws by assumption. apply IH, L3.
Qed.
End Draws.
Lemma hd_skipn k (d : list nat) : hd 0 (skipn k d) = nth k d 0.
Proof. revert d. induction k as [|k IH]; intros [|x d]; try reflexivity. apply IH. Qed.

(** ** one trial *)
Definition state_after (a1 : adaptor) (w1 : world) (n t : nat) (d : list nat) : @state CC := after (a_register a1) (w_qubits w1) n t d (w_wave w1).
Lemma trial_overlap a cheat w epsilon g V m a1 w1 ps : can_start a cheat w -> 1 <= a_numb a -> (0 < epsilon)%R -> acts_as (a_numb a) g V -> keeps_norm (a_numb a) V ->
  (IZR m - 1 < log2 (1 / epsilon) / INR (a_numb a) <= IZR m)%R -> set_register_to_zero a cheat w = Ok (a1, w1) -> placed ps (a_register a1) w1 ->
  let u := state_after a1 w1 (a_numb a) (Z.to_nat (2 * m + 1)) in
  succeeds_with a (Two g) epsilon cheat w (fun d => Cmod (inner (a_numb a) (u d) (V ps (u d))) ^ 2)%R.
Proof.
  intros CS N1 EP AV KV B RS PL u. destruct (reset_run a cheat w CS) as (a1' & w1' & RS0 & AZ & AN & AR & P1 & O1 & D1 & _). rewrite RS in RS0. injection RS0 as <- <-. pose proof AZ as (PE & ND & LN & KZ).
  assert (NDQ : NoDup (w_qubits w1)) by (apply (Permutation_NoDup PE ND)). set (n := a_numb a) in *. set (t := Z.to_nat (2 * m + 1)) in *.
  assert (LR : length (a_register a1) = n) by congruence.
  assert (AD : forall d o w2 phases, approximate_unitary_two_design a1 epsilon (with_luck w1 d o) = Ok (w2, phases) -> w_wave w2 = u d).
  { intros d o w2 phases H. unfold approximate_unitary_two_design in H. rewrite AN in H. fold n in H. rewrite (round_count n epsilon m N1 EP B) in H. cbn [bind] in H. fold t in H. apply bind_ok in H. destruct H as ([w' used] & H & [= <- <-]).
    pose proof (after_run (a_register a1) (w_qubits w1) n LR PE t (with_luck w1 d o) w' used eq_refl H) as E. exact E. }
  intros d o. assert (CSL : can_start a cheat (with_luck w d o)) by exact CS.
  destruct (trial_run a cheat (with_luck w d o) epsilon g V CSL N1 EP AV KV) as (a1' & w1' & w2 & phases & ps' & w5 & zz & x & RS' & AZ' & AN1 & AR' & PL' & E2 & TR & Q5 & B1 & B2 & B3 & B4 & _).
  rewrite (reset_luck _ _ _ _ _ d o RS) in RS'. injection RS' as <- <-. assert (ps' = ps) as -> by (apply (placed_unique _ _ _ _ NDQ PL' PL)). rewrite (AD d o w2 phases E2) in B1, B2. fold n in B1, B2.
  exists a1, w5, (if zz then 1%R else 0%R). split. { rewrite one_trial, TR. reflexivity. }
  split; [destruct zz; auto|]. split; [destruct zz; [intros _; apply (B1 eq_refl)|lra]|]. split.
  + intros NZ OZ. rewrite B2; [reflexivity| |exact OZ]. intros H0. apply NZ. rewrite H0, (proj2 (Cmod_0 _) eq_refl). ring.
  + intros P0 W0. destruct zz; [|reflexivity]. exfalso. apply (B4 W0). rewrite (B1 eq_refl), P0. ring.
Qed.
(** circuit number i of a noisy one, after the draw *)
Definition numbered (circuits : list (list nat -> world -> res world)) (i : nat) (register : list nat) (w : world) : res world :=
  nth i circuits (fun _ w => Ok w) register (set_draws w (tl (w_draws w))).
Lemma trial_noisy a cheat w epsilon circuits m : can_start a cheat w -> 1 <= a_numb a -> (0 < epsilon)%R -> (IZR m - 1 < log2 (1 / epsilon) / INR (a_numb a) <= IZR m)%R ->
  let i := nth (length (design_ranges (a_numb a) (Z.to_nat (2 * m + 1)))) (w_draws w) 0 in
  trial a (Two (noisy circuits)) epsilon cheat w = trial a (Two (numbered circuits (i mod length circuits))) epsilon cheat w.
Proof.
  intros CS N1 EP B i. destruct (reset_run a cheat w CS) as (a1 & w1 & RS & AZ & AN & AR & P1 & O1 & D1 & _). pose proof AZ as (PE & ND & LN & KZ).
  unfold trial. rewrite RS. cbn [bind]. destruct (approximate_unitary_two_design a1 epsilon w1) as [[w2 phases]|] eqn:E2; [|reflexivity]. cbn [bind].
  assert (D2 : hd 0 (w_draws w2) = i).
  { unfold approximate_unitary_two_design in E2. rewrite AN, (round_count (a_numb a) epsilon m N1 EP B) in E2. cbn [bind] in E2. apply bind_ok in E2. destruct E2 as ([w' used] & H & [= <- <-]).
    rewrite (rounds_left (a_register a1) (w_qubits w1) (a_numb a) ltac:(congruence) PE _ w1 w' used eq_refl H). rewrite hd_skipn, D1. unfold i. rewrite (ranges_length (a_register a1) (a_numb a) ltac:(congruence)). reflexivity. }
  unfold call2, noisy, numbered. rewrite D2. reflexivity.
Qed.
Lemma numbered_acts n circuits Vs i : Forall2 (fun g V => acts_as n g V /\ keeps_norm n V) circuits Vs ->
  acts_as n (numbered circuits i) (nth i Vs (fun _ psi => psi)) /\ keeps_norm n (nth i Vs (fun _ psi => psi)).
Proof.
  intros H. assert (G : acts_as n (nth i circuits (fun _ w => Ok w)) (nth i Vs (fun _ psi => psi)) /\ keeps_norm n (nth i Vs (fun _ psi => psi))).
  { revert i. induction H as [|g V gs Vs [A K] _ IH]; intros [|i]; cbn [nth].
    1, 2: split; [split; [intros ps psi phi E; exact E|intros ps register w _ _ _ _; exists w; repeat split; intros y _; reflexivity]|intros ps psi; reflexivity].
    - auto.
    - apply IH. }
  destruct G as [[A1 A2] K]. split; [|exact K]. split; [exact A1|]. intros ps register w Q ND PE PL. unfold numbered. destruct (A2 ps register (set_draws w (tl (w_draws w))) Q ND PE PL) as (w' & E & S & W). exists w'. split; [exact E|]. split; [exact S|exact W].
Qed.
Definition identity (y x : list bool) : CC := ket x y.
Lemma numbered_matrix n ps Vs As i : Forall2 (fun (V : list nat -> @state CC -> @state CC) A => is_matrix n (V ps) A) Vs As -> is_matrix n (nth i Vs (fun _ psi => psi) ps) (nth i As identity).
Proof.
  intros H. revert i. induction H as [|V A Vs As M _ IH]; intros [|i]; cbn [nth]; [| |exact M|apply IH].
  1, 2: intros psi y Ly; unfold identity; symmetry; apply isum_ket2, Ly.
Qed.
Lemma mixture_bounds (register ids : list nat) n A (V : @state CC -> @state CC) l : length register = n -> Permutation register ids -> NoDup register -> is_matrix n V A -> (forall psi, inner n (V psi) (V psi) = inner n psi psi) ->
  (0 <= average_fidelity n A + (/ 2 ^ n) ^ l * (hadamard_fidelity n A - average_fidelity n A) <= 1)%R.
Proof.
  intros LR PE ND VA KV. pose proof (average_bounds register n LR A V VA KV) as BA. pose proof (hadamard_bounds register ids n LR PE ND A V VA KV) as BH.
  assert (0 < 2 ^ n)%R by (apply pow_lt; lra). assert (1 <= 2 ^ n)%R by (apply pow_R1_Rle; lra). assert (S : (0 <= (/ 2 ^ n) ^ l <= 1)%R).
  { split; [apply pow_le, Rlt_le, Rinv_0_lt_compat; assumption|]. rewrite <- (pow1 l). apply pow_incr. split; [apply Rlt_le, Rinv_0_lt_compat; assumption|]. rewrite <- Rinv_1. apply Rinv_le_contravar; lra. }
  set (F := average_fidelity _ _) in *. set (G := hadamard_fidelity _ _) in *. set (s := ((_ ^ l)%R)) in *. nra.
Qed.
Lemma noisy_mixture n q As : distribution q -> length q = length As -> noisy_fidelity n q As = weighted q (fun i => average_fidelity n (nth i As identity)).
Proof.
  intros [_ S] E. unfold noisy_fidelity, average_fidelity. assert (D : (0 < 2 ^ n)%R) by (apply pow_lt; lra). set (d := (2 ^ n)%R) in *.
  rewrite (weighted_ext q (fun i => _ / (d * (d + 1)))%R (fun i => / (d * (d + 1)) * Cmod (isum n (fun x => nth i As (fun _ _ => s0) x x)) ^ 2 + d / (d * (d + 1)))%R).
  - rewrite weighted_affine, S. field. nra.
  - intros i Hi. rewrite (nth_indep As (fun _ _ => s0) identity) by lia. field. nra.
Qed.
