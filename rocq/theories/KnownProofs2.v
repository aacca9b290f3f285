(** The bit-flip channel and amplitude damping (C124, C125). *)
From Verif Require Import Py Scalar PauliModel PauliSpec EncoderProofs EighExists Spectral SpectralProofs PowerSums KrausModel KrausSpec KrausProofs KrausProofs2 KrausProofs5 KrausProofs6 KrausProofs8 KrausProofs11 KrausProofs12
  ChoiModel ChannelModel ChannelSpec ChoiSpec ChoiProofs ChoiProofs2 ChoiProofs3 Sqrt EntropyProofs EntropySpec Subadd CohProofs CohProofs2 CohProofs3 CohProofs4 Processing ProcessingSpec Processing2 Degradable KnownSpec KnownProofs.
From Coq Require Import Reals Lra.
Open Scope nat_scope.
Open Scope K_scope.
Add Ring CCring59 : (s_rt CC).

Definition m2 (a b c d : CC) : array CC := me (mat2 a b c d).
Lemma eqm2 (A : array CC) : eqm 2 2 A (m2 (A 0%nat 0%nat) (A 0%nat 1%nat) (A 1%nat 0%nat) (A 1%nat 1%nat)).
Proof. intros i j Hi Hj. destruct i as [|[|i]]; [| |lia]; destruct j as [|[|j]]; try lia; reflexivity. Qed.
Lemma eqm2_of (A : array CC) a b c d : A 0%nat 0%nat = a -> A 0%nat 1%nat = b -> A 1%nat 0%nat = c -> A 1%nat 1%nat = d -> eqm 2 2 A (m2 a b c d).
Proof. intros <- <- <- <-. apply eqm2. Qed.
Lemma rt_conj x : (rt x)^* = rt x. Proof. unfold rt. apply CC_eq; cbn; ring. Qed.
Lemma rt_rt x : (0 <= x)%R -> rt x * rt x = rc x. Proof. intros H. rewrite <- (rt_sq x H), rt_conj. reflexivity. Qed.
Lemma rc_conj x : (rc x)^* = rc x. Proof. apply CC_eq; cbn; ring. Qed.
Lemma rc_add x y : rc x + rc y = rc (x + y). Proof. apply CC_eq; cbn; ring. Qed.
Lemma rc_mul x y : rc x * rc y = rc (x * y). Proof. apply CC_eq; cbn; ring. Qed.
Lemma rc_1 : rc 1 = 1. Proof. reflexivity. Qed.
Lemma rc_sub x : rc (1 - x) = 1 - rc x. Proof. apply CC_eq; cbn; ring. Qed.
Lemma rt_mul x y : (0 <= x)%R -> (0 <= y)%R -> rt x * rt y = rt (x * y).
Proof. intros Hx Hy. unfold rt. rewrite sqrt_mult by assumption. apply CC_eq; cbn; ring. Qed.

(** the entropy does not change under a change of basis *)
Lemma von_conj d U A s : unitary d U -> hermitian d A -> von_neumann d A s -> von_neumann d (mm d (mm d U A) (adj U)) s.
Proof.
  intros [U1 U2] H (l & (L & V & [[V1 V2] E]) & ->). exists l. split; [|reflexivity]. split; [exact L|]. exists (mm d U V). split; [split|].
  - intros i j Hi Hj. rewrite (mm_ext _ _ (mm d (adj V) (adj U)) _ (mm d U V)) by (intros; first [apply adj_mm|reflexivity]). rewrite mm_assoc. rewrite (mm_ext _ _ (adj V) _ V); [apply V1; assumption|reflexivity|]. intros k Hk. rewrite <- mm_assoc.
    rewrite (mm_ext _ _ eye _ V) by (intros; first [apply U1; assumption|reflexivity]). apply mm_eye_l, Hk.
  - intros i j Hi Hj. rewrite (mm_ext _ _ (mm d U V) _ (mm d (adj V) (adj U))) by (intros; first [apply adj_mm|reflexivity]). rewrite mm_assoc. rewrite (mm_ext _ _ U _ (adj U)); [apply U2; assumption|reflexivity|]. intros k Hk. rewrite <- mm_assoc.
    rewrite (mm_ext _ _ eye _ (adj U)) by (intros; first [apply V2; assumption|reflexivity]). apply mm_eye_l, Hk.
  - intros i t Hi Ht. rewrite mm_assoc. rewrite (mm_ext _ _ (mm d U A) _ V); [|reflexivity|].
    + rewrite mm_assoc. unfold mm at 1. rewrite (bsum_ext d _ (fun k => (U i k * V k t) * ((nth t l 0%R, 0%R) : CC))) by (intros k Hk; rewrite E by assumption; ring). rewrite bsum_mul_r. reflexivity.
    + intros k Hk. rewrite <- mm_assoc. rewrite (mm_ext _ _ eye _ V) by (intros; first [apply U1; assumption|reflexivity]). apply mm_eye_l, Hk.
Qed.
Lemma von_diag d (e : nat -> R) A : (forall t, t < d -> (0 <= e t)%R) -> eqm d d A (fun i j => if Nat.eqb i j then rc (e i) else 0) -> von_neumann d A (- rsum d (fun t => xlx (e t)) / ln 2)%R.
Proof.
  intros P E. apply (von_of0 d A eye e P). split.
  - split; intros i j Hi Hj; (rewrite mm_eye_l || rewrite mm_eye_r); try assumption; apply adj_eye.
  - intros i t Hi Ht. rewrite mm_eye_r by exact Ht. rewrite E by assumption. unfold eye. destruct (Nat.eqb_spec i t) as [->|N]; [change (rc (e t) = 1 * rc (e t)); ring|change ((0 : CC) = 0 * rc (e t)); ring].
Qed.
Lemma von_diag2 A x : (0 <= x <= 1)%R -> eqm 2 2 A (m2 (rc x) 0 0 (rc (1 - x))) -> von_neumann 2 A (binary_entropy x).
Proof.
  intros Hx E. replace (binary_entropy x) with (- rsum 2 (fun t => xlx (if Nat.eqb t 0 then x else 1 - x)%R) / ln 2)%R.
  - apply von_diag; [intros t Ht; destruct (Nat.eqb t 0); lra|]. intros i j Hi Hj. rewrite E by assumption. destruct i as [|[|i]]; [| |lia]; destruct j as [|[|j]]; try lia; reflexivity.
  - rewrite binary_form. cbn [rsum Nat.eqb]. rewrite Rplus_0_l. reflexivity.
Qed.
Lemma density2 (A : array CC) : density 2 A -> A 1%nat 0%nat = (A 0%nat 1%nat)^* /\ exists x, (0 <= x <= 1)%R /\ A 1%nat 1%nat = rc x /\ A 0%nat 0%nat = rc (1 - x).
Proof.
  intros (H & P & T). split; [symmetry; apply (H 1%nat 0%nat); lia|]. destruct (SpectralProofs.psd_diag_real 2 A 0 P ltac:(lia)) as [I0 R0]. destruct (SpectralProofs.psd_diag_real 2 A 1 P ltac:(lia)) as [I1 R1].
  unfold tr in T. cbn [bsum] in T. destruct (A 0%nat 0%nat) as [a a'], (A 1%nat 1%nat) as [b b']. cbn in *. subst. exists b. apply (f_equal fst) in T. cbn in T. split; [lra|]. split; [reflexivity|]. unfold rc. f_equal. lra.
Qed.
(** reflections *)
Lemma flip_von A s a b c d : eqm 2 2 A (m2 a b c d) -> hermitian 2 A -> von_neumann 2 A s -> von_neumann 2 (m2 a (- b) (- c) d) s.
Proof.
  intros E H V. pose proof (von_conj 2 (m2 1 0 0 (- (1))) A s) as C. refine (von_ext _ _ _ _ _ (C _ H V)).
  - assert (E' : forall i j, i < 2 -> j < 2 -> A i j = m2 a b c d i j) by exact E. intros i j Hi Hj. unfold mm, adj. cbn [bsum]. rewrite !E' by lia. destruct i as [|[|i]]; [| |lia]; destruct j as [|[|j]]; try lia; cbn -[car sadd smul s0 s1 sopp sconj]; rewrite ?sconj_opp, ?sconj_1, ?sconj_0; ring.
  - split; intros i j Hi Hj; unfold mm, adj; cbn [bsum]; destruct i as [|[|i]]; try lia; destruct j as [|[|j]]; try lia; cbn -[car sadd smul s0 s1 sopp sconj]; rewrite ?sconj_opp, ?sconj_1, ?sconj_0; ring.
Qed.
Lemma swap_von A s a b c d : eqm 2 2 A (m2 a b c d) -> hermitian 2 A -> von_neumann 2 A s -> von_neumann 2 (m2 d c b a) s.
Proof.
  intros E H V. pose proof (von_conj 2 (m2 0 1 1 0) A s) as C. refine (von_ext _ _ _ _ _ (C _ H V)).
  - assert (E' : forall i j, i < 2 -> j < 2 -> A i j = m2 a b c d i j) by exact E. intros i j Hi Hj. unfold mm, adj. cbn [bsum]. rewrite !E' by lia. destruct i as [|[|i]]; [| |lia]; destruct j as [|[|j]]; try lia; cbn -[car sadd smul s0 s1 sopp sconj]; rewrite ?sconj_opp, ?sconj_1, ?sconj_0; ring.
  - split; intros i j Hi Hj; unfold mm, adj; cbn [bsum]; destruct i as [|[|i]]; try lia; destruct j as [|[|j]]; try lia; cbn -[car sadd smul s0 s1 sopp sconj]; rewrite ?sconj_opp, ?sconj_1, ?sconj_0; ring.
Qed.
Lemma flip_density A a b c d : eqm 2 2 A (m2 a b c d) -> density 2 A -> density 2 (m2 a (- b) (- c) d).
Proof.
  intros E (H & P & T). assert (PF : psd 2 (m2 a (- b) (- c) d)).
  { intros v. destruct (P (fun i => if Nat.eqb i 0 then v O else - v i)) as (x & Hx & EX). exists x. split; [exact Hx|]. rewrite <- EX. cbn [bsum]. assert (E' : forall i j, i < 2 -> j < 2 -> A i j = m2 a b c d i j) by exact E. rewrite !E' by lia. cbn -[car sadd smul s0 s1 sopp sconj]. rewrite !sconj_opp. ring. }
  split; [apply psd_hermitian, PF|]. split; [exact PF|]. rewrite <- T. unfold tr. cbn [bsum]. rewrite !E by lia. reflexivity.
Qed.
Lemma swap_density A a b c d : eqm 2 2 A (m2 a b c d) -> density 2 A -> density 2 (m2 d c b a).
Proof.
  intros E (H & P & T). assert (PF : psd 2 (m2 d c b a)).
  { intros v. destruct (P (fun i => v (1 - i)%nat)) as (x & Hx & EX). exists x. split; [exact Hx|]. rewrite <- EX. cbn [bsum]. assert (E' : forall i j, i < 2 -> j < 2 -> A i j = m2 a b c d i j) by exact E. rewrite !E' by lia. cbn -[car sadd smul s0 s1 sopp sconj]. ring. }
  split; [apply psd_hermitian, PF|]. split; [exact PF|]. rewrite <- T. unfold tr. cbn [bsum]. rewrite !E by lia. cbn -[car sadd smul s0 s1 sopp sconj]. ring.
Qed.
(** ** the bit-flip channel *)
Ltac two := cbn -[car sadd smul s0 s1 sopp sconj rt rc]; rewrite ?sconj_opp, ?rt_conj, ?sconj_1, ?sconj_0.
Lemma bit_flip_fits p : fits 2 2 (bit_flip p). Proof. repeat constructor. Qed.
Lemma bit_flip_out p rho : (0 <= p <= 1)%R -> eqm 2 2 (channel_map (bit_flip p) rho)
  (m2 (rc (1 - p) * rho 0%nat 0%nat + rc p * rho 1%nat 1%nat) (rc (1 - p) * rho 0%nat 1%nat + rc p * rho 1%nat 0%nat)
      (rc (1 - p) * rho 1%nat 0%nat + rc p * rho 0%nat 1%nat) (rc (1 - p) * rho 1%nat 1%nat + rc p * rho 0%nat 0%nat)).
Proof. intros Hp. rewrite <- (rt_rt (1 - p)), <- (rt_rt p) by lra. apply eqm2_of; unfold channel_map, mm, adj; two; ring. Qed.
Lemma bit_flip_env p rho : (0 <= p <= 1)%R -> eqm 2 2 (exchange_entry (bit_flip p) rho)
  (m2 (rc (1 - p) * (rho 0%nat 0%nat + rho 1%nat 1%nat)) (rt (1 - p) * rt p * (rho 0%nat 1%nat + rho 1%nat 0%nat))
      (rt (1 - p) * rt p * (rho 0%nat 1%nat + rho 1%nat 0%nat)) (rc p * (rho 0%nat 0%nat + rho 1%nat 1%nat))).
Proof. intros Hp. rewrite <- (rt_rt (1 - p)), <- (rt_rt p) by lra. apply eqm2_of; unfold exchange_entry, tr, mm, adj; two; ring. Qed.
Lemma bit_flip_tp p : (0 <= p <= 1)%R -> trace_preserving 2 (bit_flip p).
Proof.
  intros Hp i j Hi Hj. assert (E : rt (1 - p) * rt (1 - p) + rt p * rt p = 1) by (rewrite !rt_rt by lra; rewrite rc_add, <- rc_1; f_equal; lra).
  unfold mm, adj, eye. destruct i as [|[|i]]; [| |lia]; destruct j as [|[|j]]; try lia; two; try ring; rewrite <- E; ring.
Qed.
(** one use *)
Lemma entropies_one O D a rho t : fits O D a -> (entropies (O ^ 1) (power_ops a 1) rho t <-> entropies O a rho t).
Proof.
  intros F. rewrite Nat.pow_1_r. assert (PL : length (power_ops a 1) = length a) by (rewrite power_len; apply Nat.pow_1_r).
  assert (E1 : eqm O O (channel_map a rho) (channel_map (power_ops a 1) rho)) by (apply (channel_map_same O D); [exact F|apply power_ops_1|apply eqm_refl]).
  assert (E2 : eqm (length a) (length a) (exchange_entry a rho) (exchange_entry (power_ops a 1) rho)) by (intros i j Hi Hj; apply (exchange_entry_same O D); [exact F|apply power_ops_1|apply eqm_refl|assumption..]).
  unfold entropies. rewrite PL. split; intros [H1 H2]; split; (eapply von_ext; [|eassumption]); first [assumption|apply eqm_sym; assumption].
Qed.
Lemma mixed_one O D a k c Z t tb rho : fits O D a -> trace_preserving D a -> output_imitates O a -> (forall x, x < k -> (0 <= c x)%R /\ density D (Z x)) -> rsum k c = 1%R ->
  eqm D D rho (mixture k c Z) -> (forall x, x < k -> entropies O a (Z x) (t x)) -> entropies O a rho tb -> (rsum k (fun x => c x * (fst (t x) - snd (t x))) <= fst tb - snd tb)%R.
Proof.
  intros F T IM H S EQ V VB. apply (mixed O D a 1 k c Z t tb rho F T IM); rewrite ?Nat.pow_1_r; try assumption.
  - intros x Hx. pose proof (proj2 (entropies_one O D a (Z x) (t x) F) (V x Hx)) as G. rewrite Nat.pow_1_r in G. exact G.
  - pose proof (proj2 (entropies_one O D a rho tb F) VB) as G. rewrite Nat.pow_1_r in G. exact G.
Qed.
Lemma bit_flip_imitates p : (0 <= p <= 1)%R -> output_imitates 2 (bit_flip p).
Proof.
  intros Hp. set (a := rt (1 - p)). set (b := rt p). set (h := rt (1 / 2)).
  assert (EH : h * h = rc (1 / 2)) by (apply rt_rt; lra). assert (H2 : rc (1 / 2) + rc (1 / 2) = 1) by (rewrite rc_add, <- rc_1; f_equal; lra).
  assert (EA : a * a = rc (1 - p)) by (apply rt_rt; lra). assert (EB : b * b = rc p) by (apply rt_rt; lra). assert (AB : a * a + b * b = 1) by (rewrite EA, EB, rc_add, <- rc_1; f_equal; lra).
  assert (CA : a^* = a) by apply rt_conj. assert (CB : b^* = b) by apply rt_conj. assert (CH : h^* = h) by apply rt_conj.
  exists [mat2 (h * a) (h * a) (h * b) (h * b); mat2 (h * a) (- (h * a)) (- (h * b)) (h * b)]. split; [repeat constructor|]. split.
  - intros i j Hi Hj. assert (E : h * h * (a * a + b * b) + h * h * (a * a + b * b) = 1) by (rewrite AB, EH; transitivity (rc (1 / 2) + rc (1 / 2)); [ring|exact H2]).
    unfold mm, adj, eye. destruct i as [|[|i]]; [| |lia]; destruct j as [|[|j]]; try lia; cbn -[car sadd smul s0 s1 sopp sconj a b h]; rewrite ?sconj_opp, ?sconj_mul, ?CA, ?CB, ?CH; try ring; rewrite <- E; ring.
  - intros rho. cbn [bit_flip length]. intros i j Hi Hj. rewrite bit_flip_env by assumption.
    match goal with |- _ = channel_map ?m _ _ _ => rewrite (channel_map_same 2 2 m m _ _ ltac:(repeat constructor) (same_ops_refl _) (bit_flip_out p rho Hp) i j Hi Hj) end.
    fold a b. rewrite <- EA, <- EB. assert (E : h * h + h * h = 1) by (rewrite EH; exact H2).
    unfold channel_map, mm, adj. destruct i as [|[|i]]; [| |lia]; destruct j as [|[|j]]; try lia; cbn -[car sadd smul s0 s1 sopp sconj a b h]; rewrite ?sconj_opp, ?sconj_mul, ?CA, ?CB, ?CH.
    + transitivity ((h * h + h * h) * (a * a * (rho 0%nat 0%nat + rho 1%nat 1%nat)) * (a * a + b * b)); [rewrite E, AB; ring|ring].
    + transitivity ((h * h + h * h) * (a * b * (rho 0%nat 1%nat + rho 1%nat 0%nat)) * (a * a + b * b)); [rewrite E, AB; ring|ring].
    + transitivity ((h * h + h * h) * (a * b * (rho 0%nat 1%nat + rho 1%nat 0%nat)) * (a * a + b * b)); [rewrite E, AB; ring|ring].
    + transitivity ((h * h + h * h) * (b * b * (rho 0%nat 0%nat + rho 1%nat 1%nat)) * (a * a + b * b)); [rewrite E, AB; ring|ring].
Qed.
Lemma hermitian_out O D a rho : fits O D a -> trace_preserving D a -> density D rho -> hermitian O (channel_map a rho).
Proof. intros F T DR. apply (channel_density O D a rho F T DR). Qed.
Lemma hermitian_env O D a rho : fits O D a -> trace_preserving D a -> density D rho -> hermitian (length a) (exchange_entry a rho).
Proof. intros F T DR. apply (exchange_density O D a rho F T DR). Qed.
(** turning the input over, or changing the sign of its second basis vector *)
Lemma bit_flip_sign p rho a b c d t : (0 <= p <= 1)%R -> eqm 2 2 rho (m2 a b c d) -> density 2 rho -> entropies 2 (bit_flip p) rho t -> entropies 2 (bit_flip p) (m2 a (- b) (- c) d) t.
Proof.
  intros Hp E DR [V1 V2]. assert (F := bit_flip_fits p). assert (T := bit_flip_tp p Hp). assert (E' : forall i j, i < 2 -> j < 2 -> rho i j = m2 a b c d i j) by exact E. split.
  - refine (von_ext _ _ _ _ _ (flip_von _ _ _ _ _ _ (bit_flip_out p rho Hp) (hermitian_out 2 2 _ _ F T DR) V1)). apply eqm_sym. intros i j Hi Hj. rewrite bit_flip_out by assumption. rewrite !E' by lia.
    destruct i as [|[|i]]; [| |lia]; destruct j as [|[|j]]; try lia; cbn -[car sadd smul s0 s1 sopp sconj rc]; ring.
  - refine (von_ext _ _ _ _ _ (flip_von _ _ _ _ _ _ (bit_flip_env p rho Hp) (hermitian_env 2 2 _ _ F T DR) V2)). apply eqm_sym. intros i j Hi Hj. cbn in Hi, Hj. rewrite bit_flip_env by assumption. rewrite !E' by lia.
    destruct i as [|[|i]]; [| |lia]; destruct j as [|[|j]]; try lia; cbn -[car sadd smul s0 s1 sopp sconj rc rt]; ring.
Qed.
Lemma bit_flip_turn p rho a b c d t : (0 <= p <= 1)%R -> eqm 2 2 rho (m2 a b c d) -> density 2 rho -> entropies 2 (bit_flip p) rho t -> entropies 2 (bit_flip p) (m2 d c b a) t.
Proof.
  intros Hp E DR [V1 V2]. assert (F := bit_flip_fits p). assert (T := bit_flip_tp p Hp). assert (E' : forall i j, i < 2 -> j < 2 -> rho i j = m2 a b c d i j) by exact E. split.
  - refine (von_ext _ _ _ _ _ (swap_von _ _ _ _ _ _ (bit_flip_out p rho Hp) (hermitian_out 2 2 _ _ F T DR) V1)). apply eqm_sym. intros i j Hi Hj. rewrite bit_flip_out by assumption. rewrite !E' by lia.
    destruct i as [|[|i]]; [| |lia]; destruct j as [|[|j]]; try lia; cbn -[car sadd smul s0 s1 sopp sconj rc]; ring.
  - refine (von_ext _ _ _ _ _ V2). apply eqm_sym. intros i j Hi Hj. cbn in Hi, Hj. rewrite !bit_flip_env by assumption. rewrite !E' by lia.
    destruct i as [|[|i]]; [| |lia]; destruct j as [|[|j]]; try lia; cbn -[car sadd smul s0 s1 sopp sconj rc rt]; ring.
Qed.
Lemma half_entropy : binary_entropy (1 / 2) = 1%R.
Proof. rewrite binary_form. unfold xlx. replace (1 - 1 / 2)%R with (/ 2)%R by lra. replace (1 / 2)%R with (/ 2)%R by lra. rewrite ln_Rinv by lra. pose proof ln2_pos. field. lra. Qed.
Definition middle : array CC := m2 (rc (1 / 2)) 0 0 (rc (1 / 2)).
Lemma bit_flip_middle p : (0 <= p <= 1)%R -> entropies 2 (bit_flip p) middle (1%R, binary_entropy p).
Proof.
  intros Hp. split; cbn [fst snd].
  - rewrite <- half_entropy. apply von_diag2; [lra|]. intros i j Hi Hj. rewrite bit_flip_out by assumption. unfold middle. destruct i as [|[|i]]; [| |lia]; destruct j as [|[|j]]; try lia; cbn -[car sadd smul s0 s1 sopp sconj rc]; try ring;
      [transitivity (rc (1 - p) * rc (1 / 2) + rc p * rc (1 / 2)); [reflexivity|]|transitivity (rc (1 - p) * rc (1 / 2) + rc p * rc (1 / 2)); [reflexivity|]]; rewrite !rc_mul, rc_add; f_equal; lra.
  - cbn [bit_flip length]. replace (binary_entropy p) with (binary_entropy (1 - p)) by (rewrite !binary_form; replace (1 - (1 - p))%R with p by lra; unfold Rdiv; ring).
    apply von_diag2; [lra|]. intros i j Hi Hj. rewrite bit_flip_env by assumption. unfold middle. assert (EH : rc (1 / 2) + rc (1 / 2) = 1) by (rewrite rc_add, <- rc_1; f_equal; lra).
    destruct i as [|[|i]]; [| |lia]; destruct j as [|[|j]]; try lia; cbn -[car sadd smul s0 s1 sopp sconj rc rt]; rewrite ?EH; try ring. replace (1 - (1 - p))%R with p by lra. ring.
Qed.
Theorem bit_flip_most p rho t : (0 <= p <= 1)%R -> density 2 rho -> entropies 2 (bit_flip p) rho t -> (fst t - snd t <= 1 - binary_entropy p)%R.
Proof.
  intros Hp DR V. pose proof (eqm2 rho) as E. set (a := rho 0%nat 0%nat) in *. set (b := rho 0%nat 1%nat) in *. set (c := rho 1%nat 0%nat) in *. set (d := rho 1%nat 1%nat) in *.
  pose proof (bit_flip_sign p rho a b c d t Hp E DR V) as V2. pose proof (flip_density rho a b c d E DR) as D2.
  pose proof (bit_flip_turn p rho a b c d t Hp E DR V) as V3. pose proof (swap_density rho a b c d E DR) as D3.
  pose proof (bit_flip_turn p (m2 a (- b) (- c) d) a (- b) (- c) d t Hp (eqm_refl _ _ _) D2 V2) as V4. pose proof (swap_density (m2 a (- b) (- c) d) a (- b) (- c) d (eqm_refl _ _ _) D2) as D4.
  pose proof (mixed_one 2 2 (bit_flip p) 4 (fun _ => 1 / 4)%R (fun x => match x with O => m2 a b c d | 1 => m2 a (- b) (- c) d | 2 => m2 d c b a | _ => m2 d (- c) (- b) a end)%nat (fun _ => t) (1%R, binary_entropy p) middle
    (bit_flip_fits p) (bit_flip_tp p Hp) (bit_flip_imitates p Hp)) as M. cbn [fst snd rsum] in M.
  assert (G : (0 + 1 / 4 * (fst t - snd t) + 1 / 4 * (fst t - snd t) + 1 / 4 * (fst t - snd t) + 1 / 4 * (fst t - snd t) <= 1 - binary_entropy p)%R); [|lra]. apply M.
  - intros x Hx. split; [lra|]. destruct x as [|[|[|[|x]]]]; try lia; try assumption. apply (density_ext 2 rho); assumption.
  - lra.
  - intros i j Hi Hj. unfold mixture. cbn [bsum]. change ((1 / 4)%R, 0%R) with (rc (1 / 4)). destruct DR as (_ & _ & T). unfold tr in T. cbn [bsum] in T. fold a d in T.
    assert (Q : rc (1 / 4) + rc (1 / 4) = rc (1 / 2)) by (rewrite rc_add; f_equal; lra). unfold middle.
    destruct i as [|[|i]]; [| |lia]; destruct j as [|[|j]]; try lia; cbn -[car sadd smul s0 s1 sopp sconj rc a b c d]; try ring.
    + transitivity ((rc (1 / 4) + rc (1 / 4)) * (0 + a + d)); [rewrite T, Q; ring|ring].
    + transitivity ((rc (1 / 4) + rc (1 / 4)) * (0 + a + d)); [rewrite T, Q; ring|ring].
  - intros x Hx. destruct x as [|[|[|[|x]]]]; try lia; try assumption. destruct V as [W1 W2]. split; (eapply von_ext; [|eassumption]).
    + apply (channel_map_same 2 2); [apply bit_flip_fits|apply same_ops_refl|exact E].
    + intros i j Hi Hj. apply (exchange_entry_same 2 2); [apply bit_flip_fits|apply same_ops_refl|exact E|assumption..].
  - apply bit_flip_middle, Hp.
Qed.
(** ** the amplitude-damping channel *)
Lemma damping_fits p : fits 2 2 (amplitude_damping p). Proof. repeat constructor. Qed.
Definition damped (p : R) (rho : array CC) : array CC := m2 (rho 0%nat 0%nat + rc p * rho 1%nat 1%nat) (rt (1 - p) * rho 0%nat 1%nat) (rt (1 - p) * rho 1%nat 0%nat) (rc (1 - p) * rho 1%nat 1%nat).
Lemma damping_out p rho : (0 <= p <= 1)%R -> eqm 2 2 (channel_map (amplitude_damping p) rho) (damped p rho).
Proof. intros Hp. unfold damped. rewrite <- (rt_rt (1 - p)), <- (rt_rt p) by lra. apply eqm2_of; unfold channel_map, mm, adj; two; ring. Qed.
Lemma damping_env p rho : (0 <= p <= 1)%R -> eqm 2 2 (exchange_entry (amplitude_damping p) rho) (damped (1 - p) rho).
Proof. intros Hp. unfold damped. replace (1 - (1 - p))%R with p by lra. rewrite <- (rt_rt (1 - p)), <- (rt_rt p) by lra. apply eqm2_of; unfold exchange_entry, tr, mm, adj; two; ring. Qed.
Lemma damping_tp p : (0 <= p <= 1)%R -> trace_preserving 2 (amplitude_damping p).
Proof.
  intros Hp i j Hi Hj. assert (E : rt (1 - p) * rt (1 - p) + rt p * rt p = 1) by (rewrite !rt_rt by lra; rewrite rc_add, <- rc_1; f_equal; lra).
  unfold mm, adj, eye. destruct i as [|[|i]]; [| |lia]; destruct j as [|[|j]]; try lia; two; try ring; rewrite <- E; ring.
Qed.
Lemma damped_twice p r x rho : (p <= 1)%R -> (r <= 1)%R -> ((1 - p) * (1 - r) = 1 - x)%R -> eqm 2 2 (damped r (damped p rho)) (damped x rho).
Proof.
  intros Hp Hr E. unfold damped. rewrite <- E. assert (EX : x = (p + r * (1 - p))%R) by lra. rewrite <- rt_mul by lra. rewrite <- rc_mul. rewrite EX, <- rc_add, <- rc_mul.
  apply eqm2_of; two; ring.
Qed.
Lemma damped_ext p a b : eqm 2 2 a b -> eqm 2 2 (damped p a) (damped p b).
Proof. intros E. unfold damped. rewrite !E by lia. apply eqm_refl. Qed.
Lemma damping_output_imitates p : (0 <= p <= 1 / 2)%R -> output_imitates 2 (amplitude_damping p).
Proof.
  intros Hp. set (r := ((1 - 2 * p) / (1 - p))%R). assert (Hr : (0 <= r <= 1)%R). { unfold r. split; [apply Rmult_le_pos; [lra|apply Rlt_le, Rinv_0_lt_compat; lra]|]. apply Rmult_le_reg_r with (1 - p)%R; [lra|]. unfold Rdiv. rewrite Rmult_assoc, Rinv_l by lra. lra. }
  exists (amplitude_damping r). split; [apply damping_fits|]. split; [apply damping_tp, Hr|]. intros rho i j Hi Hj. cbn in Hi, Hj. rewrite damping_env, damping_out by (assumption || lra).
  rewrite (damped_ext r _ _ (damping_out p rho ltac:(lra))) by assumption. symmetry. apply damped_twice; try assumption; try lra. unfold r. field. lra.
Qed.
Lemma damping_environment_imitates p : (1 / 2 <= p <= 1)%R -> environment_imitates 2 (amplitude_damping p).
Proof.
  intros Hp. set (r := ((2 * p - 1) / p)%R). assert (Hr : (0 <= r <= 1)%R). { unfold r. split; [apply Rmult_le_pos; [lra|apply Rlt_le, Rinv_0_lt_compat; lra]|]. apply Rmult_le_reg_r with p; [lra|]. unfold Rdiv. rewrite Rmult_assoc, Rinv_l by lra. lra. }
  exists (amplitude_damping r). split; [apply damping_fits|]. split; [apply damping_tp, Hr|]. intros rho i j Hi Hj. rewrite !damping_out by (assumption || lra).
  rewrite (damped_ext r _ _ (damping_env p rho ltac:(lra))) by assumption. symmetry. apply damped_twice; try assumption; try lra. unfold r. field. lra.
Qed.
Definition diagonal (g : R) : array CC := m2 (rc (1 - g)) 0 0 (rc g).
Lemma binary_sym x : binary_entropy (1 - x) = binary_entropy x.
Proof. rewrite !binary_form. replace (1 - (1 - x))%R with x by lra. unfold Rdiv. ring. Qed.
Lemma damped_diagonal x g : (0 <= x <= 1)%R -> (0 <= g <= 1)%R -> von_neumann 2 (damped x (diagonal g)) (binary_entropy ((1 - x) * g)).
Proof.
  intros Hx Hg. rewrite <- binary_sym. apply von_diag2; [nra|]. unfold damped, diagonal. apply eqm2_of; two; try ring; rewrite rc_mul, ?rc_add; f_equal; ring.
Qed.
Lemma damping_diagonal p g : (0 <= p <= 1)%R -> (0 <= g <= 1)%R -> entropies 2 (amplitude_damping p) (diagonal g) (binary_entropy ((1 - p) * g), binary_entropy (p * g)).
Proof.
  intros Hp Hg. split; cbn [fst snd].
  - apply (von_ext 2 (damped p (diagonal g))); [apply eqm_sym, damping_out, Hp|apply damped_diagonal; assumption].
  - pose proof (damped_diagonal (1 - p) g ltac:(lra) Hg) as V. replace (1 - (1 - p))%R with p in V by lra. apply (von_ext 2 (damped (1 - p) (diagonal g))); [apply eqm_sym, damping_env, Hp|exact V].
Qed.
Lemma damping_sign p rho a b c d t : (0 <= p <= 1)%R -> eqm 2 2 rho (m2 a b c d) -> density 2 rho -> entropies 2 (amplitude_damping p) rho t -> entropies 2 (amplitude_damping p) (m2 a (- b) (- c) d) t.
Proof.
  intros Hp E DR [V1 V2]. assert (F := damping_fits p). assert (T := damping_tp p Hp). assert (E' : forall i j, i < 2 -> j < 2 -> rho i j = m2 a b c d i j) by exact E. split.
  - refine (von_ext _ _ _ _ _ (flip_von _ _ _ _ _ _ (damping_out p rho Hp) (hermitian_out 2 2 _ _ F T DR) V1)). apply eqm_sym. intros i j Hi Hj. rewrite damping_out by assumption. unfold damped. rewrite !E' by lia.
    destruct i as [|[|i]]; [| |lia]; destruct j as [|[|j]]; try lia; cbn -[car sadd smul s0 s1 sopp sconj rc rt]; ring.
  - refine (von_ext _ _ _ _ _ (flip_von _ _ _ _ _ _ (damping_env p rho Hp) (hermitian_env 2 2 _ _ F T DR) V2)). apply eqm_sym. intros i j Hi Hj. cbn in Hi, Hj. rewrite damping_env by assumption. unfold damped. rewrite !E' by lia.
    destruct i as [|[|i]]; [| |lia]; destruct j as [|[|j]]; try lia; cbn -[car sadd smul s0 s1 sopp sconj rc rt]; ring.
Qed.
Theorem damping_most p rho t : (0 <= p <= 1 / 2)%R -> density 2 rho -> entropies 2 (amplitude_damping p) rho t ->
  exists g, rho 1%nat 1%nat = rc g /\ (0 <= g <= 1)%R /\ (fst t - snd t <= binary_entropy ((1 - p) * g) - binary_entropy (p * g))%R.
Proof.
  intros Hp DR V. assert (Hp1 : (0 <= p <= 1)%R) by lra. pose proof (eqm2 rho) as E. set (a := rho 0%nat 0%nat) in *. set (b := rho 0%nat 1%nat) in *. set (c := rho 1%nat 0%nat) in *. set (d := rho 1%nat 1%nat) in *.
  pose proof (damping_sign p rho a b c d t Hp1 E DR V) as V2. pose proof (flip_density rho a b c d E DR) as D2.
  pose proof DR as (_ & P & T). unfold tr in T. cbn [bsum] in T. fold a d in T.
  destruct (P (fun i => if Nat.eqb i 0 then 1 else 0)) as (x & Hx & EX). destruct (P (fun i => if Nat.eqb i 0 then 0 else 1)) as (y & Hy & EY). cbn [bsum Nat.eqb] in EX, EY. fold a b c d in EX, EY. rewrite ?sconj_0, ?sconj_1 in EX, EY.
  assert (XA : rc x = a) by (transitivity ((x, 0%R) : CC); [reflexivity|rewrite <- EX; ring]). assert (YD : rc y = d) by (transitivity ((y, 0%R) : CC); [reflexivity|rewrite <- EY; ring]).
  assert (XY : (x + y = 1)%R). { rewrite <- XA, <- YD in T. apply (f_equal fst) in T. cbn in T. lra. }
  exists y. split; [symmetry; exact YD|]. split; [lra|].
  pose proof (mixed_one 2 2 (amplitude_damping p) 2 (fun _ => 1 / 2)%R (fun x => match x with O => m2 a b c d | _ => m2 a (- b) (- c) d end)%nat (fun _ => t) (binary_entropy ((1 - p) * y), binary_entropy (p * y)) (diagonal y)
    (damping_fits p) (damping_tp p Hp1) (damping_output_imitates p Hp)) as M. cbn [fst snd rsum] in M.
  assert (G : (0 + 1 / 2 * (fst t - snd t) + 1 / 2 * (fst t - snd t) <= binary_entropy ((1 - p) * y) - binary_entropy (p * y))%R); [|lra]. apply M.
  - intros k Hk. split; [lra|]. destruct k as [|[|k]]; try lia; try assumption. apply (density_ext 2 rho); assumption.
  - lra.
  - intros i j Hi Hj. unfold mixture. cbn [bsum]. change ((1 / 2)%R, 0%R) with (rc (1 / 2)). unfold diagonal. replace (1 - y)%R with x by lra. rewrite XA, YD.
    assert (Q : rc (1 / 2) + rc (1 / 2) = 1) by (rewrite rc_add, <- rc_1; f_equal; lra).
    destruct i as [|[|i]]; [| |lia]; destruct j as [|[|j]]; try lia; cbn -[car sadd smul s0 s1 sopp sconj rc a b c d]; try ring.
    + transitivity ((rc (1 / 2) + rc (1 / 2)) * a); [rewrite Q; ring|ring].
    + transitivity ((rc (1 / 2) + rc (1 / 2)) * d); [rewrite Q; ring|ring].
  - intros k Hk. destruct k as [|[|k]]; try lia; try assumption. destruct V as [W1 W2]. split; (eapply von_ext; [|eassumption]).
    + apply (channel_map_same 2 2); [apply damping_fits|apply same_ops_refl|exact E].
    + intros i j Hi Hj. apply (exchange_entry_same 2 2); [apply damping_fits|apply same_ops_refl|exact E|assumption..].
  - apply damping_diagonal; lra.
Qed.
