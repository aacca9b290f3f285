(** Traces of powers of a A1 x .. x A1 + b A0 x .. x A0, and the dephrasure channel (C126). *)
From Verif Require Import Py Scalar PauliModel PauliSpec EncoderProofs EighExists Spectral SpectralProofs PowerSums KrausModel KrausSpec KrausProofs KrausProofs2 KrausProofs5 KrausProofs6 KrausProofs8 KrausProofs11 KrausProofs12
  ChoiModel ChannelModel ChannelSpec ChoiSpec ChoiProofs ChoiProofs2 ChoiProofs3 Sqrt EntropyProofs EntropySpec Subadd CohProofs CohProofs2 CohProofs3 CohProofs4 Processing ProcessingSpec Processing2 Degradable KnownSpec KnownProofs KnownProofs2.
From Coq Require Import Reals Lra.
Open Scope nat_scope.
Open Scope K_scope.
Add Ring CCring60 : (s_rt CC).

Fixpoint wsum (p : nat) (f : list bool -> CC) : CC :=
  match p with O => f [] | S q => wsum q (fun w => f (true :: w)) + wsum q (fun w => f (false :: w)) end.
Lemma wsum_ext p f g : (forall w, length w = p -> f w = g w) -> wsum p f = wsum p g.
Proof. revert f g. induction p as [|p IH]; intros f g H; [apply H; reflexivity|]. cbn [wsum]. f_equal; apply IH; intros w Hw; apply H; cbn; lia. Qed.
Lemma wsum_add p f g : wsum p (fun w => f w + g w) = wsum p f + wsum p g.
Proof. revert f g. induction p as [|p IH]; intros f g; [reflexivity|]. cbn [wsum]. rewrite !IH. ring. Qed.
Lemma wsum_scale p c f : wsum p (fun w => c * f w) = c * wsum p f.
Proof. revert f. induction p as [|p IH]; intros f; [reflexivity|]. cbn [wsum]. rewrite !IH. ring. Qed.
Lemma wsum_bsum p d (f : nat -> list bool -> CC) : wsum p (fun w => bsum d (fun k => f k w)) = bsum d (fun k => wsum p (f k)).
Proof. revert f. induction p as [|p IH]; intros f; [reflexivity|]. cbn [wsum]. rewrite !IH, <- bsum_add. reflexivity. Qed.
Fixpoint wprod (d : nat) (A : bool -> array CC) (w : list bool) : array CC := match w with [] => eye | b :: w => mm d (A b) (wprod d A w) end.
Fixpoint coef (a b : CC) (w : list bool) : CC := match w with [] => 1 | x :: w => (if x then a else b) * coef a b w end.
Definition both (a b : CC) (A : bool -> array CC) : array CC := fun i j => a * A true i j + b * A false i j.
Lemma mpow_words d a b A p i j : mpow d (both a b A) p i j = wsum p (fun w => coef a b w * wprod d A w i j).
Proof.
  revert i. induction p as [|p IH]; intros i; [cbn [mpow wsum coef wprod]; ring|]. cbn [mpow wsum coef wprod]. unfold mm at 1.
  rewrite (bsum_ext d _ (fun k => wsum p (fun w => a * coef a b w * (A true i k * wprod d A w k j)) + wsum p (fun w => b * coef a b w * (A false i k * wprod d A w k j)))).
  - rewrite bsum_add, <- !wsum_bsum. f_equal; apply wsum_ext; intros w _; rewrite bsum_mul_l; reflexivity.
  - intros k _. rewrite IH, <- wsum_add, <- wsum_scale. apply wsum_ext. intros w _. unfold both. ring.
Qed.
Lemma trace_words d a b A p : tr d (mpow d (both a b A) p) = wsum p (fun w => coef a b w * tr d (wprod d A w)).
Proof.
  unfold tr. rewrite (bsum_ext d _ (fun i => wsum p (fun w => coef a b w * wprod d A w i i))) by (intros; apply mpow_words). rewrite <- wsum_bsum.
  apply wsum_ext. intros w _. rewrite bsum_mul_l. reflexivity.
Qed.
Lemma wprod_ext d A B w : (forall x, eqm d d (A x) (B x)) -> eqm d d (wprod d A w) (wprod d B w).
Proof. intros H. induction w as [|b w IH]; intros i j Hi Hj; [reflexivity|]. cbn [wprod]. apply mm_ext; intros k Hk; [apply H|apply IH]; assumption. Qed.
Lemma tr_eqm d (A B : array CC) : eqm d d A B -> tr d A = tr d B.
Proof. intros H. apply bsum_ext. intros i Hi. apply H; assumption. Qed.
Lemma wprod_kf d e A B w : 0 < e -> forall i j, wprod (d * e) (fun x => kf e e (A x) (B x)) w i j = kf e e (wprod d A w) (wprod e B w) i j.
Proof.
  intros He. induction w as [|b w IH]; intros i j; cbn [wprod]; [symmetry; apply eye_kf, He|]. rewrite <- mm_kf. apply mm_ext; intros k Hk; [reflexivity|apply IH].
Qed.
Lemma wprod_dsum d e A B w : eqm (d + e) (d + e) (wprod (d + e) (fun x => dsum d (A x) (B x)) w) (dsum d (wprod d A w) (wprod e B w)).
Proof.
  induction w as [|b w IH]; intros i j Hi Hj; cbn [wprod]; [symmetry; apply (dsum_eye d e); assumption|]. rewrite <- dsum_mm by assumption. apply mm_ext; intros k Hk; [reflexivity|apply IH; assumption].
Qed.
Lemma tr_dsum d e A B : tr (d + e) (dsum d A B) = tr d A + tr e B.
Proof. unfold tr. rewrite bsum_split. f_equal; apply bsum_ext; intros i Hi; unfold dsum; [rewrite !ltb_l by assumption; reflexivity|rewrite !ltb_r, !minus_r; reflexivity]. Qed.
(** n factors *)
Fixpoint kpow (d n : nat) (A : array CC) : array CC := match n with O => me (one_by_one : marr CC) | S m => kf (d ^ m) (d ^ m) A (kpow d m A) end.
Fixpoint cpow (c : CC) (n : nat) : CC := match n with O => 1 | S m => c * cpow c m end.
Lemma trace_kpow d n A w : 0 < d -> w <> [] -> tr (d ^ n) (wprod (d ^ n) (fun x => kpow d n (A x)) w) = cpow (tr d (wprod d A w)) n.
Proof.
  intros Hd NE. induction n as [|n IH].
  - cbn [cpow Nat.pow]. clear NE. unfold tr. cbn [bsum]. assert (G : wprod 1 (fun x => kpow d 0 (A x)) w 0%nat 0%nat = 1); [|rewrite G; ring]. induction w as [|b w IH]; [reflexivity|]. cbn [wprod]. unfold mm. cbn [bsum]. rewrite IH. cbn [kpow one_by_one me]. ring.
  - cbn [cpow Nat.pow]. rewrite <- IH, <- tr_kf. apply tr_eqm. intros i j _ _. apply (wprod_kf d (d ^ n) A (fun x => kpow d n (A x))). apply Nat.neq_0_lt_0, Nat.pow_nonzero. lia.
Qed.
(** rank-one factors *)
Fixpoint chain (G : bool -> bool -> CC) (b : bool) (w : list bool) (z : bool) : CC := match w with [] => G b z | c :: w => G b c * chain G c w z end.
Definition outerv (v : nat -> CC) : array CC := fun i j => v i * (v j)^*.
Definition grams (d : nat) (v : bool -> nat -> CC) (x y : bool) : CC := bsum d (fun i => (v x i)^* * v y i).
Lemma outer_word d v w : forall b, exists z, (forall i j, i < d -> j < d -> wprod d (fun x => outerv (v x)) (b :: w) i j = v b i * z j) /\ forall x, bsum d (fun j => z j * v x j) = chain (grams d v) b w x.
Proof.
  induction w as [|c w IH]; intros b.
  - exists (fun j => (v b j)^*). split; [|reflexivity]. intros i j Hi Hj. cbn [wprod]. rewrite mm_eye_r by assumption. reflexivity.
  - destruct (IH c) as (z & H1 & H2). exists (fun j => grams d v b c * z j). split.
    + intros i j Hi Hj. cbn [wprod] in H1 |- *. unfold mm at 1. rewrite (bsum_ext d _ (fun k => v b i * z j * ((v b k)^* * v c k))).
      * rewrite bsum_mul_l. unfold grams. ring.
      * intros k Hk. rewrite H1 by assumption. unfold outerv. ring.
    + intros x. cbn [chain]. rewrite <- H2, <- bsum_mul_l. apply bsum_ext. intros. ring.
Qed.
Lemma trace_outer d v b w : tr d (wprod d (fun x => outerv (v x)) (b :: w)) = chain (grams d v) b w b.
Proof. destruct (outer_word d v w b) as (z & H1 & H2). rewrite <- H2. unfold tr. apply bsum_ext. intros i Hi. rewrite H1 by assumption. ring. Qed.
Lemma chain_ext G H b w z : (forall x y, G x y = H x y) -> chain G b w z = chain H b w z.
Proof. intros E. revert b. induction w as [|c w IH]; intros b; cbn [chain]; [apply E|]. rewrite E, IH. reflexivity. Qed.
Lemma chain_mul G H b w z : chain (fun x y => G x y * H x y) b w z = chain G b w z * chain H b w z.
Proof. revert b. induction w as [|c w IH]; intros b; cbn [chain]; [reflexivity|]. rewrite IH. ring. Qed.
Lemma chain_const c b w z : chain (fun _ _ => c) b w z = cpow c (S (length w)).
Proof. revert b. induction w as [|x w IH]; intros b; cbn [chain length]; [cbn [cpow]; ring|]. rewrite IH. reflexivity. Qed.
Lemma rc_cpow x n : cpow (rc x) n = rc (x ^ n).
Proof. induction n as [|n IH]; [reflexivity|]. cbn [cpow pow]. rewrite IH, rc_mul. reflexivity. Qed.
Definition same_gram (x y : bool) : CC := if Bool.eqb x y then 1 else 0.
Definition near_gram (o : R) (x y : bool) : CC := if Bool.eqb x y then 1 else rc o.
(** the products of n numbers, each x or y, not all of them x *)
Fixpoint mixed_terms (x y : R) (n : nat) : list R :=
  match n with O => [] | S m => map (Rmult y) ((x ^ m)%R :: mixed_terms x y m) ++ map (Rmult x) (mixed_terms x y m) end.
Lemma sumof_app f l m : sumof f (l ++ m) = (sumof f l + sumof f m)%R.
Proof. unfold sumof. induction l as [|x l IH]; cbn; [ring|]. rewrite IH. ring. Qed.
Lemma sumof_cons f x l : sumof f (x :: l) = (f x + sumof f l)%R. Proof. reflexivity. Qed.
Lemma sumof_map f c l : sumof f (map c l) = sumof (fun x => f (c x)) l. Proof. unfold sumof. rewrite map_map. reflexivity. Qed.
Lemma mixed_power x y p n : sumof (fun c => c ^ p)%R (mixed_terms x y (S n)) = (y ^ p * ((x ^ n) ^ p + sumof (fun c => c ^ p) (mixed_terms x y n)) + x ^ p * sumof (fun c => c ^ p) (mixed_terms x y n))%R.
Proof.
  cbn [mixed_terms]. rewrite sumof_app, !sumof_map. f_equal.
  - rewrite sumof_cons, Rpow_mult_distr, Rmult_plus_distr_l. f_equal. rewrite <- sumof_scale. apply sumof_ext. intros c _. apply Rpow_mult_distr.
  - rewrite <- sumof_scale. apply sumof_ext. intros c _. apply Rpow_mult_distr.
Qed.
Lemma power_trace x y o b w n : let p := S (length w) in
  cpow (rc (x ^ p) * chain (near_gram o) b w b + rc (y ^ p) * chain same_gram b w b) n =
  rc ((x ^ n) ^ p) * chain (near_gram (o ^ n)) b w b + rc (sumof (fun c => c ^ p)%R (mixed_terms x y n)) * chain same_gram b w b.
Proof.
  intros p. set (g := fun k => chain (near_gram (o ^ k)) b w b). set (d := chain same_gram b w b).
  assert (DD : d * d = d). { unfold d. rewrite <- chain_mul. apply chain_ext. intros x0 y0. unfold same_gram. destruct (Bool.eqb x0 y0); ring. }
  assert (GD : forall k, g k * d = d). { intros k. unfold g, d. rewrite <- chain_mul. apply chain_ext. intros x0 y0. unfold same_gram, near_gram. destruct (Bool.eqb x0 y0); ring. }
  assert (GG : forall k, g 1%nat * g k = g (S k)). { intros k. unfold g. rewrite <- chain_mul. apply chain_ext. intros x0 y0. unfold near_gram. destruct (Bool.eqb x0 y0); [ring|]. rewrite rc_mul. f_equal. cbn [pow]. ring. }
  assert (G1 : chain (near_gram o) b w b = g 1%nat) by (unfold g; rewrite pow_1; reflexivity). assert (G0 : g O = 1).
  { unfold g. cbn [pow]. rewrite (chain_ext _ (fun _ _ => 1)) by (intros; unfold near_gram; destruct (Bool.eqb _ _); reflexivity). rewrite chain_const. change (1 : CC) with (rc 1). rewrite rc_cpow, pow1. reflexivity. }
  rewrite G1. change (chain (near_gram (o ^ n)) b w b) with (g n). induction n as [|n IH].
  - cbn [cpow pow mixed_terms]. rewrite G0, pow1. unfold sumof. cbn [map fold_right]. change (rc 1) with (1 : CC). change (rc 0) with (0 : CC). ring.
  - cbn [cpow]. rewrite IH, mixed_power. set (S0 := sumof (fun c => c ^ p)%R (mixed_terms x y n)). rewrite <- !rc_add, <- !rc_mul, <- !rc_add. replace (rc ((x ^ S n) ^ p)) with (rc (x ^ p) * rc ((x ^ n) ^ p)) by (rewrite rc_mul, <- Rpow_mult_distr; reflexivity).
    rewrite <- (GG n). pose proof (GD 1%nat) as E1. pose proof (GD n) as E2.
    transitivity (rc (x ^ p) * rc ((x ^ n) ^ p) * (g 1%nat * g n) + rc (x ^ p) * rc S0 * (g 1%nat * d) + rc (y ^ p) * rc ((x ^ n) ^ p) * (g n * d) + rc (y ^ p) * rc S0 * (d * d)); [ring|]. rewrite E1, E2, DD. ring.
Qed.
(** two by two *)
Lemma square_root_form (M : array CC) (D : CC) : M 0%nat 0%nat + M 1%nat 1%nat = 1 -> M 0%nat 0%nat * M 1%nat 1%nat = D + M 0%nat 1%nat * M 1%nat 0%nat ->
  forall p, tr 2 (mpow 2 M (S (S p))) = tr 2 (mpow 2 M (S p)) - D * tr 2 (mpow 2 M p).
Proof.
  intros T E p. cbn [mpow]. set (X := mpow 2 M p). unfold tr, mm. cbn [bsum].
  set (a := M 0%nat 0%nat) in *. set (b := M 0%nat 1%nat) in *. set (c := M 1%nat 0%nat) in *. set (d := M 1%nat 1%nat) in *.
  assert (ED : D = a * d - b * c) by (rewrite E; ring). rewrite ED. assert (EA : a = 1 - d) by (rewrite <- T; ring). rewrite EA. ring.
Qed.
Lemma trace_two (M : array CC) x y : (x + y = 1)%R -> M 0%nat 0%nat + M 1%nat 1%nat = 1 -> M 0%nat 0%nat * M 1%nat 1%nat = rc (x * y) + M 0%nat 1%nat * M 1%nat 0%nat ->
  forall p, tr 2 (mpow 2 M p) = rc (x ^ p + y ^ p).
Proof.
  intros XY T E. assert (G : forall p, tr 2 (mpow 2 M p) = rc (x ^ p + y ^ p) /\ tr 2 (mpow 2 M (S p)) = rc (x ^ S p + y ^ S p)); [|intros p; apply G]. induction p as [|p [I1 I2]].
  - split.
    + unfold tr, mpow, eye. cbn [bsum Nat.eqb pow]. apply CC_eq; cbn; ring.
    + unfold tr. cbn [mpow bsum]. unfold mm, eye. cbn [bsum Nat.eqb]. transitivity (M 0%nat 0%nat + M 1%nat 1%nat); [ring|]. rewrite T, !pow_1, XY. reflexivity.
  - split; [exact I2|]. rewrite (square_root_form M (rc (x * y)) T E), I1, I2. rewrite <- !rc_add, <- !rc_mul. assert (EY : y = (1 - x)%R) by lra. apply CC_eq; cbn; subst y; ring.
Qed.
Definition word_traces (N : nat) (V : bool -> array CC) (x y o : R) : Prop :=
  forall c w, tr N (wprod N V (c :: w)) = rc (x ^ S (length w)) * chain (near_gram o) c w c + rc (y ^ S (length w)) * chain same_gram c w c.
Lemma word_traces_l d e v u x y o : (forall s t, grams d v s t = rc x * near_gram o s t) -> (forall s t, grams e u s t = rc y * same_gram s t) ->
  word_traces (d + e) (fun s => dsum d (outerv (v s)) (outerv (u s))) x y o.
Proof.
  intros Gv Gu c w. rewrite (tr_eqm _ _ _ (wprod_dsum d e (fun s => outerv (v s)) (fun s => outerv (u s)) (c :: w))), tr_dsum, !trace_outer.
  rewrite (chain_ext _ (fun s t => rc x * near_gram o s t) c w c Gv), (chain_ext _ (fun s t => rc y * same_gram s t) c w c Gu).
  rewrite (chain_mul (fun _ _ => rc x) (near_gram o)), (chain_mul (fun _ _ => rc y) same_gram), !chain_const, !rc_cpow. reflexivity.
Qed.
Lemma word_traces_r d e v u x y o : (forall s t, grams d v s t = rc y * same_gram s t) -> (forall s t, grams e u s t = rc x * near_gram o s t) ->
  word_traces (d + e) (fun s => dsum d (outerv (v s)) (outerv (u s))) x y o.
Proof.
  intros Gv Gu c w. rewrite (tr_eqm _ _ _ (wprod_dsum d e (fun s => outerv (v s)) (fun s => outerv (u s)) (c :: w))), tr_dsum, !trace_outer.
  rewrite (chain_ext _ (fun s t => rc y * same_gram s t) c w c Gv), (chain_ext _ (fun s t => rc x * near_gram o s t) c w c Gu).
  rewrite (chain_mul (fun _ _ => rc x) (near_gram o)), (chain_mul (fun _ _ => rc y) same_gram), !chain_const, !rc_cpow. ring.
Qed.
Lemma word_traces_ext N V V' x y o : (forall s, eqm N N (V s) (V' s)) -> word_traces N V x y o -> word_traces N V' x y o.
Proof. intros E W c w. rewrite <- W. symmetry. apply tr_eqm, wprod_ext, E. Qed.
Section Pair.
Variables (N : nat) (V : bool -> array CC) (x y o a b : R) (n : nat).
Hypothesis W : word_traces N V x y o.
Hypothesis Ho : (-1 <= o <= 1)%R.
Hypothesis AB : (a + b = 1)%R.
Let spread := sqrt (1 - 4 * a * b * (1 - o ^ (2 * n))).
Definition pair_list : list R := (x ^ n * ((1 + spread) / 2))%R :: (x ^ n * ((1 - spread) / 2))%R :: map (Rmult a) (mixed_terms x y n) ++ map (Rmult b) (mixed_terms x y n).
Lemma on_bounds : (-1 <= o ^ n <= 1)%R.
Proof. induction n as [|k IH]; cbn [pow]; [lra|]. nra. Qed.
Theorem pair_traces p : 0 < N -> (0 <= a)%R -> (0 <= b)%R ->
  tr (N ^ n) (mpow (N ^ n) (both (rc a) (rc b) (fun s => kpow N n (V s))) (S p)) = rc (sumof (fun c => c ^ S p)%R pair_list).
Proof.
  intros Hd Ha Hb. rewrite trace_words. pose proof on_bounds as Hn. set (t := (o ^ n)%R) in *.
  set (al := rt ((1 + t) / 2)). set (be := rt ((1 - t) / 2)). assert (EA : al * al = rc ((1 + t) / 2)) by (apply rt_rt; lra). assert (EB : be * be = rc ((1 - t) / 2)) by (apply rt_rt; lra).
  assert (CA : al^* = al) by apply rt_conj. assert (CB : be^* = be) by apply rt_conj. assert (AB1 : al * al + be * be = 1) by (rewrite EA, EB, rc_add; change (1 : CC) with (rc 1); f_equal; lra). assert (AB2 : al * al - be * be = rc t) by (rewrite EA, EB; apply CC_eq; cbn; lra).
  set (g := fun (s : bool) (i : nat) => if Nat.eqb i 0 then al else if s then be else - be). set (dl := fun (s : bool) (i : nat) => if Bool.eqb s (Nat.eqb i 0) then (1 : CC) else 0).
  assert (Gg : forall s s', grams 2 g s s' = near_gram t s s'). { intros s s'. unfold grams, g, near_gram. cbn [bsum Nat.eqb]. destruct s, s'; cbn [Bool.eqb]; rewrite ?sconj_opp, CA, CB, <- ?AB1, <- ?AB2; ring. }
  assert (Gd : forall s s', grams 2 dl s s' = same_gram s s'). { intros s s'. unfold grams, dl, same_gram. cbn [bsum Nat.eqb]. destruct s, s'; cbn [Bool.eqb]; rewrite ?sconj_1, ?sconj_0; ring. }
  rewrite (wsum_ext (S p) _ (fun w => rc ((x ^ n) ^ S p) * (coef (rc a) (rc b) w * tr 2 (wprod 2 (fun s => outerv (g s)) w)) + rc (sumof (fun c => c ^ S p)%R (mixed_terms x y n)) * (coef (rc a) (rc b) w * tr 2 (wprod 2 (fun s => outerv (dl s)) w)))).
  - rewrite wsum_add, !wsum_scale, <- !trace_words. rewrite (trace_two _ ((1 + spread) / 2) ((1 - spread) / 2)), (trace_two _ a b).
    + unfold pair_list. rewrite !sumof_cons, sumof_app, !sumof_map, !rc_mul, rc_add. f_equal. rewrite !(Rpow_mult_distr (x ^ n)).
      rewrite (sumof_ext (fun c => (a * c) ^ S p)%R (fun c => a ^ S p * c ^ S p)%R), (sumof_ext (fun c => (b * c) ^ S p)%R (fun c => b ^ S p * c ^ S p)%R) by (intros; apply Rpow_mult_distr). rewrite !sumof_scale. ring.
    + exact AB.
    + unfold both, outerv, dl. cbn [Nat.eqb Bool.eqb]. rewrite ?sconj_1, ?sconj_0. transitivity (rc a + rc b); [ring|rewrite rc_add, AB; apply rc_1].
    + unfold both, outerv, dl. cbn [Nat.eqb Bool.eqb]. rewrite ?sconj_1, ?sconj_0. rewrite <- rc_mul. ring.
    + lra.
    + unfold both, outerv, g. cbn [Nat.eqb]. rewrite ?sconj_opp, CA, CB. transitivity ((rc a + rc b) * (al * al + be * be)); [ring|]. rewrite AB1, rc_add, AB, rc_1. ring.
    + assert (Q : (0 <= 1 - 4 * a * b * (1 - o ^ (2 * n)))%R). { assert (4 * a * b <= 1)%R by (pose proof (Rle_0_sqr (a - b)) as SQ; unfold Rsqr in SQ; assert ((a + b) * (a + b) = 1)%R by (rewrite AB; ring); lra). replace (o ^ (2 * n))%R with (t * t)%R by (unfold t; rewrite <- pow_add; f_equal; lia). assert (0 <= 4 * a * b)%R by nra. assert (0 <= 1 - t * t <= 1)%R by (split; nra). set (z := (4 * a * b)%R) in *. set (z' := (1 - t * t)%R) in *. nra. }
      unfold both, outerv, g. cbn [Nat.eqb]. rewrite ?sconj_opp, CA, CB.
      assert (XY : rc ((1 + spread) / 2 * ((1 - spread) / 2)) = (rc a * rc b) * (rc 1 + rc 1) * (rc 1 + rc 1) * (al * al) * (be * be)).
      { rewrite EA, EB, !rc_add, !rc_mul. f_equal. transitivity ((1 - spread * spread) / 4)%R; [field|]. unfold spread. rewrite sqrt_sqrt by exact Q. replace (o ^ (2 * n))%R with (t * t)%R by (unfold t; rewrite <- pow_add; f_equal; lia). field. }
      rewrite XY. change (rc 1) with (1 : CC). ring.
  - intros w Hw. destruct w as [|c w]; [discriminate|]. injection Hw as Hw. rewrite trace_kpow by (discriminate || lia). rewrite W, (power_trace x y o c w n), Hw. fold t.
    rewrite !trace_outer, (chain_ext _ _ c w c Gg), (chain_ext _ _ c w c Gd). ring.
Qed.
End Pair.
Lemma mixed_sum x y n : (x + y = 1)%R -> sumof (fun c => c) (mixed_terms x y n) = (1 - x ^ n)%R.
Proof.
  intros H. pose proof (mixed_power x y 1) as P. assert (E : forall l, sumof (fun c => c ^ 1)%R l = sumof (fun c => c) l) by (intros l; apply sumof_ext; intros; apply pow_1).
  induction n as [|n IH]; [unfold sumof; cbn; ring|]. specialize (P n). rewrite !E, IH, !pow_1 in P. rewrite P. replace y with (1 - x)%R by lra. cbn [pow]. ring.
Qed.
Lemma mixed_nonneg x y n : (0 <= x)%R -> (0 <= y)%R -> Forall (fun c => 0 <= c)%R (mixed_terms x y n).
Proof.
  intros Hx Hy. induction n as [|n IH]; [constructor|]. cbn [mixed_terms]. apply Forall_app. split; apply Forall_forall; intros c Hc; apply in_map_iff in Hc; destruct Hc as (z & <- & Hz); apply Rmult_le_pos; try assumption.
  - destruct Hz as [<-|Hz]; [apply pow_le, Hx|]. rewrite Forall_forall in IH. apply IH, Hz.
  - rewrite Forall_forall in IH. apply IH, Hz.
Qed.
Lemma xlx_pow x n : (0 <= x)%R -> xlx (x ^ S n) = (x ^ n * xlx x + x * xlx (x ^ n))%R.
Proof. intros H. cbn [pow]. rewrite xlx_mul by (assumption || apply pow_le, H). ring. Qed.
Lemma sumof_scaled c l : (0 <= c)%R -> Forall (fun z => 0 <= z)%R l -> sumof xlx (map (Rmult c) l) = (c * sumof xlx l + xlx c * sumof (fun z => z) l)%R.
Proof. intros Hc F. rewrite sumof_map. induction F as [|z l Hz F IH]; [unfold sumof; cbn; ring|]. rewrite !sumof_cons, IH, xlx_mul by assumption. ring. Qed.
Lemma mixed_xlx x y n : (0 <= x)%R -> (0 <= y)%R -> (x + y = 1)%R -> sumof xlx (mixed_terms x y n) = (INR n * (xlx x + xlx y) - xlx (x ^ n))%R.
Proof.
  intros Hx Hy XY. induction n as [|n IH].
  - unfold sumof, xlx. cbn. rewrite ln_1. ring.
  - cbn [mixed_terms]. rewrite sumof_app, !sumof_scaled; try assumption; try apply mixed_nonneg; try assumption; [|constructor; [apply pow_le, Hx|apply mixed_nonneg; assumption]].
    rewrite !sumof_cons, IH, (mixed_sum x y n XY), S_INR, xlx_pow by exact Hx. replace y with (1 - x)%R by lra. ring.
Qed.
Lemma von_by_sums d A m : hermitian d A -> Forall (fun x => 0 <= x)%R m -> (forall p, tr d (mpow d A (S p)) = rc (sumof (fun x => x ^ S p)%R m)) -> von_neumann d A (- sumof xlx m / ln 2)%R.
Proof.
  intros H F S. destruct (von_exists d A H) as (s & l & SP & ->). exists l. split; [exact SP|]. rewrite (entropy_by_sums 0 d A l m (Rle_refl 0) SP S), entropy0 by exact F. reflexivity.
Qed.
Definition spread (a o : R) (n : nat) : R := sqrt (1 - 4 * a * (1 - a) * (1 - o ^ (2 * n))).
Lemma spread_bounds a o n : (0 <= a <= 1)%R -> (-1 <= o <= 1)%R -> (0 <= spread a o n <= 1)%R.
Proof.
  intros Ha Ho. unfold spread. split; [apply sqrt_pos|]. assert (B : (0 <= o ^ (2 * n))%R) by (rewrite pow_mult; apply pow_le; nra). apply Rle_trans with (sqrt 1); [apply sqrt_le_1_alt|rewrite sqrt_1; lra].
  assert (H : (o ^ (2 * n) <= 1)%R). { rewrite pow_mult. assert (0 <= o ^ 2 <= 1)%R by (cbn; nra). clear B. induction n as [|k IH]; cbn [pow]; [lra|]. assert (0 <= (o ^ 2) ^ k)%R by (apply pow_le; lra). cbn [pow] in *. nra. }
  assert (P1 : (0 <= a * (1 - a))%R) by nra. assert (P2 : (0 <= 1 - o ^ (2 * n))%R) by lra. pose proof (Rmult_le_pos _ _ P1 P2) as P3. set (z := (o ^ (2 * n))%R) in *. replace (4 * a * (1 - a) * (1 - z))%R with (4 * (a * (1 - a) * (1 - z)))%R by ring. lra.
Qed.
Theorem pair_entropy N V x y o a n : word_traces N V x y o -> (-1 <= o <= 1)%R -> (0 <= x)%R -> (0 <= y)%R -> (x + y = 1)%R -> (0 <= a <= 1)%R -> 0 < N ->
  forall A, hermitian (N ^ n) A -> eqm (N ^ n) (N ^ n) (both (rc a) (rc (1 - a)) (fun s => kpow N n (V s))) A ->
  von_neumann (N ^ n) A (INR n * binary_entropy x + (1 - x ^ n) * binary_entropy a + x ^ n * binary_entropy ((1 + spread a o n) / 2))%R.
Proof.
  intros W Ho Hx Hy XY Ha Hd A HA EA. pose proof (spread_bounds a o n Ha Ho) as SB. pose proof (mixed_nonneg x y n Hx Hy) as MN. pose proof (pow_le x n Hx) as PX.
  assert (F : Forall (fun c => 0 <= c)%R (pair_list x y o a (1 - a) n)).
  { unfold pair_list. fold (spread a o n). constructor; [nra|]. constructor; [nra|]. apply Forall_app. split; apply Forall_forall; intros c Hc; apply in_map_iff in Hc; destruct Hc as (z & <- & Hz); rewrite Forall_forall in MN; apply Rmult_le_pos; [lra|apply MN, Hz|lra|apply MN, Hz]. }
  assert (E : (INR n * binary_entropy x + (1 - x ^ n) * binary_entropy a + x ^ n * binary_entropy ((1 + spread a o n) / 2))%R = (- sumof xlx (pair_list x y o a (1 - a) n) / ln 2)%R).
  { unfold pair_list. fold (spread a o n). rewrite !sumof_cons, sumof_app, !sumof_scaled by (lra || assumption). rewrite (mixed_xlx x y n Hx Hy XY), (mixed_sum x y n XY), !xlx_mul by (lra || assumption).
    rewrite !binary_form. replace (1 - (1 + spread a o n) / 2)%R with ((1 - spread a o n) / 2)%R by lra. replace (1 - x)%R with y by lra. pose proof ln2_pos. field. lra. }
  rewrite E. apply von_by_sums; [exact HA|exact F|]. intros p. rewrite <- (pair_traces N V x y o a (1 - a) n W Ho ltac:(lra) p Hd ltac:(lra) ltac:(lra)). symmetry. apply tr_eqm.
  assert (PE : forall q, eqm (N ^ n) (N ^ n) (mpow (N ^ n) (both (rc a) (rc (1 - a)) (fun s => kpow N n (V s))) q) (mpow (N ^ n) A q)); [|apply PE].
  induction q as [|q IH]; intros i j Hi Hj; [reflexivity|]. cbn [mpow]. apply mm_ext; intros k Hk; [apply EA|apply IH]; assumption.
Qed.
(** ** n uses on corners *)
Definition ket (s : bool) : array CC := if s then m2 1 0 0 0 else m2 0 0 0 1.
Lemma kpow_ket n s i j : i < 2 ^ n -> j < 2 ^ n -> kpow 2 n (ket s) i j = if (Nat.eqb i (if s then 0 else 2 ^ n - 1) && Nat.eqb j (if s then 0 else 2 ^ n - 1))%bool then 1 else 0.
Proof.
  revert i j. induction n as [|n IH]; intros i j Hi Hj; [cbn in Hi, Hj; replace i with O by lia; replace j with O by lia; destruct s; reflexivity|].
  cbn [kpow]. unfold kf. cbn [Nat.pow] in Hi, Hj. assert (P : (2 ^ n <> 0)%nat) by (apply Nat.pow_nonzero; lia). rewrite IH by (apply Nat.mod_upper_bound, P).
  assert (Q : forall k, (k < 2 * 2 ^ n -> (k / 2 ^ n = 0 /\ k mod 2 ^ n = k /\ k < 2 ^ n) \/ (k / 2 ^ n = 1 /\ k mod 2 ^ n = k - 2 ^ n /\ 2 ^ n <= k))%nat).
  { intros k Hk. destruct (lt_dec k (2 ^ n)); [left; split; [apply Nat.div_small; lia|split; [apply Nat.mod_small; lia|lia]]|right]. assert (k / 2 ^ n = 1)%nat by (symmetry; apply (Nat.div_unique k (2 ^ n) 1 (k - 2 ^ n)%nat); lia). split; [assumption|]. split; [|lia]. symmetry. apply (Nat.mod_unique k (2 ^ n) 1); lia. }
  cbn [Nat.pow]. destruct (Q i Hi) as [(-> & -> & Ki)|(-> & -> & Ki)], (Q j Hj) as [(-> & -> & Kj)|(-> & -> & Kj)]; destruct s; unfold ket; cbn -[car sadd smul s0 s1 Nat.eqb Nat.mul Nat.pow Nat.sub];
    repeat match goal with |- context [Nat.eqb ?a ?b] => destruct (Nat.eqb_spec a b); cbn -[car sadd smul s0 s1 Nat.eqb Nat.mul Nat.pow Nat.sub] end; try ring; exfalso; lia.
Qed.
Lemma corners_both x n : 1 <= n -> eqm (2 ^ n) (2 ^ n) (me (corners x (2 ^ n))) (both (rc x) (rc (1 - x)) (fun s => kpow 2 n (ket s))).
Proof.
  intros Hn i j Hi Hj. unfold both. rewrite !kpow_ket by assumption. cbn [corners me]. assert (2 <= 2 ^ n) by (change 2 with (2 ^ 1) at 1; apply Nat.pow_le_mono_r; lia). change ((x, 0%R) : CC) with (rc x). change ((1 - x, 0)%R : CC) with (rc (1 - x)).
  destruct (Nat.eqb_spec i 0), (Nat.eqb_spec j 0), (Nat.eqb_spec i (2 ^ n - 1)), (Nat.eqb_spec j (2 ^ n - 1)); cbn [andb]; try (exfalso; lia); ring.
Qed.
Lemma exchange_kpow O D ops n A : fits O D ops -> eqm (length ops ^ n) (length ops ^ n) (exchange_entry (power_ops ops n) (kpow D n A)) (kpow (length ops) n (exchange_entry ops A)).
Proof.
  intros F. induction n as [|n IH]; intros i j Hi Hj.
  - cbn in Hi, Hj. replace i with 0%nat by lia. replace j with 0%nat by lia. unfold exchange_entry, tr, mm, adj. cbn -[car sadd smul s0 s1 sconj]. rewrite ?sconj_1. ring.
  - cbn [kpow power_ops Nat.pow] in Hi, Hj |- *. rewrite <- (power_len ops n) in Hi, Hj. rewrite (exchange_tens O D (O ^ n) (D ^ n) ops (power_ops ops n) A (kpow D n A) F (fits_power _ _ _ n F) i j Hi Hj). rewrite power_len in *.
    apply (kf_ext (length ops) (length ops ^ n) (length ops) (length ops ^ n)); [apply eqm_refl|exact IH|assumption..].
Qed.
Lemma channel_kpow O D ops n A : fits O D ops -> eqm (O ^ n) (O ^ n) (channel_map (power_ops ops n) (kpow D n A)) (kpow O n (channel_map ops A)).
Proof.
  intros F. induction n as [|n IH]; intros i j Hi Hj.
  - cbn in Hi, Hj. replace i with 0%nat by lia. replace j with 0%nat by lia. unfold channel_map, mm, adj. cbn -[car sadd smul s0 s1 sconj]. rewrite ?sconj_1. ring.
  - cbn [kpow power_ops Nat.pow] in Hi, Hj |- *. rewrite (channel_tens O D (O ^ n) (D ^ n) ops (power_ops ops n) A (kpow D n A) F (fits_power _ _ _ n F) i j).
    apply (kf_ext O (O ^ n) O (O ^ n)); [apply eqm_refl|exact IH|assumption..].
Qed.
Lemma both_mix a b A i j : mixture 2 (fun k => if Nat.eqb k 0 then a else b) (fun k => A (Nat.eqb k 0)) i j = both (rc a) (rc b) A i j.
Proof. unfold mixture, both. cbn [bsum Nat.eqb]. change (a, 0%R) with (rc a). change (b, 0%R) with (rc b). ring. Qed.
Lemma channel_both O D ops a b A : fits O D ops -> eqm O O (channel_map ops (both (rc a) (rc b) A)) (both (rc a) (rc b) (fun s => channel_map ops (A s))).
Proof.
  intros F i j Hi Hj. rewrite <- (both_mix a b (fun s => channel_map ops (A s))), <- (mix_map O D ops 2 _ (fun k => A (Nat.eqb k 0)) i j F).
  apply (channel_map_same O D); [exact F|apply same_ops_refl| |assumption..]. intros x y _ _. symmetry. apply both_mix.
Qed.
Lemma exchange_both O D ops a b A : fits O D ops -> eqm (length ops) (length ops) (exchange_entry ops (both (rc a) (rc b) A)) (both (rc a) (rc b) (fun s => exchange_entry ops (A s))).
Proof.
  intros F i j Hi Hj. rewrite <- comp_map with (O := O) (D := D) by assumption. rewrite (channel_both (length ops) D (Processing2.comp O D ops)) by (apply comp_fits || assumption). unfold both. rewrite !comp_map by assumption. reflexivity.
Qed.
Lemma both_ext N a b A B : (forall s, eqm N N (A s) (B s)) -> eqm N N (both a b A) (both a b B).
Proof. intros H i j Hi Hj. unfold both. rewrite !H by assumption. reflexivity. Qed.
Lemma kpow_ext N n A B : eqm N N A B -> eqm (N ^ n) (N ^ n) (kpow N n A) (kpow N n B).
Proof. intros H. induction n as [|n IH]; [apply eqm_refl|]. cbn [kpow Nat.pow]. apply kf_ext; assumption. Qed.
(** the output and the exchange matrix of n uses on corners *)
Lemma corners_out O ops n x : fits O 2 ops -> 1 <= n -> eqm (O ^ n) (O ^ n) (both (rc x) (rc (1 - x)) (fun s => kpow O n (channel_map ops (ket s)))) (channel_map (power_ops ops n) (me (corners x (2 ^ n)))).
Proof.
  intros F Hn. apply eqm_sym. intros i j Hi Hj. pose proof (fits_power _ _ _ n F) as FP. rewrite (channel_map_same (O ^ n) (2 ^ n) _ _ _ _ FP (same_ops_refl _) (corners_both x n Hn) i j Hi Hj).
  rewrite (channel_both (O ^ n) (2 ^ n) _ _ _ _ FP i j Hi Hj). apply (both_ext (O ^ n)); [|assumption..]. intros s. apply channel_kpow, F.
Qed.
Lemma corners_env O ops n x : fits O 2 ops -> 1 <= n -> eqm (length ops ^ n) (length ops ^ n) (both (rc x) (rc (1 - x)) (fun s => kpow (length ops) n (exchange_entry ops (ket s)))) (exchange_entry (power_ops ops n) (me (corners x (2 ^ n)))).
Proof.
  intros F Hn. apply eqm_sym. rewrite <- power_len. intros i j Hi Hj. pose proof (fits_power _ _ _ n F) as FP. rewrite (exchange_entry_same (O ^ n) (2 ^ n) _ _ _ _ i j FP (same_ops_refl _) (corners_both x n Hn) Hi Hj).
  rewrite (exchange_both (O ^ n) (2 ^ n) _ _ _ _ FP i j Hi Hj). rewrite power_len in Hi, Hj. apply (both_ext (length ops ^ n)); [|assumption..]. intros s. apply (exchange_kpow O), F.
Qed.
(** ** the dephrasure channel *)
Lemma dephasing_fits p : fits 2 2 (dephasing p). Proof. repeat constructor. Qed.
Lemma dephasing_tp p : (0 <= p <= 1)%R -> trace_preserving 2 (dephasing p).
Proof.
  intros Hp i j Hi Hj. assert (E : rt (1 - p) * rt (1 - p) + rt p * rt p = 1) by (rewrite !rt_rt by lra; rewrite rc_add, <- rc_1; f_equal; lra).
  unfold mm, adj, eye. destruct i as [|[|i]]; [| |lia]; destruct j as [|[|j]]; try lia; two; try ring; rewrite <- E; ring.
Qed.
Lemma dephrasure_fits p q : fits 3 2 (dephrasure p q). Proof. apply (flagged_fits q 2 1 2); [apply dephasing_fits|apply lost_fits]. Qed.
Lemma dephrasure_tp p q : (0 <= p <= 1)%R -> (0 <= q <= 1)%R -> trace_preserving 2 (dephrasure p q). Proof. intros Hp Hq. apply flagged_tp; [exact Hq|apply dephasing_tp, Hp|apply lost_tp]. Qed.
Lemma dephrasure_env p q : (0 <= p <= 1)%R -> (0 <= q <= 1)%R -> word_traces 4 (fun s => exchange_entry (dephrasure p q) (ket s)) (1 - q) q (1 - 2 * p).
Proof.
  intros Hp Hq. apply (word_traces_ext (2 + 2) (fun s => dsum 2 (outerv (fun i => rt (1 - q) * (if Nat.eqb i 0 then rt (1 - p) else if s then rt p else - rt p))) (outerv (fun i => rt q * (if Bool.eqb s (Nat.eqb i 0) then 1 else 0))))).
  - intros s. apply eqm_sym. intros i j Hi Hj. unfold dephrasure. rewrite (flagged_env q 2 1 2 (dephasing p) (lost 2) (ket s) Hq (dephasing_fits p) (lost_fits 2) i j Hi Hj). apply (dsum_ext 2 2); try assumption.
    + rewrite <- rt_rt by lra. intros k l Hk Hl. unfold exchange_entry, tr, mm, adj, outerv, ket. destruct k as [|[|k]]; [| |lia]; destruct l as [|[|l]]; try lia; destruct s; two; rewrite ?sconj_mul; two; ring.
    + rewrite <- rt_rt by lra. intros k l Hk Hl. unfold exchange_entry, tr, mm, adj, outerv, ket. destruct k as [|[|k]]; [| |lia]; destruct l as [|[|l]]; try lia; destruct s; two; rewrite ?sconj_mul; two; ring.
  - apply word_traces_l.
    + intros s t. unfold grams, near_gram. rewrite <- (rt_rt (1 - q)) by lra. assert (E : rt (1 - p) * rt (1 - p) + rt p * rt p = 1) by (rewrite !rt_rt by lra; rewrite rc_add, <- rc_1; f_equal; lra). assert (E2 : rt (1 - p) * rt (1 - p) + - (rt p * rt p) = rc (1 - 2 * p)) by (rewrite !rt_rt by lra; apply CC_eq; cbn; ring).
      rewrite <- E2. destruct s, t; two; rewrite ?sconj_mul; two; first [ring|transitivity (rt (1 - q) * rt (1 - q) * (rt (1 - p) * rt (1 - p) + rt p * rt p)); [ring|rewrite E; ring]].
    + intros s t. unfold grams, same_gram. rewrite <- (rt_rt q) by lra. destruct s, t; two; rewrite ?sconj_mul; two; ring.
Qed.
Lemma dephrasure_out p q : (0 <= p <= 1)%R -> (0 <= q <= 1)%R -> word_traces 3 (fun s => channel_map (dephrasure p q) (ket s)) q (1 - q) 1.
Proof.
  intros Hp Hq. apply (word_traces_ext (2 + 1) (fun s => dsum 2 (outerv (fun i => rt (1 - q) * (if Bool.eqb s (Nat.eqb i 0) then 1 else 0))) (outerv (fun i => rt q)))).
  - intros s. apply eqm_sym. intros i j Hi Hj. unfold dephrasure. rewrite (flagged_out q 2 1 2 (dephasing p) (lost 2) (ket s) Hq (dephasing_fits p) (lost_fits 2) i j Hi Hj). apply (dsum_ext 2 1); try assumption.
    + rewrite <- rt_rt by lra. assert (E : rt (1 - p) * rt (1 - p) + rt p * rt p = 1) by (rewrite !rt_rt by lra; rewrite rc_add, <- rc_1; f_equal; lra). intros k l Hk Hl. unfold channel_map, mm, adj, outerv, ket. destruct k as [|[|k]]; [| |lia]; destruct l as [|[|l]]; try lia; destruct s; two; rewrite ?sconj_mul; two; first [ring|transitivity (rt (1 - q) * rt (1 - q) * (rt (1 - p) * rt (1 - p) + rt p * rt p)); [ring|rewrite E; ring]].
    + rewrite <- rt_rt by lra. intros k l Hk Hl. replace k with 0%nat by lia. replace l with 0%nat by lia. unfold channel_map, mm, adj, outerv, ket. destruct s; two; ring.
  - apply word_traces_r.
    + intros s t. unfold grams, same_gram. rewrite <- (rt_rt (1 - q)) by lra. destruct s, t; two; rewrite ?sconj_mul; two; ring.
    + intros s t. unfold grams, near_gram. rewrite <- (rt_rt q) by lra. change (rc 1) with (1 : CC). destruct s, t; two; ring.
Qed.
Lemma corners_density x n : (0 <= x <= 1)%R -> 1 <= n -> density (2 ^ n) (me (corners x (2 ^ n))).
Proof.
  intros Hx Hn. assert (PL : forall s, density (2 ^ n) (kpow 2 n (ket s))).
  { intros s. assert (E : eqm (2 ^ n) (2 ^ n) (kpow 2 n (ket s)) (me (tens_all (repeat (MA 2 2 (ket s)) n)))). { clear. induction n as [|n IH]; [apply eqm_refl|]. cbn [kpow repeat tens_all fold_right]. fold (@tens_all CC). change (fold_right tens one_by_one (repeat (MA 2 2 (ket s)) n)) with (tens_all (repeat (MA 2 2 (ket s)) n)) in *.
      intros i j Hi Hj. rewrite me_tens. assert (D : mr (tens_all (repeat (MA 2 2 (ket s)) n)) = (2 ^ n)%nat /\ mc (tens_all (repeat (MA 2 2 (ket s)) n)) = (2 ^ n)%nat). { clear. induction n as [|n [I1 I2]]; [split; reflexivity|]. cbn [repeat tens_all fold_right tens mr mc]. cbn [Nat.pow]. unfold tens_all in I1, I2. rewrite I1, I2. split; reflexivity. }
      destruct D as [-> ->]. cbn [me]. apply (kf_ext 2 (2 ^ n) 2 (2 ^ n)); [apply eqm_refl|exact IH|assumption..]. }
    apply (density_ext _ _ _ (eqm_sym _ _ _ _ E)). assert (ST : Forall (state 2) (repeat (MA 2 2 (ket s)) n)). { apply Forall_forall. intros y Hy. apply repeat_spec in Hy. subst y. split; [split; reflexivity|]. cbn [me].
      assert (P : psd 2 (ket s)). { intros v. destruct (v 0%nat) as [a0 a1] eqn:E0. destruct (v 1%nat) as [b0 b1] eqn:E1. exists (if s then a0 * a0 + a1 * a1 else b0 * b0 + b1 * b1)%R. split; [destruct s; nra|]. cbn [bsum]. rewrite !E0, !E1. destruct s; apply CC_eq; cbn; ring. }
      split; [apply psd_hermitian, P|]. split; [exact P|]. destruct s; apply CC_eq; cbn; ring. }
    pose proof (state_all 2 _ ST) as [_ DS]. rewrite repeat_length in DS. exact DS. }
  apply (density_ext _ _ _ (eqm_sym _ _ _ _ (corners_both x n Hn))). apply (density_ext _ (mixture 2 (fun k => if Nat.eqb k 0 then x else (1 - x)%R) (fun k => kpow 2 n (ket (Nat.eqb k 0))))); [intros i j _ _; apply (both_mix x (1 - x) (fun s => kpow 2 n (ket s)))|].
  apply mix_density; [|cbn; lra]. intros k Hk. split; [destruct (Nat.eqb k 0); lra|apply PL].
Qed.
Theorem dephrasure_entropies p q x n : (0 <= p <= 1)%R -> (0 <= q <= 1)%R -> (0 <= x <= 1)%R -> 1 <= n ->
  entropies (3 ^ n) (power_ops (dephrasure p q) n) (me (corners x (2 ^ n)))
    (INR n * binary_entropy q + (1 - q ^ n) * binary_entropy x, INR n * binary_entropy q + (1 - (1 - q) ^ n) * binary_entropy x + (1 - q) ^ n * binary_entropy ((1 + spread x (1 - 2 * p) n) / 2))%R.
Proof.
  intros Hp Hq Hx Hn. pose proof (dephrasure_fits p q) as F. pose proof (dephrasure_tp p q Hp Hq) as T. pose proof (corners_density x n Hx Hn) as DR. pose proof (fits_power _ _ _ n F) as FP. pose proof (tp_power 3 2 _ n F T) as TP.
  split; cbn [fst snd].
  - pose proof (pair_entropy 3 _ q (1 - q) 1 x n (dephrasure_out p q Hp Hq) ltac:(lra) ltac:(lra) ltac:(lra) ltac:(lra) Hx ltac:(lia) _ (hermitian_out (3 ^ n) (2 ^ n) _ _ FP TP DR) (corners_out 3 _ n x F Hn)) as V.
    assert (E : spread x 1 n = 1%R) by (unfold spread; rewrite pow1; replace (1 - 4 * x * (1 - x) * (1 - 1))%R with 1%R by ring; apply sqrt_1). rewrite E in V.
    replace (binary_entropy ((1 + 1) / 2)) with 0%R in V; [rewrite Rmult_0_r, Rplus_0_r in V; exact V|]. rewrite binary_form. unfold xlx. replace ((1 + 1) / 2)%R with 1%R by lra. rewrite ln_1. replace (1 - 1)%R with 0%R by ring. unfold Rdiv. ring.
  - assert (L : length (power_ops (dephrasure p q) n) = (4 ^ n)%nat) by apply power_len. pose proof (hermitian_env (3 ^ n) (2 ^ n) _ _ FP TP DR) as H. rewrite L in H |- *.
    pose proof (pair_entropy 4 _ (1 - q) q (1 - 2 * p) x n (dephrasure_env p q Hp Hq) ltac:(lra) ltac:(lra) ltac:(lra) ltac:(lra) Hx ltac:(lia) _ H (corners_env 3 _ n x F Hn)) as V. rewrite binary_sym in V. exact V.
Qed.
