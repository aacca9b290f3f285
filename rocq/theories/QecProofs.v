(** Error correction round trip (C80). *)
From Verif Require Import Py ZMat CodesModel RankSpec CodesSpec BoolLin Rank Gauss Gauss2 CodesProofs CodesProofs2 Logical
  Scalar PauliModel PauliSpec PauliProofs PauliProofs2 CircuitModel CircuitSpec CircuitProofs EncodeProofs CircuitProofs2 CircuitProofs3 CircuitProofs4 CircuitProofs5 QecSpec.
Open Scope nat_scope.

Lemma last_default {A} (l : list A) d d' : l <> [] -> last l d = last l d'.
Proof. induction l as [|a l IH]; [congruence|]. intros _. destruct l; [reflexivity|]. cbn [last] in *. apply IH. discriminate. Qed.

Lemma last_cons {A} (l : list A) a d : last (a :: l) d = last l a.
Proof. destruct l as [|b l]; [reflexivity|]. change (last (b :: l) d = last (b :: l) a). apply last_default. discriminate. Qed.

Lemma normal_rows g n k c : init g n k None = Ok c -> valid_generators n k (zd (stab c)) ->
  forall r, In r (zd (normal_form c)) -> length r = 2 * n /\ binary r.
Proof.
  intros HI HV r Hr. destruct (struct_f g n k c HI HV) as (Hk & Hrk & OF & _). destruct (okm_spec n (n - k) _ OF) as (LF & _).
  apply (In_nth _ _ []) in Hr. destruct Hr as (i & Hi & <-). apply (okm_row n (n - k)); [exact OF|lia].
Qed.

Section Qec.
Context {K : StarRing}.
Variables h im : K.
Add Ring KringQec : (s_rt K).
Open Scope K_scope.
Implicit Types psi phi : @state K.
Notation exec := (exec h im).

(** a product of stabilizers acts as a sign *)
Lemma rowspace_acts n rows : forall cs (v : nat -> bool), length cs = length rows ->
  (forall j, j < 2 * n -> v j = Z.odd (lcomb cs rows j)) ->
  (forall r, In r rows -> binary r) ->
  exists e, forall psi, (forall r, In r rows -> eqs n (prow n (brow r) psi) psi) -> eqs n (prow n v psi) (sscale (sgn e) psi).
Proof.
  induction rows as [|r rows IH]; intros cs v L E B.
  - exists false. intros psi _ y Hy. destruct cs; [|discriminate]. unfold prow.
    rewrite (pact_ext n v _ (fun _ => false) (fun _ => false)); [rewrite pact_id; unfold sscale; cbn [sgn]; ring|].
    intros j Hj. unfold zpart. rewrite !E by lia. split; reflexivity.
  - destruct cs as [|a cs]; [discriminate|]. cbn [length] in L.
    destruct (IH cs (fun j => Z.odd (lcomb cs rows j)) ltac:(lia) ltac:(reflexivity) ltac:(intros; apply B; right; assumption)) as [e He].
    destruct (Z.odd a) eqn:Ea.
    + exists (xorb e (xsum n (fun j => zpart n (brow r) j && Z.odd (lcomb cs rows j)))). intros psi F.
      specialize (He psi (fun r' Hr' => F r' (or_intror Hr'))). pose proof (F r (or_introl eq_refl)) as Fr. clear F.
      set (v' := fun j => Z.odd (lcomb cs rows j)) in *.
      intros y Hy.
      assert (P : prow n (brow r) (prow n v' psi) y = sgn (xsum n (fun j => zpart n (brow r) j && v' j)) * prow n v psi y).
      { unfold prow. rewrite (pact_mul n n) by (lia || assumption). unfold sscale. f_equal. apply pact_ext. intros j Hj.
        assert (X : forall i, i < 2 * n -> xorb (brow r i) (v' i) = v i).
        { intros i Hi. rewrite E by exact Hi. cbn [lcomb]. rewrite Z.odd_add, Z.odd_mul, Ea. unfold v', brow. reflexivity. }
        unfold zpart. split; apply X; lia. }
      assert (Q : prow n (brow r) (prow n v' psi) y = sgn e * psi y).
      { rewrite (prow_eqs n (brow r) _ _ He y Hy). unfold prow. rewrite pact_scale. f_equal. apply Fr, Hy. }
      rewrite P in Q. unfold sscale. rewrite sgn_xorb.
      transitivity ((sgn (xsum n (fun j => zpart n (brow r) j && v' j)) * sgn (xsum n (fun j => zpart n (brow r) j && v' j)) : K) * prow n v psi y); [rewrite sgn_sq; ring|].
      rewrite <- (s_rt K).(Rmul_assoc), Q. fold (v' 0%nat). unfold v'. ring.
    + exists e. intros psi F. specialize (He psi (fun r' Hr' => F r' (or_intror Hr'))). intros y Hy. rewrite <- (He y Hy).
      unfold prow. apply pact_ext. intros j Hj. unfold zpart. rewrite !E by lia. cbn [lcomb]. rewrite !Z.odd_add, !Z.odd_mul, Ea. cbn [andb]. rewrite !xorb_false_l. split; reflexivity.
Qed.

Lemma prow_superpose {A} n u (l : list (K * A)) F y : prow n u (superpose l F) y = superpose l (fun s => prow n u (F s)) y.
Proof.
  unfold prow, pact, superpose. induction l as [|[a s] l IH]; cbn [fold_right fst snd]; [ring|]. rewrite <- IH. ring.
Qed.

(** encoded superpositions are fixed by the stabilizers *)
Lemma encoded_fixed g n k c l r : init g n k None = Ok c -> valid_generators n k (zd (stab c)) ->
  Forall (fun row => Nat.even (y_count n row) = true) (zd (stab c)) -> qubit_constants h im ->
  (forall p, In p l -> length (snd p) = k /\ binary (snd p)) -> In r (zd (normal_form c)) ->
  eqs n (prow n (brow r) (superpose l (encode h im n c))) (superpose l (encode h im n c)).
Proof.
  intros HI HV HE HC Hl Hr y Hy. rewrite prow_superpose. apply superpose_ext. intros p Hp. destruct (Hl p Hp) as [L B].
  destruct (struct_f g n k c HI HV) as (Hk & Hrk & OF & U & Lx & V & Cm & Zs). destruct HC as (C1 & C2 & C3 & C4).
  pose proof (encode_enc h im g n k c HI HV (snd p) L B) as E.
  apply (In_nth _ _ []) in Hr. destruct Hr as (i & Hi & <-).
  destruct (okm_spec n (n - k) _ OF) as (LF & _). rewrite LF in Hi.
  revert y Hy. change (eqs n (prow n (brow (nth i (zd (normal_form c)) [])) (encode h im n c (snd p))) (encode h im n c (snd p))).
  apply (eqs_trans n _ (prow n (bz (normal_form c) i) (enc h n k (n - k) (crank c) (bz (normal_form c)) (mbit (snd p))))); [apply prow_eqs; exact E|].
  apply (eqs_trans n _ (enc h n k (n - k) (crank c) (bz (normal_form c)) (mbit (snd p)))); [|apply eqs_sym, E].
  apply (enc_stabilized h n k (n - k) (crank c) (bz (normal_form c))); try (assumption || reflexivity).
  apply (even_f g n k c HI HV HE).
Qed.

Definition xor_row (u v : list Z) : list Z := map (fun p => Z.b2z (xorb (Z.odd (fst p)) (Z.odd (snd p)))) (combine u v).
Lemma xor_row_length u v : length u = length v -> length (xor_row u v) = length u.
Proof. intros L. unfold xor_row. rewrite map_length, combine_length. lia. Qed.
Lemma xor_row_binary u v : binary (xor_row u v).
Proof. apply Forall_map, Forall_forall. intros p _. destruct (xorb _ _); cbn; auto. Qed.
Lemma xor_row_nth u v j : length u = length v -> brow (xor_row u v) j = xorb (brow u j) (brow v j).
Proof.
  revert v j. induction u as [|a u IH]; intros [|b v] j L; try discriminate.
  - destruct j; reflexivity.
  - destruct j as [|j]; cbn [length] in L; [unfold brow; cbn; destruct (Z.odd a), (Z.odd b); reflexivity|]. apply (IH v j). lia.
Qed.
Lemma filter_union {A} (f g k : A -> bool) (l : list A) : (forall x, f x = true -> g x = true \/ k x = true) ->
  length (filter f l) <= length (filter g l) + length (filter k l).
Proof.
  intros H. induction l as [|x l IH]; [cbn; lia|]. cbn [filter]. pose proof (H x). destruct (f x), (g x), (k x); cbn [length]; try lia; destruct H0; auto; discriminate.
Qed.
Lemma binary_eqb u j : binary u -> Z.eqb (nth j u 0%Z) 1 = brow u j.
Proof. intros B. unfold brow. destruct (binary_nth u j B) as [-> | ->]; reflexivity. Qed.
Lemma weight_xor n u v : length u = length v -> binary u -> binary v -> weight n (xor_row u v) <= weight n u + weight n v.
Proof.
  intros L Bu Bv. apply filter_union. intros j. rewrite !binary_eqb by (assumption || apply xor_row_binary). rewrite !xor_row_nth by exact L.
  destruct (brow u j), (brow v j), (brow u (n + j)), (brow v (n + j)); cbn; auto.
Qed.
Lemma kpow_unit m : im * im^* = 1 -> kpow im m * (kpow im m)^* = 1.
Proof.
  intros H. induction m as [|m IH]; cbn [kpow]; [rewrite sconj_1; ring|]. rewrite sconj_mul.
  replace (im * kpow im m * (im^* * (kpow im m)^* )) with (im * im^* * (kpow im m * (kpow im m)^* )) by ring. rewrite H, IH. ring.
Qed.
Lemma apply_exec n row psi : length row = (2 * n)%nat -> binary row -> (1 <= n)%nat ->
  eqs n (exec [] (fst (apply_stabilizer_circuit (seq O n) (AsArray row))) psi) (sscale (kpow im (y_count n row)) (prow n (brow row) psi)).
Proof.
  intros L B Hn. destruct (single_mat (K := K) n row Hn L B) as (A & EA & PA).
  destruct (apply_ok h im n row A psi (AsArray row) L B PA (or_introl eq_refl)) as [_ M].
  pose proof (proj2 (maps_prow n A row psi (prow n (brow row) psi) PA) (eqs_refl n _)) as P.
  intros y Hy. assert (Hi : idx y < 2 ^ n) by (rewrite <- Hy; apply idx_lt). set (i := idx y) in *. replace y with (bits_of n i) by (rewrite <- Hy; apply bits_of_idx). rewrite <- (M i Hi). unfold scale, sscale. rewrite <- (P i Hi).
  rewrite <- bsum_mul_l. apply bsum_ext. intros; ring.
Qed.
Lemma decode_scaled g n k c l (z : K) phi : qubit_constants h im -> init g n k None = Ok c -> valid_generators n k (zd (stab c)) ->
  (forall p, In p l -> length (snd p) = k /\ binary (snd p)) ->
  eqs n phi (sscale z (superpose l (encode h im n c))) ->
  eqs (n + k) (exec [] (fst (decoding_circuit c n (seq O n) true false)) phi)
    (sscale z (superpose l (fun st => tensor n (encode h im n c (repeat 0%Z k)) (message st)))).
Proof.
  intros HC HI HV Hl Hp. destruct (decode_superposition h im g n k c HI HV HC l Hl) as [_ DS].
  rewrite (decoding_add_ancillas g n k c HI HV false) in *. cbn [fst] in *. rewrite app_nil_r in *.
  rewrite exec_alloc_app in *. set (psi := superpose l (encode h im n c)) in *.
  assert (X : forall psi', eqs (n + k) (exec [] (dec_events n k c) (exec [] (map Alloc (seq n k)) psi')) (exec [] (dec_events n k c) (tensor n psi' (repeat false k)))).
  { intros psi'. apply exec_eqs; [reflexivity|apply dec_gate|eapply alloc_tensor; eassumption]. }
  apply (eqs_trans _ _ (exec [] (dec_events n k c) (tensor n phi (repeat false k)))); [apply X|].
  apply (eqs_trans _ _ (exec [] (dec_events n k c) (tensor n (sscale z psi) (repeat false k)))).
  { apply exec_eqs; [reflexivity|apply dec_gate|]. rewrite <- (repeat_length false k) at 1. apply tensor_eqs, Hp. }
  intros y Hy. unfold sscale at 2. rewrite <- (DS y Hy), (X psi y Hy).
  rewrite (exec_lin h im _ [] (tensor n psi (repeat false k)) (fun _ => 0) _ z) by (intros w; unfold tensor, sscale; destruct (list_eq_dec _ _ _); ring).
  rewrite (exec_zero h im _ [] (fun _ => 0)) by reflexivity. ring.
Qed.
Theorem correction g n k c t err corr : qubit_constants h im -> init g n k None = Ok c -> valid_generators n k (zd (stab c)) ->
  Forall (fun row => Nat.even (y_count n row) = true) (zd (stab c)) ->
  distance_at_least n (zd (normal_form c)) (2 * t + 1) ->
  length err = (2 * n)%nat -> binary err -> weight n err <= t -> length corr = (2 * n)%nat -> binary corr -> weight n corr <= t ->
  (forall r, In r (zd (normal_form c)) -> inner_prod r corr = inner_prod r err) ->
  exists E : array K, binary_rep_to_pauli_mat (ZM 1 (2 * n) [err]) = Ok [MA (2 ^ n) (2 ^ n) E] /\
  exists z : K, z * z^* = 1 /\ forall l w, (forall p, In p l -> length (snd p) = k /\ binary (snd p)) ->
  matrix_maps n E (superpose l (encode h im n c)) w ->
  eqs n (exec [] (fst (apply_stabilizer_circuit (seq O n) (AsArray corr))) w) (sscale z (superpose l (encode h im n c))) /\
  eqs (n + k) (exec [] (fst (decoding_circuit c n (seq O n) true false)) (exec [] (fst (apply_stabilizer_circuit (seq O n) (AsArray corr))) w))
    (sscale z (superpose l (fun st => tensor n (encode h im n c (repeat 0%Z k)) (message st)))).
Proof.
  intros HC HI HV HE D Le Be We Lc Bc Wc S.
  destruct (struct_f g n k c HI HV) as (Hk & Hrk & OF & _). destruct (okm_spec n (n - k) _ OF) as (LF & _).
  assert (Hn : (1 <= n)%nat) by (destruct HV as (A & B & _); lia).
  destruct (single_mat (K := K) n err Hn Le Be) as (E & EE & PE). exists E. split; [exact EE|].
  destruct (single_mat (K := K) n corr Hn Lc Bc) as (A & EA & PA).
  set (v := xor_row corr err).
  assert (R : forall r, In r (zd (normal_form c)) -> length r = (2 * n)%nat /\ binary r).
  { intros r Hr. apply (In_nth _ _ []) in Hr. destruct Hr as (i & Hi & <-). apply (okm_row n (n - k)); [exact OF|lia]. }
  assert (IR : in_rowspace n (zd (normal_form c)) v).
  { apply D.
    - unfold v. rewrite xor_row_length by lia. exact Lc.
    - apply xor_row_binary.
    - intros r Hr. destruct (R r Hr) as [Lr Br]. specialize (S r Hr). rewrite !(inner_prod_ip n) in S by assumption.
      assert (X : ip n (brow r) (brow v) = false).
      { rewrite (ip_ext n _ (brow r) _ (fun j => xorb (brow corr j) (brow err j))) by (intros; unfold v; try rewrite xor_row_nth by lia; reflexivity).
        rewrite ip_xor_r. destruct (ip n (brow r) (brow corr)), (ip n (brow r) (brow err)); try discriminate; reflexivity. }
      apply commute_ip, X.
    - pose proof (weight_xor n corr err ltac:(lia) Bc Be). unfold v. lia. }
  destruct IR as (cs & Lcs & Ecs).
  destruct (rowspace_acts n (zd (normal_form c)) cs (brow v) Lcs) as [e He].
  { intros j Hj. specialize (Ecs j Hj). unfold brow. apply Z.mod_divide in Ecs; [|lia]. rewrite Zmod_odd, Z.odd_sub in Ecs.
    destruct (Z.odd (nth j v 0%Z)), (Z.odd (lcomb cs (zd (normal_form c)) j)); try discriminate; reflexivity. }
  { intros r Hr. apply R, Hr. }
  set (m := y_count n corr). set (e' := xsum n (fun j => zpart n (brow corr) j && brow err j)).
  exists (kpow im m * sgn (xorb e' e)). split.
  { destruct HC as (C1 & C2 & C3 & C4). rewrite sconj_mul, sgn_conj.
    replace (kpow im m * sgn (xorb e' e) * ((kpow im m)^* * sgn (xorb e' e))) with (kpow im m * (kpow im m)^* * (sgn (xorb e' e) * sgn (xorb e' e))) by ring.
    rewrite sgn_sq. assert (X : kpow im m * (kpow im m)^* = 1); [|rewrite X; ring].
    apply kpow_unit. rewrite C4. replace (im * - im) with (- (im * im)) by ring. rewrite C3. ring. }
  intros l w Hl M.
  set (psi := superpose l (encode h im n c)) in *.
  assert (FX : forall r, In r (zd (normal_form c)) -> eqs n (prow n (brow r) psi) psi) by (intros r Hr; apply (encoded_fixed g n k c l r); assumption).
  apply (maps_prow n E err) in M; [|exact PE].
  assert (C1 : eqs n (exec [] (fst (apply_stabilizer_circuit (seq O n) (AsArray corr))) w) (sscale (kpow im m * sgn (xorb e' e)) psi)).
  { apply (eqs_trans _ _ _ _ (apply_exec n corr w Lc Bc Hn)). intros y Hy. unfold sscale. fold m.
    rewrite <- (prow_eqs n (brow corr) _ _ M y Hy). unfold prow. rewrite (pact_mul n n) by (lia || exact Hy).
    pose proof (He psi FX y Hy) as Q. unfold prow, sscale in Q. unfold sscale.
    rewrite (pact_ext n _ _ (brow v) (zpart n (brow v))) by (intros j Hj; unfold v, zpart; rewrite !xor_row_nth by lia; split; reflexivity).
    unfold e', zpart. rewrite Q, sgn_xorb. ring. }
  split; [exact C1|]. apply (decode_scaled g); assumption.
Qed.

(** ** a round of measurements *)
Lemma syn_gates x z n : forallb gate_only (syn_events n x z) = true.
Proof. cbn [syn_events forallb gate_only]. rewrite forallb_app, levs_gate. reflexivity. Qed.
Lemma syndrome_eqs n c row b psi phi : cn c = n -> length row = (2 * n)%nat -> binary row -> eqs (n + 1) psi phi ->
  eqs (n + 1) (exec [b] (fst (single_syndrome_measurement c (n + 1) (seq O (n + 1)) (AsArray row))) psi)
              (exec [b] (fst (single_syndrome_measurement c (n + 1) (seq O (n + 1)) (AsArray row))) phi).
Proof.
  intros Ec L B H. rewrite (syndrome_with_ancilla n c Ec (AsArray row) row L B (or_introl eq_refl)). cbn [fst].
  intros y Hy. rewrite !exec_app by apply syn_gates. cbn [CircuitSpec.exec]. unfold project.
  rewrite (exec_eqs h im (n + 1) [b] _ [b] psi phi eq_refl (syn_gates _ _ _) H y Hy). reflexivity.
Qed.
Lemma measure_eqs n c rows : cn c = n -> (forall r, In r rows -> length r = (2 * n)%nat /\ binary r) -> forall outs psi phi, eqs (n + 1) psi phi ->
  eqs (n + 1) (measure_syndromes h im n c rows outs psi) (measure_syndromes h im n c rows outs phi).
Proof.
  intros Ec. induction rows as [|r rows IH]; intros R outs psi phi H; [exact H|]. destruct outs as [|b bs]; [exact H|]. cbn [measure_syndromes].
  apply IH; [intros; apply R; right; assumption|]. destruct (R r (or_introl eq_refl)). apply syndrome_eqs; assumption.
Qed.
Lemma measure_zero n c rows : forall outs y, measure_syndromes h im n c rows outs (fun _ => 0) y = 0.
Proof.
  assert (X : forall rows outs psi, (forall y, psi y = 0) -> forall y, measure_syndromes h im n c rows outs psi y = 0).
  { induction rows0 as [|r rows0 IH]; intros outs psi H y; [apply H|]. destruct outs as [|b bs]; [apply H|]. cbn [measure_syndromes]. apply IH. intros y'. apply exec_zero, H. }
  intros. apply X. reflexivity.
Qed.
Theorem round n c rows err v w : qubit_constants h im -> (1 <= n)%nat -> cn c = n -> (forall r, In r rows -> length r = (2 * n)%nat /\ binary r) ->
  length err = (2 * n)%nat -> binary err -> (forall r, In r rows -> eqs n (prow n (brow r) v) v) -> eqs n (prow n (brow err) v) w ->
  forall outs a, length outs = length rows ->
  eqs (n + 1) (measure_syndromes h im n c rows outs (tensor n w [a]))
    (if list_eq_dec bool_dec outs (readings n rows err a) then tensor n w [last outs a] else fun _ => 0).
Proof.
  intros HC Hn Ec R Le Be F M. destruct (single_mat (K := K) n err Hn Le Be) as (E & EE & PE).
  induction rows as [|r rows IH]; intros outs a L.
  - destruct outs; [|discriminate]. apply eqs_refl.
  - destruct outs as [|b bs]; [discriminate|]. cbn [length] in L. cbn [measure_syndromes readings]. set (e := Z.odd (symp n r err)).
    destruct (R r (or_introl eq_refl)) as [Lr Br]. destruct (single_mat (K := K) n r Hn Lr Br) as (A & EA & PA).
    assert (R' : forall r, In r rows -> length r = (2 * n)%nat /\ binary r) by (intros; apply R; right; assumption).
    assert (EV : matrix_maps n A w (sscale (sgn e) w)).
    { replace e with (Z.eqb (inner_prod r err) 1).
      - apply (error_eigen n A E r err v w); try assumption; [apply (fixes_prow n A r v PA), F; left; reflexivity|apply (maps_prow n E err v w PE), M].
      - rewrite (inner_prod_symp n) by assumption. unfold e. rewrite Zmod_odd. destruct (Z.odd _); reflexivity. }
    destruct HC as (C1 & HC').
    pose proof (proj1 (proj2 (syndrome_ok h im n C1 c Ec (AsArray r) r A w a e b Lr Br (or_introl eq_refl) PA EV))) as ST.
    apply (eqs_trans _ _ _ _ (measure_eqs n c rows Ec R' bs _ _ ST)).
    destruct (Bool.eqb b (xorb a e)) eqn:Eb.
    + apply Bool.eqb_prop in Eb. subst b.
      apply (eqs_trans _ _ _ _ (IH R' ltac:(intros; apply F; right; assumption) bs (xorb a e) ltac:(lia))).
      replace (last (xorb a e :: bs) a) with (last bs (xorb a e)) by (symmetry; apply last_cons).
      destruct (list_eq_dec bool_dec bs _) as [e1|e1], (list_eq_dec bool_dec (xorb a e :: bs) _) as [e2|e2]; try apply eqs_refl; exfalso; congruence.
    + destruct (list_eq_dec bool_dec (b :: bs) _) as [e2|e2]; [exfalso; injection e2 as -> _; rewrite Bool.eqb_reflx in Eb; discriminate|].
      intros y Hy. apply measure_zero.
Qed.
End Qec.

Lemma readings_inj n rows err corr : length err = 2 * n -> length corr = 2 * n -> (forall r, In r rows -> length r = 2 * n) -> forall a,
  readings n rows err a = readings n rows corr a -> forall r, In r rows -> inner_prod r corr = inner_prod r err.
Proof.
  intros Le Lc. induction rows as [|r rows IH]; intros R a H r' Hr; [destruct Hr|]. cbn [readings] in H. injection H as H1 H2.
  assert (X : Z.odd (symp n r err) = Z.odd (symp n r corr)) by (destruct a, (Z.odd (symp n r err)), (Z.odd (symp n r corr)); discriminate || reflexivity).
  destruct Hr as [<- | Hr].
  - pose proof (R r (or_introl eq_refl)) as Lr. rewrite !(inner_prod_symp n) by assumption. rewrite !Zmod_odd, X. reflexivity.
  - rewrite X in H2. exact (IH ltac:(intros; apply R; right; assumption) _ H2 r' Hr).
Qed.
(** enumeration of the rows, for the examples *)
Fixpoint all_rows (m : nat) : list (list Z) := match m with 0 => [[]] | S m => flat_map (fun v => [0%Z :: v; 1%Z :: v]) (all_rows m) end.
Lemma all_rows_in m : forall v, length v = m -> binary v -> In v (all_rows m).
Proof.
  induction m as [|m IH]; intros v L B; [destruct v; [left; reflexivity|discriminate]|].
  destruct v as [|x v]; [discriminate|]. inversion B; subst. cbn [all_rows]. apply in_flat_map. exists v. split; [apply IH; [cbn in L; lia|assumption]|].
  destruct H1 as [-> | ->]; [left|right; left]; reflexivity.
Qed.
Definition distanceb n rows d := forallb (fun v => implb (forallb (fun r => negb (Z.odd (symp n r v))) rows && Nat.ltb (weight n v) d)%bool (forallb (Z.eqb 0) v)) (all_rows (2 * n)).
Lemma distanceb_ok n rows d : distanceb n rows d = true -> distance_at_least n rows d.
Proof.
  intros H v L B C W. unfold distanceb in H. rewrite forallb_forall in H. specialize (H v (all_rows_in _ v L B)).
  rewrite (proj2 (forallb_forall _ _)), (proj2 (Nat.ltb_lt _ _) W) in H.
  - cbn [andb implb] in H. rewrite forallb_forall in H. exists (repeat 0%Z (length rows)). rewrite repeat_length. split; [reflexivity|]. intros j Hj.
    replace (lcomb (repeat 0%Z (length rows)) rows j) with 0%Z by (clear; induction rows; cbn [length repeat lcomb]; [reflexivity|rewrite <- IHrows; ring]).
    assert (Hv : j < length v) by lia. pose proof (proj1 (Z.eqb_eq _ _) (H (nth j v 0%Z) (nth_In v 0%Z Hv))) as X. rewrite <- X. apply Z.divide_0_r.
  - intros r Hr. specialize (C r Hr). unfold commute in C. apply divide2_odd in C. rewrite C. reflexivity.
Qed.
