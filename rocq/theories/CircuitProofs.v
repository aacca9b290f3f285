(** Generic facts about states, gates and Pauli circuits. *)
From Verif Require Import Py ZMat CodesModel BoolLin Scalar CircuitModel CircuitSpec.
Open Scope nat_scope.

Definition tab (f : nat -> bool) (q : nat) : list bool := map f (seq 0 q).
Lemma tab_length f q : length (tab f q) = q.
Proof. unfold tab. rewrite map_length, seq_length. reflexivity. Qed.
Lemma getb_tab f q j : j < q -> getb (tab f q) j = f j.
Proof.
  intros H. unfold getb, tab. rewrite (nth_indep _ false (f 0)) by (rewrite map_length, seq_length; exact H).
  rewrite map_nth, seq_nth by exact H. reflexivity.
Qed.
Lemma getb_over y j : length y <= j -> getb y j = false.
Proof. intros H. apply nth_overflow, H. Qed.
Lemma bits_eq y y' : length y = length y' -> (forall j, j < length y -> getb y j = getb y' j) -> y = y'.
Proof. intros L H. apply (nth_ext y y' false false L). exact H. Qed.
Lemma setb_tab y j b : setb y j b = tab (fun i => if Nat.eqb i j then b else getb y i) (length y).
Proof. reflexivity. Qed.
Lemma setb_length y j b : length (setb y j b) = length y.
Proof. apply tab_length. Qed.
Lemma getb_setb y j b i : i < length y -> getb (setb y j b) i = if Nat.eqb i j then b else getb y i.
Proof. intros H. rewrite setb_tab, getb_tab by exact H. reflexivity. Qed.
Lemma setb_same y j : setb y j (getb y j) = y.
Proof.
  apply bits_eq; [apply setb_length|]. rewrite setb_length. intros i Hi. rewrite getb_setb by exact Hi.
  destruct (Nat.eqb_spec i j) as [->|_]; reflexivity.
Qed.
Lemma setb_setb y j b b' : setb (setb y j b) j b' = setb y j b'.
Proof.
  apply bits_eq; [rewrite !setb_length; reflexivity|]. rewrite !setb_length. intros i Hi.
  rewrite !getb_setb by (rewrite ?setb_length; exact Hi). destruct (Nat.eqb i j); reflexivity.
Qed.

(** xor of x into the first n bits *)
Definition xorv (n : nat) (x : nat -> bool) (y : list bool) : list bool :=
  tab (fun j => xorb (getb y j) (Nat.ltb j n && x j)) (length y).
Lemma xorv_length n x y : length (xorv n x y) = length y.
Proof. apply tab_length. Qed.
Lemma getb_xorv n x y j : j < length y -> getb (xorv n x y) j = xorb (getb y j) (Nat.ltb j n && x j).
Proof. intros H. unfold xorv. rewrite getb_tab by exact H. reflexivity. Qed.
Lemma getb_xorv_in n x y j : n <= length y -> j < n -> getb (xorv n x y) j = xorb (getb y j) (x j).
Proof. intros L H. rewrite getb_xorv by lia. destruct (Nat.ltb_spec j n); [reflexivity|lia]. Qed.
Lemma getb_xorv_out n x y j : n <= j -> getb (xorv n x y) j = getb y j.
Proof.
  intros H. destruct (Nat.lt_ge_cases j (length y)) as [L|L].
  - rewrite getb_xorv by exact L. destruct (Nat.ltb_spec j n); [lia|]. apply xorb_false_r.
  - rewrite !getb_over by (rewrite ?xorv_length; exact L). reflexivity.
Qed.
Lemma xorv_ext n x x' y : (forall j, j < n -> x j = x' j) -> xorv n x y = xorv n x' y.
Proof.
  intros H. apply bits_eq; [rewrite !xorv_length; reflexivity|]. rewrite xorv_length. intros j Hj. rewrite !getb_xorv by exact Hj.
  destruct (Nat.ltb_spec j n); [rewrite H by assumption; reflexivity|reflexivity].
Qed.
Lemma xorv_xorv n x x' y : xorv n x' (xorv n x y) = xorv n (fun j => xorb (x j) (x' j)) y.
Proof.
  apply bits_eq; [rewrite !xorv_length; reflexivity|]. rewrite !xorv_length. intros j Hj.
  rewrite !getb_xorv by (rewrite ?xorv_length; exact Hj). destruct (Nat.ltb j n); cbn [andb]; rewrite ?xorb_false_r; [rewrite xorb_assoc|]; reflexivity.
Qed.
Lemma xorv_false n y : xorv n (fun _ => false) y = y.
Proof.
  apply bits_eq; [apply xorv_length|]. rewrite xorv_length. intros j Hj. rewrite getb_xorv by exact Hj.
  rewrite andb_false_r, xorb_false_r. reflexivity.
Qed.

Section Pauli.
Context {K : StarRing}.
Variables h im : K.
Add Ring Kring : (s_rt K).
Open Scope K_scope.
Implicit Types psi phi : @state K.
Notation exec := (exec h im).
Notation apply_gate := (apply_gate h im).

Lemma eqs_refl q psi : eqs q psi psi. Proof. intros y _; reflexivity. Qed.
Lemma eqs_sym q psi phi : eqs q psi phi -> eqs q phi psi. Proof. intros H y Hy; symmetry; auto. Qed.
Lemma eqs_trans q psi phi chi : eqs q psi phi -> eqs q phi chi -> eqs q psi chi.
Proof. intros H1 H2 y Hy. rewrite H1, H2 by exact Hy. reflexivity. Qed.

(** the Pauli operator (x|z) on the first n qubits: |c> -> (-1)^(z.c) |c+x> *)
Definition pact (n : nat) (x z : nat -> bool) psi : @state K :=
  fun y => sgn (xsum n (fun j => z j && xorb (getb y j) (x j))) * psi (xorv n x y).

Lemma pact_eqs q n x z psi phi : eqs q psi phi -> eqs q (pact n x z psi) (pact n x z phi).
Proof. intros H y Hy. unfold pact. rewrite H by (rewrite xorv_length; exact Hy). reflexivity. Qed.
Lemma pact_ext n x z x' z' psi y : (forall j, j < n -> x j = x' j /\ z j = z' j) -> pact n x z psi y = pact n x' z' psi y.
Proof.
  intros H. unfold pact. rewrite (xorv_ext n x x') by (intros; apply H; assumption).
  rewrite (xsum_ext n _ (fun j => z' j && xorb (getb y j) (x' j))); [reflexivity|].
  intros j Hj. destruct (H j Hj) as [-> ->]. reflexivity.
Qed.
Lemma pact_id n psi y : pact n (fun _ => false) (fun _ => false) psi y = psi y.
Proof. unfold pact. rewrite xorv_false. cbn [andb]. rewrite xsum_0. cbn [sgn]. ring. Qed.
Lemma pact_mul q n x z x' z' psi : n <= q ->
  eqs q (pact n x z (pact n x' z' psi))
        (sscale (sgn (xsum n (fun j => z j && x' j))) (pact n (fun j => xorb (x j) (x' j)) (fun j => xorb (z j) (z' j)) psi)).
Proof.
  intros Hq y Hy. unfold sscale, pact. rewrite xorv_xorv. 
  set (w := psi _).
  transitivity ((sgn (xsum n (fun j => z j && xorb (getb y j) (x j))) * sgn (xsum n (fun j => z' j && xorb (getb (xorv n x y) j) (x' j)))) * w); [ring|].
  transitivity ((sgn (xsum n (fun j => z j && x' j)) * sgn (xsum n (fun j => xorb (z j) (z' j) && xorb (getb y j) (xorb (x j) (x' j))))) * w); [|ring].
  f_equal. rewrite <- !sgn_xorb, <- !xsum_xor. f_equal. apply xsum_ext; intros j Hj. rewrite getb_xorv_in by lia.
  destruct (z j), (z' j), (getb y j), (x j), (x' j); reflexivity.
Qed.

Lemma pact_commute q n x z x' z' psi : n <= q ->
  xsum n (fun j => xorb (x j && z' j) (z j && x' j)) = false ->
  eqs q (pact n x z (pact n x' z' psi)) (pact n x' z' (pact n x z psi)).
Proof.
  intros Hq H y Hy. rewrite !pact_mul with (q := q) by assumption. unfold sscale.
  rewrite xsum_xor in H. replace (xsum n (fun j => z j && x' j)) with (xsum n (fun j => z' j && x j)).
  - f_equal. apply pact_ext. intros j Hj. split; apply xorb_comm.
  - rewrite (xsum_ext n (fun j => z' j && x j) (fun j => x j && z' j)) by (intros; apply andb_comm). 
    destruct (xsum n (fun j => x j && z' j)), (xsum n (fun j => z j && x' j)); (reflexivity || discriminate).
Qed.
Lemma pact_anticommute q n x z x' z' psi : n <= q ->
  eqs q (pact n x z (pact n x' z' psi)) (sscale (sgn (xsum n (fun j => xorb (x j && z' j) (z j && x' j)))) (pact n x' z' (pact n x z psi))).
Proof.
  intros Hq y Hy. unfold sscale. rewrite (pact_mul q n x z x' z' psi Hq y Hy), (pact_mul q n x' z' x z psi Hq y Hy). unfold sscale.
  rewrite xsum_xor, sgn_xorb.
  rewrite (xsum_ext n (fun j => x j && z' j) (fun j => z' j && x j)) by (intros; apply andb_comm).
  rewrite (pact_ext n (fun j => xorb (x' j) (x j)) (fun j => xorb (z' j) (z j)) (fun j => xorb (x j) (x' j)) (fun j => xorb (z j) (z' j)))
    by (intros; split; apply xorb_comm).
  set (a := xsum n (fun j => z' j && x j)). 
  transitivity (sgn a * sgn a * (sgn (xsum n (fun j => z j && x' j)) * pact n (fun j => xorb (x j) (x' j)) (fun j => xorb (z j) (z' j)) psi y)); [rewrite sgn_sq; ring|ring].
Qed.
Lemma pact_square q n x z psi : n <= q -> xsum n (fun j => x j && z j) = false -> eqs q (pact n x z (pact n x z psi)) psi.
Proof.
  intros Hq H y Hy. rewrite pact_mul with (q := q) by assumption. unfold sscale.
  rewrite (xsum_ext n _ (fun j => x j && z j)) by (intros; apply andb_comm). rewrite H.
  rewrite (pact_ext n _ _ (fun _ => false) (fun _ => false)) by (intros; split; apply xorb_nilpotent). rewrite pact_id. cbn [sgn]. ring.
Qed.
Lemma pact_ket n x z c y : n <= length c -> length y = length c ->
  pact n x z (ket c) y = sgn (xsum n (fun j => z j && getb c j)) * ket (xorv n x c) y.
Proof.
  intros Hn Hy. unfold pact, ket. destruct (list_eq_dec bool_dec (xorv n x y) c) as [E|E], (list_eq_dec bool_dec y (xorv n x c)) as [E'|E'].
  - f_equal. f_equal. apply xsum_ext; intros j Hj. rewrite <- E, getb_xorv_in by lia. reflexivity.
  - exfalso. apply E'. rewrite <- E, xorv_xorv. rewrite (xorv_ext n _ (fun _ => false)) by (intros; apply xorb_nilpotent). symmetry; apply xorv_false.
  - exfalso. apply E. rewrite E', xorv_xorv. rewrite (xorv_ext n _ (fun _ => false)) by (intros; apply xorb_nilpotent). apply xorv_false.
  - ring.
Qed.

(** ** linearity *)
Lemma pact_plus n x z psi phi y : pact n x z (splus psi phi) y = pact n x z psi y + pact n x z phi y.
Proof. unfold pact, splus. ring. Qed.
Lemma pact_scale n x z a psi y : pact n x z (sscale a psi) y = a * pact n x z psi y.
Proof. unfold pact, sscale. ring. Qed.

Lemma apply_gate_eqs q cs g t psi phi : eqs q psi phi -> eqs q (apply_gate cs g t psi) (apply_gate cs g t phi).
Proof. intros H y Hy. unfold CircuitSpec.apply_gate. rewrite !H by (rewrite ?setb_length; exact Hy). reflexivity. Qed.

(** events that do not allocate *)
Definition gate_only (e : event) : bool := match e with Gate _ _ _ => true | _ => false end.
Lemma exec_eqs q outs evs : forall outs' psi phi, outs' = outs -> forallb gate_only evs = true -> eqs q psi phi -> eqs q (exec outs' evs psi) (exec outs evs phi).
Proof.
  induction evs as [|e evs IH]; intros outs' psi phi -> G H; [exact H|]. destruct e; try discriminate. cbn [CircuitSpec.exec].
  apply IH; [reflexivity|exact G|]. apply apply_gate_eqs, H.
Qed.
Lemma exec_app outs l1 l2 : forall psi, forallb gate_only l1 = true -> exec outs (l1 ++ l2) psi = exec outs l2 (exec outs l1 psi).
Proof.
  induction l1 as [|e l1 IH]; intros psi G; [reflexivity|]. destruct e; try discriminate. cbn [app CircuitSpec.exec]. apply IH, G.
Qed.

(** ** letters *)
Definition lev (cs : list nat) (x z : bool) (j : nat) : list event :=
  match x, z with
  | true, false => [Gate cs GX j]
  | true, true => [Gate cs GmiY j]
  | false, true => [Gate cs GZ j]
  | false, false => []
  end.
Lemma lev_gate cs x z j : forallb gate_only (lev cs x z j) = true.
Proof. destruct x, z; reflexivity. Qed.
Definition levs (cs : list nat) (x z : nat -> bool) (js : list nat) : list event := flat_map (fun j => lev cs (x j) (z j) j) js.
Lemma forallb_flat_map {A B} (p : B -> bool) (f : A -> list B) l : (forall a, In a l -> forallb p (f a) = true) -> forallb p (flat_map f l) = true.
Proof.
  induction l as [|a l IH]; intros H; [reflexivity|]. cbn [flat_map]. rewrite forallb_app, H by (left; reflexivity).
  apply IH. intros b Hb. apply H. right; exact Hb.
Qed.
Lemma levs_gate cs x z js : forallb gate_only (levs cs x z js) = true.
Proof. apply forallb_flat_map. intros; apply lev_gate. Qed.

Lemma exec_letter outs cs x z j psi y : (x = true \/ z = true -> ~ In j cs) -> 
  exec outs (lev cs x z j) psi y =
  if forallb (getb y) cs then sgn (z && xorb (getb y j) x) * psi (setb y j (xorb (getb y j) x)) else psi y.
Proof.
  intros H. destruct x, z; cbn [lev CircuitSpec.exec]; unfold CircuitSpec.apply_gate; rewrite ?andb_false_l, ?andb_true_l, ?xorb_false_r, ?xorb_true_r;
    destruct (forallb (getb y) cs); try reflexivity.
  - destruct (getb y j) eqn:E; cbn; ring.
  - destruct (getb y j) eqn:E; cbn; ring.
  - destruct (getb y j) eqn:E; cbn; ring.
  - rewrite setb_same. cbn. ring.
Qed.

Lemma ctl_setb cs y j b : (forall c, In c cs -> c <> j \/ b = getb y j) -> forallb (getb (setb y j b)) cs = forallb (getb y) cs.
Proof.
  intros H. induction cs as [|c cs IH]; [reflexivity|]. cbn [forallb]. rewrite IH by (intros; apply H; right; assumption). f_equal.
  destruct (Nat.lt_ge_cases c (length y)) as [L|L].
  - rewrite getb_setb by exact L. destruct (Nat.eqb_spec c j) as [->|_]; [|reflexivity]. destruct (H j (or_introl eq_refl)); [congruence|assumption].
  - rewrite !getb_over by (rewrite ?setb_length; exact L). reflexivity.
Qed.

Lemma exec_paulis outs cs x z psi m : forall y, m <= length y -> 
  (forall c, In c cs -> c < m -> x c = false /\ z c = false) ->
  exec outs (levs cs x z (seq O m)) psi y = if forallb (getb y) cs then pact m x z psi y else psi y.
Proof.
  induction m as [|m IH]; intros y Hm HC.
  - cbn. destruct (forallb _ _); [|reflexivity]. unfold pact. cbn [xsum sgn]. rewrite (xorv_ext 0 x (fun _ => false)) by (intros; lia). rewrite xorv_false. ring.
  - unfold levs. rewrite seq_S, flat_map_app. cbn [flat_map Nat.add]. rewrite app_nil_r. 
    rewrite exec_app by (apply levs_gate). fold (levs cs x z (seq O m)).
    rewrite exec_letter.
    2:{ intros HX Hin. destruct (HC m Hin ltac:(lia)) as [E1 E2]. rewrite E1, E2 in HX. destruct HX; discriminate. }
    assert (HC' : forall c, In c cs -> c < m -> x c = false /\ z c = false) by (intros; apply HC; [assumption|lia]).
    rewrite IH by (rewrite ?setb_length; (lia || exact HC')). rewrite IH by (lia || exact HC').
    rewrite ctl_setb.
    + destruct (forallb (getb y) cs); [|reflexivity]. unfold pact. cbn [xsum].
      replace (xorv m x (setb y m (xorb (getb y m) (x m)))) with (xorv (S m) x y).
      * rewrite sgn_xorb. rewrite (xsum_ext m (fun j => z j && xorb (getb (setb y m (xorb (getb y m) (x m))) j) (x j)) (fun j => z j && xorb (getb y j) (x j))); [ring|].
        intros j Hj. rewrite getb_setb by lia. destruct (Nat.eqb_spec j m); [lia|reflexivity].
      * apply bits_eq; [rewrite !xorv_length, setb_length; reflexivity|]. rewrite xorv_length. intros j Hj.
        rewrite !getb_xorv by (rewrite ?setb_length; exact Hj). rewrite getb_setb by exact Hj.
        destruct (Nat.eqb_spec j m) as [->|Ne].
        -- destruct (Nat.ltb_spec m (S m)); [|lia]. destruct (Nat.ltb_spec m m); [lia|]. cbn [andb]. rewrite xorb_false_r. reflexivity.
        -- destruct (Nat.ltb_spec j (S m)), (Nat.ltb_spec j m); try lia; reflexivity.
    + intros c Hc. destruct (Nat.eq_dec c m) as [->|Ne]; [right|left; exact Ne].
      destruct (HC m Hc ltac:(lia)) as [-> _]. apply xorb_false_r.
Qed.

(** the same when the support of (x|z) is in a sub-list of positions *)
Lemma levs_trivial cs x z js : (forall j, In j js -> x j = false /\ z j = false) -> levs cs x z js = [].
Proof.
  induction js as [|j js IH]; intros H; [reflexivity|]. unfold levs. cbn [flat_map]. destruct (H j (or_introl eq_refl)) as [-> ->]. apply IH. intros; apply H; right; assumption.
Qed.
Lemma levs_window cs x z a b m : a + b <= m -> (forall j, j < m -> j < a \/ a + b <= j -> x j = false /\ z j = false) ->
  levs cs x z (seq a b) = levs cs x z (seq O m).
Proof.
  intros H HC. replace m with (a + (b + (m - a - b)))%nat by lia. unfold levs. rewrite !seq_app, !flat_map_app.
  change (flat_map (fun j => lev cs (x j) (z j) j)) with (levs cs x z).
  rewrite (levs_trivial cs x z (seq O a)), (levs_trivial cs x z (seq (0 + a + b) _)).
  - rewrite app_nil_r. reflexivity.
  - intros j Hj. apply in_seq in Hj. apply HC; lia.
  - intros j Hj. apply in_seq in Hj. apply HC; lia.
Qed.

(** ** inner products *)
Lemma isum_ext q (f g : list bool -> K) : (forall y, length y = q -> f y = g y) -> isum q f = isum q g.
Proof.
  revert f g. induction q as [|q IH]; intros f g H; cbn [isum]; [apply H; reflexivity|].
  f_equal; apply IH; intros y Hy; apply H; simpl; lia.
Qed.
Lemma isum_add q (f g : list bool -> K) : isum q (fun y => f y + g y) = isum q f + isum q g.
Proof. revert f g. induction q as [|q IH]; intros f g; cbn [isum]; [reflexivity|]. rewrite !IH. ring. Qed.
Lemma isum_mul q (a : K) f : isum q (fun y => a * f y) = a * isum q f.
Proof. revert f. induction q as [|q IH]; intros f; cbn [isum]; [reflexivity|]. rewrite !IH. ring. Qed.
Lemma isum_0 q : isum (K := K) q (fun _ => 0) = 0.
Proof. induction q as [|q IH]; cbn [isum]; [reflexivity|]. rewrite IH. ring. Qed.

(** sums can be compared pair by pair along bit t *)
Lemma setb_cons y b t c : setb (b :: y) (S t) c = b :: setb y t c.
Proof.
  apply bits_eq; [rewrite setb_length; cbn [length]; rewrite setb_length; reflexivity|]. rewrite setb_length. intros i Hi. rewrite getb_setb by exact Hi.
  destruct i; [reflexivity|]. cbn [Nat.eqb]. simpl in Hi. change (getb (b :: setb y t c) (S i)) with (getb (setb y t c) i). rewrite getb_setb by lia. reflexivity.
Qed.
Lemma setb_cons0 y b c : setb (b :: y) O c = c :: y.
Proof.
  apply bits_eq; [rewrite setb_length; reflexivity|]. rewrite setb_length. intros i Hi. rewrite getb_setb by exact Hi.
  destruct i; reflexivity.
Qed.
Lemma isum_pair q : forall t (f g : list bool -> K), t < q ->
  (forall y, length y = q -> f (setb y t false) + f (setb y t true) = g (setb y t false) + g (setb y t true)) -> isum q f = isum q g.
Proof.
  induction q as [|q IH]; intros t f g Ht H; [lia|]. cbn [isum]. destruct t as [|t].
  - rewrite <- !isum_add. apply isum_ext. intros y Hy. specialize (H (false :: y) ltac:(simpl; lia)). rewrite !setb_cons0 in H. exact H.
  - f_equal; apply (IH t); try lia; intros y Hy; [specialize (H (false :: y) ltac:(simpl; lia))|specialize (H (true :: y) ltac:(simpl; lia))];
      rewrite !setb_cons in H; exact H.
Qed.

Hypothesis H2 : h * h + h * h = 1.
Hypothesis HH : h^* = h.
Hypothesis I2 : im * im = - (1).
Hypothesis IH : im^* = - im.

Lemma gate_unitary g (a b a' b' : K) :
  (gate_entry h im g false false * a + gate_entry h im g false true * b)^* * (gate_entry h im g false false * a' + gate_entry h im g false true * b') +
  (gate_entry h im g true false * a + gate_entry h im g true true * b)^* * (gate_entry h im g true false * a' + gate_entry h im g true true * b') =
  a^* * a' + b^* * b'.
Proof.
  destruct g; cbn [gate_entry]; rewrite ?sconj_add, ?sconj_mul, ?sconj_opp, ?sconj_0, ?sconj_1, ?HH, ?IH; try ring.
  - transitivity ((h * h + h * h) * (a^* * a' + b^* * b')); [ring|]. rewrite H2. ring.
  - transitivity (- (im * im) * (a^* * a' + b^* * b')); [ring|]. rewrite I2. ring.
Qed.

Lemma inner_gate q cs g t psi phi : t < q -> ~ In t cs ->
  inner q (apply_gate cs g t psi) (apply_gate cs g t phi) = inner q psi phi.
Proof.
  intros Ht Hc. unfold inner. apply (isum_pair q t); [exact Ht|]. intros y Hy. unfold CircuitSpec.apply_gate.
  rewrite !ctl_setb by (intros c Hin; left; intros ->; contradiction). rewrite !getb_setb by lia. rewrite Nat.eqb_refl, !setb_setb.
  destruct (forallb (getb y) cs); [|reflexivity]. apply gate_unitary.
Qed.

(** commands on qubits below q, never controlled by their own target *)
Definition proper (q : nat) (e : event) : Prop := match e with Gate cs _ t => t < q /\ ~ In t cs | _ => False end.
Lemma inner_exec q outs evs : forall psi phi, Forall (proper q) evs -> inner q (exec outs evs psi) (exec outs evs phi) = inner q psi phi.
Proof.
  induction evs as [|e evs IHe]; intros psi phi F; [reflexivity|]. apply Forall_cons_iff in F. destruct F as [P F].
  destruct e; try contradiction. cbn [CircuitSpec.exec]. rewrite IHe by exact F. apply inner_gate; apply P.
Qed.
Lemma inner_ext q psi phi psi' phi' : eqs q psi psi' -> eqs q phi phi' -> inner q psi phi = inner q psi' phi'.
Proof. intros A B. apply isum_ext. intros y Hy. rewrite A, B by exact Hy. reflexivity. Qed.

Lemma isum_ket q x (f : list bool -> K) : length x = q -> isum q (fun y => ket x y * f y) = f x.
Proof.
  revert x f. induction q as [|q IHq]; intros x f L.
  - destruct x; [|discriminate]. cbn. ring.
  - destruct x as [|b x]; [discriminate|]. injection L as L. cbn [isum].
    assert (E : forall b' y, ket (b :: x) (b' :: y) = if Bool.eqb b' b then ket (K := K) x y else 0).
    { intros b' y. unfold ket. destruct (list_eq_dec bool_dec (b' :: y) (b :: x)) as [E|E], (list_eq_dec bool_dec y x) as [E'|E'].
      - injection E as -> _. rewrite Bool.eqb_reflx. reflexivity.
      - injection E as _ E. contradiction.
      - destruct (Bool.eqb b' b) eqn:Eb; [|reflexivity]. apply Bool.eqb_prop in Eb. congruence.
      - destruct (Bool.eqb b' b); reflexivity. }
    destruct b.
    + rewrite (isum_ext q _ (fun _ => 0)) by (intros y Hy; rewrite E; cbn; ring). rewrite isum_0.
      rewrite (isum_ext q _ (fun y => ket x y * f (true :: y))) by (intros y Hy; rewrite E; reflexivity). rewrite IHq by exact L. ring.
    + rewrite (isum_ext q (fun y => ket (false :: x) (true :: y) * _) (fun _ => 0)) by (intros y Hy; rewrite E; cbn; ring). rewrite isum_0.
      rewrite (isum_ext q _ (fun y => ket x y * f (false :: y))) by (intros y Hy; rewrite E; reflexivity). rewrite IHq by exact L. ring.
Qed.
Lemma inner_ket q x x' : length x = q -> inner q (ket x) (ket x') = ket (K := K) x' x.
Proof.
  intros L. unfold inner. rewrite <- (isum_ket q x (fun y => ket x' y) L). apply isum_ext. intros y Hy. f_equal.
  unfold ket. destruct (list_eq_dec bool_dec y x); [apply sconj_1|apply sconj_0].
Qed.
End Pauli.
