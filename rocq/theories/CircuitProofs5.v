(** Syndrome measurement and stabilizer application (C18, C19, C20). *)
From Verif Require Import Py ZMat CodesModel RankSpec CodesSpec BoolLin Rank Gauss CodesProofs CodesProofs2
  Scalar PauliModel PauliSpec PauliProofs PauliProofs2 CircuitModel CircuitSpec CircuitProofs EncodeProofs CircuitProofs2 CircuitProofs3 CircuitProofs4.
Open Scope nat_scope.

Section Syn.
Context {K : StarRing}.
Variables h im : K.
Add Ring KringS : (s_rt K).
Variable n : nat.
Implicit Types psi phi v : @state K.
Notation exec := (exec h im).
Open Scope K_scope.

Lemma y_split y : length y = (n + 1)%nat -> y = firstn n y ++ [getb y n].
Proof.
  intros Hy. rewrite <- (firstn_skipn n y) at 1. f_equal. apply bits_eq; [rewrite skipn_length; cbn; lia|]. rewrite skipn_length. intros j Hj.
  rewrite getb_skipn. replace j with 0%nat by lia. rewrite Nat.add_0_r. reflexivity.
Qed.
Lemma setb_last w b b' : length w = n -> setb (w ++ [b]) n b' = w ++ [b'].
Proof.
  intros Hw. apply bits_eq; [rewrite setb_length, !app_length; reflexivity|]. rewrite setb_length. intros j Hj. rewrite getb_setb by exact Hj. rewrite app_length in Hj; cbn in Hj.
  unfold getb. destruct (Nat.eqb_spec j n) as [->|Ne].
  - rewrite app_nth2 by lia. rewrite Hw, Nat.sub_diag. reflexivity.
  - rewrite !app_nth1 by lia. reflexivity.
Qed.
Lemma getb_last w b : length w = n -> getb (w ++ [b]) n = b.
Proof. intros Hw. unfold getb. rewrite app_nth2 by lia. rewrite Hw, Nat.sub_diag. reflexivity. Qed.
Lemma tensor_last v a w b : length w = n -> tensor n v [a] (w ++ [b]) = if Bool.eqb b a then v w else 0.
Proof.
  intros Hw. unfold tensor. rewrite skipn_app, firstn_app, Hw, Nat.sub_diag, skipn_all2, firstn_all2 by lia. cbn [skipn firstn app]. rewrite app_nil_r.
  destruct (list_eq_dec bool_dec [b] [a]) as [E|E], (Bool.eqb b a) eqn:Eb; try reflexivity.
  - injection E as ->. rewrite Bool.eqb_reflx in Eb. discriminate.
  - apply Bool.eqb_prop in Eb. subst. contradiction.
Qed.
Lemma pact_app x z phi w b : length w = n -> pact n x z phi (w ++ [b]) = sgn (xsum n (fun j => z j && xorb (getb w j) (x j))) * phi (xorv n x w ++ [b]).
Proof.
  intros Hw. unfold pact. assert (G : forall j, j < n -> getb (w ++ [b]) j = getb w j) by (intros j Hj; unfold getb; rewrite app_nth1 by lia; reflexivity).
  f_equal.
  - f_equal. apply xsum_ext; intros j Hj. rewrite G by exact Hj. reflexivity.
  - f_equal. apply bits_eq; [rewrite xorv_length, !app_length, xorv_length; reflexivity|]. rewrite xorv_length. intros j Hj. rewrite getb_xorv by exact Hj.
    rewrite app_length in Hj; cbn in Hj. destruct (Nat.ltb_spec j n) as [L|L].
    + rewrite G by exact L. unfold getb at 2. rewrite app_nth1 by (rewrite xorv_length; lia). fold (getb (xorv n x w) j). rewrite getb_xorv_in by lia. reflexivity.
    + replace j with n by lia. cbn [andb]. rewrite xorb_false_r, getb_last by exact Hw. unfold getb. rewrite app_nth2 by (rewrite xorv_length; lia).
      rewrite xorv_length, Hw, Nat.sub_diag. reflexivity.
Qed.

Definition syn_events (x z : nat -> bool) : list event := Gate [] GH n :: levs [n] x z (seq O n) ++ [Gate [] GH n].
Lemma syn_core outs x z v a w b : length w = n ->
  exec outs (syn_events x z) (tensor n v [a]) (w ++ [b]) = h * h * (v w + sgn (xorb a b) * pact n x z v w).
Proof.
  intros Hw. unfold syn_events. cbn [CircuitSpec.exec]. rewrite exec_app by apply levs_gate. cbn [CircuitSpec.exec].
  set (phi1 := apply_gate h im [] GH n (tensor n v [a])).
  assert (P1 : forall w b, length w = n -> phi1 (w ++ [b]) = h * sgn (a && b) * v w).
  { intros w0 b0 Hw0. unfold phi1, apply_gate. cbn [forallb]. rewrite getb_last, !setb_last, !tensor_last by exact Hw0.
    destruct a, b0; cbn [Bool.eqb gate_entry sgn andb]; ring. }
  assert (P2 : forall w b, length w = n -> exec outs (levs [n] x z (seq O n)) phi1 (w ++ [b]) = if b then h * sgn a * pact n x z v w else h * v w).
  { intros w0 b0 Hw0. rewrite exec_paulis.
    - cbn [forallb]. rewrite andb_true_r, getb_last by exact Hw0. destruct b0.
      + rewrite pact_app, P1 by (rewrite ?xorv_length; exact Hw0). rewrite andb_true_r. unfold pact. ring.
      + rewrite P1 by exact Hw0. rewrite andb_false_r. cbn [sgn]. ring.
    - rewrite app_length; cbn; lia.
    - intros c [<-|[]] Hc. lia. }
  unfold apply_gate at 1. cbn [forallb]. rewrite getb_last, !setb_last, !P2 by exact Hw.
  destruct b; cbn [gate_entry]; rewrite ?xorb_true_r, ?xorb_false_r; destruct a; cbn [sgn negb]; ring.
Qed.
Hypothesis H2 : h * h + h * h = 1.
Lemma syn_eigen outs x z v a e : eqs n (pact n x z v) (sscale (sgn e) v) ->
  eqs (n + 1) (exec outs (syn_events x z) (tensor n v [a])) (tensor n v [xorb a e]).
Proof.
  intros H y Hy. rewrite (y_split y Hy). set (w := firstn n y). set (b := getb y n). assert (Hw : length w = n) by (unfold w; rewrite firstn_length; lia).
  rewrite syn_core, tensor_last by exact Hw. rewrite (H w Hw). unfold sscale.
  destruct a, b, e; cbn [xorb negb sgn Bool.eqb]; try ring;
  (transitivity ((h * h + h * h) * v w); [ring|rewrite H2; ring]).
Qed.
Lemma syn_measure x z v a e b : eqs n (pact n x z v) (sscale (sgn e) v) ->
  eqs (n + 1) (exec [b] (syn_events x z ++ [Measure n]) (tensor n v [a]))
              (if Bool.eqb b (xorb a e) then tensor n v [b] else fun _ => 0).
Proof.
  intros H y Hy. rewrite exec_app by (cbn [syn_events forallb gate_only]; rewrite forallb_app, levs_gate; reflexivity).
  cbn [CircuitSpec.exec hd tl]. unfold project. rewrite (syn_eigen [b] x z v a e H y Hy).
  rewrite (y_split y Hy). set (w := firstn n y). set (b0 := getb y n). assert (Hw : length w = n) by (unfold w; rewrite firstn_length; lia).
  rewrite getb_last, tensor_last by exact Hw. destruct (Bool.eqb b (xorb a e)) eqn:E.
  - apply Bool.eqb_prop in E. rewrite <- E, tensor_last by exact Hw. destruct (Bool.eqb b0 b); reflexivity.
  - destruct (Bool.eqb b0 b) eqn:E1, (Bool.eqb b0 (xorb a e)) eqn:E2; try reflexivity. apply Bool.eqb_prop in E1, E2. rewrite <- E1, E2, Bool.eqb_reflx in E. discriminate.
Qed.

(** the model sends these commands *)
Lemma syn_letters q row : binary row -> n <= q ->
  cfor (enumerate (str_of n row)) (fun jp =>
    let '(j, p) := jp in
    if Ascii.eqb p "X" then run q <- lift (py_get (seq 0 q) (Z.of_nat j)); send (Gate [n] GX q)
    else if Ascii.eqb p "Y" then run q <- lift (qubitop_get (seq 0 q) j); send (Gate [n] GmiY q)
    else if Ascii.eqb p "Z" then run q <- lift (py_get (seq 0 q) (Z.of_nat j)); send (Gate [n] GZ q)
    else if Ascii.eqb p "I" then cret tt
    else craise RuntimeError) = (levs [n] (brow row) (zpart n (brow row)) (seq 0 n), Ok tt).
Proof.
  intros B Hq. unfold str_of. rewrite enumerate_tab, cfor_map. apply cfor_ok. intros j Hj. apply in_seq in Hj. unfold zpart.
  destruct (cchar_cases n row j B) as [(E1 & E2 & ->)|[(E1 & E2 & ->)|[(E1 & E2 & ->)|(E1 & E2 & ->)]]];
    rewrite E1, E2; cbn; rewrite ?py_get_seq0, ?qubitop_get_seq by lia; reflexivity.
Qed.
Variable c : code.
Hypothesis Ec : cn c = n.
Definition names (arg : stabarg) (row : list Z) : Prop := arg = AsArray row \/ exists p, arg = AsString p /\ binary_rep_to_pauli_str row = Ok p.
Lemma names_str arg row : length row = (2 * n)%nat -> binary row -> names arg row ->
  match arg with AsArray row => binary_rep_to_pauli_str row | AsList row => Ok (repeat "?"%char (length row)) | AsString p => Ok p end = Ok (str_of n row).
Proof.
  intros L B [->|(p & -> & E)]; [apply to_str_row; assumption|]. rewrite (to_str_row n row L B) in E. injection E as <-. reflexivity.
Qed.
Lemma syndrome_with_ancilla arg row : length row = (2 * n)%nat -> binary row -> names arg row ->
  single_syndrome_measurement c (n + 1) (seq O (n + 1)) arg = (syn_events (brow row) (zpart n (brow row)) ++ [Measure n], Ok n).
Proof.
  intros L B A. unfold single_syndrome_measurement. rewrite Ec. replace (Nat.eqb (n + 1) n) with false by (symmetry; apply Nat.eqb_neq; lia).
  rewrite Nat.eqb_refl. cbn [orb]. rewrite cbind_ret.
  replace (py_get (seq O (n + 1)) (-1)) with (Ok n).
  2:{ unfold py_get. rewrite seq_length. cbn [Z.ltb Z.compare]. destruct (Z.ltb_spec (-1 + Z.of_nat (n + 1)) 0); [lia|].
      replace (Z.to_nat (-1 + Z.of_nat (n + 1))) with n by lia. rewrite (nth_error_nth' _ O) by (rewrite seq_length; lia). rewrite seq_nth by lia. reflexivity. }
  change (lift (Ok n)) with (cret n). rewrite cbind_ret. rewrite (names_str arg row L B A). change (lift (Ok (str_of n row))) with (cret (str_of n row)). rewrite cbind_ret.
  unfold send at 1. rewrite cbind_ok, syn_letters by (exact B || lia). rewrite cbind_ok. unfold send. rewrite !cbind_ok, !cbind_ret. cbn [cret fst snd app].
  unfold syn_events. cbn [app]. rewrite <- app_assoc. reflexivity.
Qed.
Lemma syndrome_fresh arg row : length row = (2 * n)%nat -> binary row -> names arg row ->
  single_syndrome_measurement c n (seq O n) arg = (Alloc n :: (syn_events (brow row) (zpart n (brow row)) ++ [Measure n]) ++ [Dealloc n], Ok n).
Proof.
  intros L B A. unfold single_syndrome_measurement. rewrite Ec, Nat.eqb_refl. cbn [orb]. rewrite cbind_ret.
  rewrite cbind_assoc. unfold send at 1. rewrite cbind_ok, cbind_ret.
  rewrite (names_str arg row L B A). change (lift (Ok (str_of n row))) with (cret (str_of n row)). rewrite cbind_ret.
  unfold send at 1. rewrite cbind_ok, syn_letters by (exact B || lia). rewrite cbind_ok. unfold send. rewrite !cbind_ok. cbn [cret fst snd app].
  unfold syn_events. cbn [app]. rewrite <- !app_assoc. reflexivity.
Qed.
Lemma exec_dealloc evs q : forall outs psi, forallb gate_only evs = true -> exec outs ((evs ++ [Measure n]) ++ [Dealloc q]) psi = exec outs (evs ++ [Measure n]) psi.
Proof. induction evs as [|e evs IH]; intros outs psi G; [reflexivity|]. destruct e; try discriminate. cbn. apply IH, G. Qed.
Lemma alloc_one psi : eqs (n + 1) (add_qubit n psi) (tensor n psi [false]).
Proof. exact (alloc_tensor h im n n c [] psi 1). Qed.

Theorem syndrome_ok arg row A v a e b : length row = (2 * n)%nat -> binary row -> names arg row -> is_pauli n A row ->
  matrix_maps n A v (sscale (sgn e) v) ->
  snd (single_syndrome_measurement c (n + 1) (seq O (n + 1)) arg) = Ok n /\
  eqs (n + 1) (exec [b] (fst (single_syndrome_measurement c (n + 1) (seq O (n + 1)) arg)) (tensor n v [a]))
              (if Bool.eqb b (xorb a e) then tensor n v [b] else fun _ => 0) /\
  snd (single_syndrome_measurement c n (seq O n) arg) = Ok n /\
  eqs (n + 1) (exec [b] (fst (single_syndrome_measurement c n (seq O n) arg)) v)
              (if Bool.eqb b e then tensor n v [b] else fun _ => 0).
Proof.
  intros L B NA P M. apply (maps_prow n A row) in M; [|exact P].
  rewrite (syndrome_with_ancilla arg row L B NA), (syndrome_fresh arg row L B NA). cbn [fst snd]. split; [reflexivity|]. split; [|split; [reflexivity|]].
  - apply syn_measure. exact M.
  - cbn [CircuitSpec.exec]. rewrite exec_dealloc by (cbn [syn_events forallb gate_only]; rewrite forallb_app, levs_gate; reflexivity).
    apply (eqs_trans _ _ (exec [b] (syn_events (brow row) (zpart n (brow row)) ++ [Measure n]) (tensor n v [false]))).
    + intros y Hy. rewrite !exec_app by (cbn [syn_events forallb gate_only]; rewrite forallb_app, levs_gate; reflexivity).
      cbn [CircuitSpec.exec]. unfold project. 
      rewrite (exec_eqs h im (n + 1) [b] (syn_events (brow row) (zpart n (brow row))) [b] (add_qubit n v) (tensor n v [false])); try reflexivity; [|apply alloc_one|exact Hy].
      cbn [syn_events forallb gate_only]; rewrite forallb_app, levs_gate; reflexivity.
    + rewrite <- (xorb_false_l e) at 1. apply (syn_measure _ _ v false e b M).
Qed.
End Syn.

(** an error E on a state fixed by S is an eigenvector of S *)
Lemma error_eigen {K : StarRing} n (A E : array K) rs re v w : length rs = (2 * n)%nat -> length re = (2 * n)%nat ->
  binary rs -> binary re -> is_pauli n A rs -> is_pauli n E re ->
  matrix_fixes n A v -> matrix_maps n E v w -> matrix_maps n A w (sscale (sgn (Z.eqb (inner_prod rs re) 1)) w).
Proof.
  intros Ls Le Bs Be PA PE F M. apply (fixes_prow n A rs) in F; [|exact PA]. apply (maps_prow n E re) in M; [|exact PE]. apply (maps_prow n A rs); [exact PA|].
  assert (I : Z.eqb (inner_prod rs re) 1 = xsum n (fun j => xorb (brow rs j && brow re (n + j)) (brow rs (n + j) && brow re j))).
  { rewrite (inner_prod_ip n) by assumption. change (xsum n _) with (ip n (brow rs) (brow re)). destruct (ip n (brow rs) (brow re)); reflexivity. }
  intros y Hy. rewrite <- (prow_eqs n (brow rs) _ _ M y Hy).
  unfold prow at 1. fold (prow n (brow re) v). unfold prow at 1. rewrite (pact_anticommute n n _ _ _ _ v (le_n n) y Hy). unfold sscale. rewrite I. f_equal.
  rewrite <- (M y Hy). apply (pact_eqs n n). exact F. exact Hy.
Qed.

(** ** C20 *)
Section App.
Context {K : StarRing}.
Variables h im : K.
Add Ring KringP : (s_rt K).
Notation exec := (exec h im).
Open Scope K_scope.
Definition alev (x z : bool) (j : nat) : list event := match x, z with true, true => [Gate [] GY j] | x, z => lev [] x z j end.
Lemma alev_gate x z j : forallb gate_only (alev x z j) = true. Proof. destruct x, z; reflexivity. Qed.
Lemma alev_letter outs x z j (psi : @state K) y : exec outs (alev x z j) psi y = (if x && z then im else 1) * exec outs (lev [] x z j) psi y.
Proof.
  destruct x, z; cbn [alev lev CircuitSpec.exec andb]; try ring. unfold apply_gate. cbn [forallb]. destruct (getb y j); cbn [gate_entry]; ring.
Qed.
Lemma kpow_S (x : K) m : kpow x (m + 1) = x * kpow x m.
Proof. rewrite Nat.add_1_r. reflexivity. Qed.
Lemma apply_paulis outs x z (psi : @state K) m : forall y, m <= length y ->
  exec outs (flat_map (fun j => alev (x j) (z j) j) (seq O m)) psi y =
  kpow im (length (filter (fun j => x j && z j) (seq O m))) * exec outs (levs [] x z (seq O m)) psi y.
Proof.
  induction m as [|m IH]; intros y Hm; [cbn; ring|].
  unfold levs. rewrite seq_S, !flat_map_app, filter_app, app_length. cbn [flat_map Nat.add]. rewrite !app_nil_r.
  rewrite !exec_app by (apply forallb_flat_map; intros; (apply alev_gate || apply lev_gate)). fold (levs [] x z (seq O m)).
  rewrite alev_letter. set (cnt := length (filter _ (seq O m))) in *.
  rewrite (exec_eqs h im (length y) outs (lev [] (x m) (z m) m) outs _ (sscale (kpow im cnt) (exec outs (levs [] x z (seq O m)) psi))); try reflexivity; [|apply lev_gate|].
  - rewrite (exec_lin h im (lev [] (x m) (z m) m) outs (exec outs (levs [] x z (seq O m)) psi) (fun _ => 0) _ (kpow im cnt)) by (intros w; unfold sscale; ring).
    rewrite (exec_zero h im (lev [] (x m) (z m) m) outs (fun _ => 0)) by reflexivity. cbn [filter]. destruct (x m && z m); cbn [length]; [rewrite kpow_S; ring|rewrite Nat.add_0_r; ring].
  - intros w Hw. unfold sscale. apply IH. lia.
Qed.
Theorem apply_ok n row A (v : @state K) arg : length row = (2 * n)%nat -> binary row -> is_pauli n A row -> arg = AsArray row \/ arg = AsList row ->
  snd (apply_stabilizer_circuit (seq O n) arg) = Ok tt /\
  matrix_maps n (scale (kpow im (y_count n row)) A) v (exec [] (fst (apply_stabilizer_circuit (seq O n) arg)) v).
Proof.
  intros L B P HA.
  assert (E : apply_stabilizer_circuit (seq O n) arg = (flat_map (fun j => alev (brow row j) (zpart n (brow row) j) j) (seq O n), Ok tt)).
  { unfold apply_stabilizer_circuit. replace (match arg with AsArray row | AsList row => binary_rep_to_pauli_str row | AsString _ => Err UnboundLocalError end) with (Ok (str_of n row)).
    - change (lift (Ok (str_of n row))) with (cret (str_of n row)). rewrite cbind_ret, (apply_letters_cmd n row B). f_equal. apply flat_map_ext_in. intros j _. unfold zpart. destruct (brow row j), (brow row (n + j)); reflexivity.
    - destruct HA as [-> | ->]; symmetry; apply to_str_row; assumption. }
  rewrite E. cbn [fst snd]. split; [reflexivity|]. intros i Hi.
  pose proof (proj2 (maps_prow n A row v (prow n (brow row) v) P) (eqs_refl n _) i Hi) as M. unfold scale.
  rewrite (bsum_ext _ _ (fun l => kpow im (y_count n row) * (A i l * v (bits_of n l)))) by (intros l Hl; ring).
  rewrite bsum_mul_l, M. rewrite apply_paulis by (rewrite bits_of_length; lia). f_equal.
  - f_equal. unfold y_count. f_equal. apply filter_ext. intros j. unfold brow, zpart, brow. 
    destruct (binary_nth row j B) as [-> | ->], (binary_nth row (n + j) B) as [-> | ->]; reflexivity.
  - rewrite exec_paulis by (first [rewrite bits_of_length; lia|intros ? []]). reflexivity.
Qed.
End App.

(** ** C25: no ancillas *)
Lemma cfor_err {A} (l : list A) (f : A -> circ unit) e x : (forall x, In x l -> f x = cret tt \/ f x = craise e) -> In x l -> f x = craise e ->
  cfor l f = craise e.
Proof.
  induction l as [|a l IH]; intros H Hx Ex; [contradiction|]. cbn [cfor]. destruct (H a (or_introl eq_refl)) as [Ea|Ea]; rewrite Ea.
  - rewrite cbind_ret. destruct Hx as [->|Hx]; [rewrite Ex in Ea; discriminate|]. apply IH; [intros; apply H; right; assumption|exact Hx|exact Ex].
  - reflexivity.
Qed.
Theorem no_ancillas g n k c active deal : init g n k None = Ok c -> valid_generators n k (zd (stab c)) -> 1 <= k ->
  decoding_circuit c active (seq 0 n) false deal = ([], Err IndexError).
Proof.
  intros HI HV Hk1. destruct (code_dims g n k c HI) as [Ec Ek]. destruct (struct_f g n k c HI HV) as (Hk & Hr & OF & U & Lx & V & Cm & Zs).
  destruct (logical_f g n k c HI HV) as (OX & OZ & EX & EZ). destruct (okm_spec n k _ OZ) as (LZ & _).
  unfold decoding_circuit. rewrite Ec, Ek. cbv beta iota. rewrite skipn_all2 by (rewrite seq_length; lia). rewrite cbind_ret.
  destruct k as [|k]; [lia|]. cbn [seq cfor].
  destruct (okm_row n (S k) _ 0 OZ ltac:(lia)) as [L B].
  change 0%Z with (Z.of_nat 0). rewrite (py_get_nat _ _ []) by lia. change (lift (Ok ?x)) with (cret x). rewrite cbind_ret.
  rewrite (skipn_tab _ 0%Z n n) by lia. rewrite enumerate_tab, cfor_map.
  rewrite (cfor_err _ _ IndexError (n - S k)); [reflexivity| | |].
  - intros j Hj. apply in_seq in Hj. destruct (binary_nth _ (n + j) B) as [-> | ->]; [left; reflexivity|right]. cbn [Z.eqb Pos.eqb].
    rewrite py_get_seq0 by lia. reflexivity.
  - apply in_seq. lia.
  - assert (O1 : nth (n + (n - S k)) (nth 0 (zd (logical_z c)) []) 0%Z = 1%Z).
    { pose proof (EZ 0 (n + (n - S k)) ltac:(lia) ltac:(lia)) as E. replace (n + (n - S k)) with (n + (n - S k + 0)) in E by lia. rewrite (Logical.fz_hi n (S k) (n - S k) (crank c)) in E by (assumption || reflexivity).
      rewrite Nat.add_0_r in E. change (bz (logical_z c) 0 (n + (n - S k))) with (Z.odd (nth (n + (n - S k)) (nth 0 (zd (logical_z c)) []) 0%Z)) in E.
      destruct (binary_nth _ (n + (n - S k)) B) as [X|X]; rewrite X in *; [discriminate|reflexivity]. }
    rewrite O1. cbn [Z.eqb Pos.eqb]. rewrite py_get_seq0 by lia. reflexivity.
Qed.
Lemma logical_accepts g n k c p i : init g n k None = Ok c -> valid_generators n k (zd (stab c)) ->
  (p = "X" \/ p = "Y" \/ p = "Z")%char -> i < k -> i < 10 -> snd (logical_circuit c (seq 0 n) [p; digit i]) = Ok tt.
Proof.
  intros HI HV [->|[->| ->]] Hi H10.
  - rewrite (logical_x_events g n k c HI HV) by assumption. reflexivity.
  - rewrite (logical_y_events g n k c HI HV) by assumption. reflexivity.
  - rewrite (logical_z_events g n k c HI HV) by assumption. reflexivity.
Qed.

Section Single.
Context {K : StarRing}.
Lemma single_mat n row : 1 <= n -> length row = 2 * n -> binary row ->
  exists A : array K, binary_rep_to_pauli_mat (ZM 1 (2 * n) [row]) = Ok [MA (2 ^ n) (2 ^ n) A] /\ is_pauli n A row.
Proof.
  intros Hn L B. destruct (pauli_row_mat_spec (K := K) n row Hn L B) as (A & EA & HA). exists A.
  unfold binary_rep_to_pauli_mat. cbn [zc zd mapM]. rewrite CodesProofs.div2_double, EA. split; [reflexivity|exact HA].
Qed.
Theorem syndrome_prop (h im : K) n c row arg v a e b : qubit_constants h im -> 1 <= n -> cn c = n -> length row = 2 * n -> binary row ->
  arg = AsArray row \/ (exists p, arg = AsString p /\ binary_rep_to_pauli_str row = Ok p) ->
  exists A : array K, binary_rep_to_pauli_mat (ZM 1 (2 * n) [row]) = Ok [MA (2 ^ n) (2 ^ n) A] /\
   (matrix_maps n A v (sscale (sgn e) v) ->
    snd (single_syndrome_measurement c (n + 1) (seq 0 (n + 1)) arg) = Ok n /\
    eqs (n + 1) (exec h im [b] (fst (single_syndrome_measurement c (n + 1) (seq 0 (n + 1)) arg)) (tensor n v [a]))
                (if Bool.eqb b (xorb a e) then tensor n v [b] else fun _ => s0) /\
    snd (single_syndrome_measurement c n (seq 0 n) arg) = Ok n /\
    eqs (n + 1) (exec h im [b] (fst (single_syndrome_measurement c n (seq 0 n) arg)) v)
                (if Bool.eqb b e then tensor n v [b] else fun _ => s0)).
Proof.
  intros (C1 & _) Hn Ec L B A. destruct (single_mat n row Hn L B) as (M & EM & P). exists M. split; [exact EM|]. intros H.
  exact (syndrome_ok h im n C1 c Ec arg row M v a e b L B A P H).
Qed.
Theorem syndrome_error (h im : K) n c row err arg v w b : qubit_constants h im -> 1 <= n -> cn c = n -> length row = 2 * n -> binary row ->
  length err = 2 * n -> binary err ->
  arg = AsArray row \/ (exists p, arg = AsString p /\ binary_rep_to_pauli_str row = Ok p) ->
  exists A E : array K, binary_rep_to_pauli_mat (ZM 2 (2 * n) [row; err]) = Ok [MA (2 ^ n) (2 ^ n) A; MA (2 ^ n) (2 ^ n) E] /\
   (matrix_fixes n A v -> matrix_maps n E v w ->
    eqs (n + 1) (exec h im [b] (fst (single_syndrome_measurement c n (seq 0 n) arg)) w)
                (if Bool.eqb b (Z.eqb (inner_prod row err) 1) then tensor n w [b] else fun _ => s0)).
Proof.
  intros (C1 & _) Hn Ec L B Le Be NA. destruct (pauli_row_mat_spec (K := K) n row Hn L B) as (A & EA & HA). destruct (pauli_row_mat_spec (K := K) n err Hn Le Be) as (E & EE & HE).
  exists A, E. split; [unfold binary_rep_to_pauli_mat; cbn [zc zd mapM]; rewrite CodesProofs.div2_double, EA, EE; reflexivity|].
  intros F M. apply (syndrome_ok h im n C1 c Ec arg row A w false _ b L B NA HA). apply (error_eigen n A E row err v w); assumption.
Qed.
Theorem apply_prop (h im : K) n row arg v : 1 <= n -> length row = 2 * n -> binary row -> arg = AsArray row \/ arg = AsList row ->
  exists A : array K, binary_rep_to_pauli_mat (ZM 1 (2 * n) [row]) = Ok [MA (2 ^ n) (2 ^ n) A] /\
  snd (apply_stabilizer_circuit (seq 0 n) arg) = Ok tt /\
  matrix_maps n (scale (kpow im (y_count n row)) A) v (exec h im [] (fst (apply_stabilizer_circuit (seq 0 n) arg)) v).
Proof.
  intros Hn L B HA. destruct (single_mat n row Hn L B) as (M & EM & P). exists M. split; [exact EM|]. exact (apply_ok h im n row M v arg L B P HA).
Qed.
End Single.
Lemma wrong_size c active register arg : active <> cn c -> active <> cn c + 1 ->
  single_syndrome_measurement c active register arg = ([], Err TypeError).
Proof.
  intros A B. unfold single_syndrome_measurement. rewrite (proj2 (Nat.eqb_neq _ _) A), (proj2 (Nat.eqb_neq _ _) B). reflexivity.
Qed.
