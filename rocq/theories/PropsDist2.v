(** What a concatenated code corrects (C155).  Specification: QecSpec.v, CircuitSpec.v, CodesSpec.v.  Model: CodesModel.v, CircuitModel.v. *)
From Verif Require Import Py ZMat CodesModel RankSpec CodesSpec BoolLin Rank Gauss Gauss2 Logical CodesProofs CodesProofs2 ConcatProofs ConcatSpec ConcatAbs ConcatProofs2 StringsProofs PropsCodes Scalar PauliModel PauliSpec PauliProofs2 PropsPauli
  CircuitModel CircuitSpec CircuitProofs2 CircuitProofs3 CircuitProofs5 PropsCircuits QecSpec QecProofs WorkflowSpec WorkflowProofs EncodedSpec EncodedProofs PropsEncoded SameCodeSpec SameCodeProofs PropsSameCode PropsConcat MeasureSpec MeasureProofs PropsMeasure DistProofs PropsDist.
From Coq Require Import Bool Lia.
Open Scope nat_scope.

Lemma y_even_brow n row : binary row -> (Nat.even (y_count n row) = true <-> BoolLin.xsum n (fun j => brow row j && brow row (n + j)) = false).
Proof. intros B. rewrite <- Nat.negb_odd, (y_count_xsum n row B), negb_true_iff. reflexivity. Qed.
Lemma pos_x n m b p : p < m -> pos n m b p = b * m + p.
Proof. intros H. unfold pos. destruct (Nat.ltb_spec p m); lia. Qed.
Lemma pos_z n m b p : p < m -> pos n m b (m + p) = n * m + (b * m + p).
Proof. intros H. unfold pos. destruct (Nat.ltb_spec (m + p) m); lia. Qed.
Lemma y_blocks n m (u : nat -> bool) : BoolLin.xsum (n * m) (fun j => u j && u (n * m + j)) = BoolLin.xsum n (fun b => BoolLin.xsum m (fun p => u (pos n m b p) && u (pos n m b (m + p)))).
Proof. rewrite xsum_blocks. apply xsum_ext. intros b Hb. apply xsum_ext. intros p Hp. rewrite pos_x, pos_z by exact Hp. reflexivity. Qed.
(** the rows of a concatenation have an even number of Ys when the rows of both codes have *)
Lemma concatenation_even n k m lx lz outer inner rows : valid_generators n k outer -> k <= n -> valid_generators m 1 inner -> valid_generators (n * m) k rows ->
  length lx = 2 * m -> length lz = 2 * m -> ~ commute m (x_only m lx) (z_only m lz) ->
  concatenation n n m (fun j => j) (fun _ => x_only m lx) (fun _ => z_only m lz) outer inner rows -> even_ys n outer -> even_ys m inner -> even_ys (n * m) rows.
Proof.
  intros VO Hk VI VR LX LZ HA CC EO EI. destruct (concatenation_rows n k m _ _ outer inner rows VO Hk VI CC) as (LR & RB & RE).
  destruct VR as (_ & _ & _ & BR & _). destruct VO as (_ & _ & _ & BO & _). destruct VI as (_ & _ & _ & BI & _). unfold even_ys in *. rewrite Forall_forall in *.
  intros r Hr. apply (y_even_brow (n * m) r (BR r Hr)). apply (In_nth _ _ []) in Hr. destruct Hr as (x & Hx & <-). change (brow (nth x rows [])) with (brows rows x). rewrite y_blocks.
  rewrite LR in Hx. destruct (Nat.lt_ge_cases x (n * length inner)) as [HL|HL].
  - assert (S0 : length inner <> 0) by (intros Q; rewrite Q in HL; lia). pose proof (Nat.div_mod x (length inner) S0) as DM. pose proof (Nat.mod_upper_bound x (length inner) S0) as HM.
    assert (HI : x / length inner < n) by (apply Nat.div_lt_upper_bound; lia). assert (HN : In (nth (x mod length inner) inner []) inner) by (apply nth_In; exact HM).
    rewrite (xsum_zero n); [reflexivity|]. intros b Hb. rewrite DM, (Nat.mul_comm (length inner)).
    destruct (Nat.eq_dec b (x / length inner)) as [->|NE].
    + transitivity (BoolLin.xsum m (fun p => brow (nth (x mod length inner) inner []) p && brow (nth (x mod length inner) inner []) (m + p))); [|apply (y_even_brow m); [exact (BI _ HN)|exact (EI _ HN)]].
      apply xsum_ext. intros p Hp. rewrite !RB by lia. rewrite Nat.eqb_refl. reflexivity.
    + apply xsum_zero. intros p Hp. rewrite RB by lia. apply Nat.eqb_neq in NE. rewrite NE. reflexivity.
  - assert (HT : x - n * length inner < length outer) by lia. set (t := x - n * length inner) in *. replace x with (n * length inner + t) by (unfold t; lia).
    assert (HN : In (nth t outer []) outer) by (apply nth_In; exact HT).
    assert (XZ : ip m (brow (x_only m lx)) (brow (z_only m lz)) = true) by (rewrite commute_ip in HA; destruct (ip m (brow (x_only m lx)) (brow (z_only m lz))); [reflexivity|destruct (HA eq_refl)]).
    transitivity (BoolLin.xsum n (fun b => brow (nth t outer []) b && brow (nth t outer []) (n + b))); [|apply (y_even_brow n); [exact (BO _ HN)|exact (EO _ HN)]].
    apply xsum_ext. intros b Hb. change (brow (nth t outer [])) with (brows outer t).
    transitivity (BoolLin.xsum m (fun p => (brows outer t b && brows outer t (n + b)) && (brow lx p && brow lz (m + p)))).
    + apply xsum_ext. intros p Hp. rewrite !RE by lia. rewrite !brow_x_only, !brow_z_only by (assumption || lia).
      destruct (Nat.ltb_spec p m); [|lia]. destruct (Nat.ltb_spec (m + p) m); [lia|]. destruct (Nat.leb_spec m p); [lia|]. destruct (Nat.leb_spec m (m + p)); [|lia]. cbn [andb].
      destruct (brows outer t b), (brows outer t (n + b)), (brow lx p), (brow lz (m + p)); reflexivity.
    + transitivity ((brows outer t b && brows outer t (n + b)) && ip m (brow (x_only m lx)) (brow (z_only m lz))); [|rewrite XZ; apply andb_true_r]. unfold ip.
      destruct (brows outer t b && brows outer t (n + b)); cbn [andb]; [|apply xsum_zero; reflexivity].
      apply xsum_ext. intros p Hp. rewrite !brow_x_only, !brow_z_only by (assumption || lia).
      destruct (Nat.ltb_spec p m); [|lia]. destruct (Nat.ltb_spec (m + p) m); [lia|]. destruct (Nat.leb_spec m p); [lia|]. destruct (Nat.leb_spec m (m + p)); [|lia]. cbn [andb].
      rewrite !xorb_false_r. reflexivity.
Qed.
Lemma distance_less n rows d d' : d' <= d -> distance_at_least n rows d -> distance_at_least n rows d'.
Proof. intros H D v L B C W. apply D; try assumption. lia. Qed.

Lemma concatenated_code g1 g2 o1 o2 n k m c1 c2 lx lz c d1 d2 :
  init g1 n k o1 = Ok c1 -> init g2 m 1 o2 = Ok c2 -> valid_generators n k (zd (stab c1)) -> valid_generators m 1 (zd (stab c2)) ->
  even_ys n (zd (stab c1)) -> even_ys m (zd (stab c2)) ->
  nth_error (zd (logical_x c2)) 0 = Some lx -> nth_error (zd (logical_z c2)) 0 = Some lz ->
  length lx = 2 * m -> length lz = 2 * m -> binary lx -> binary lz ->
  (forall r, In r (zd (stab c2)) -> commute m r (x_only m lx) /\ commute m r (z_only m lz)) -> ~ commute m (x_only m lx) (z_only m lz) ->
  distance_at_least n (zd (stab c1)) d1 -> distance_at_least m (zd (stab c2)) d2 -> concatenate_codes c1 c2 = Ok (Some c) ->
  exists rows, init (Rows rows) (n * m) k None = Ok c /\ valid_generators (n * m) k (zd (stab c)) /\ even_ys (n * m) (zd (stab c)) /\ distance_at_least (n * m) (zd (stab c)) (d1 * d2).
Proof.
  intros I1 I2 V1 V2 E1 E2 EX EZ LX LZ BX BZ HCm HA D1 D2 CO.
  pose proof (C153_distance g1 g2 o1 o2 n k m c1 c2 lx lz c d1 d2 I1 I2 V1 V2 EX EZ LX LZ BX BZ HCm HA D1 D2 CO) as D.
  destruct (C22_rows g1 g2 o1 o2 n k m c1 c2 lx lz I1 I2 (proj1 (proj2 (proj2 (proj2 V1)))) EX EZ LX LZ BX BZ) as (rows & CC & E).
  rewrite E in CO. apply bind_ok in CO. destruct CO as (c' & I & [= ->]). destruct (C06_accepted_rows rows (n * m) k None c I) as (ER & _).
  destruct (init_inv _ _ _ _ _ I1) as (M1 & _ & _ & _ & _ & Hk1 & _).
  assert (VR : valid_generators (n * m) k rows).
  { apply (C95_concatenation_valid_partial n k n m 1 (fun j => j) (fun _ => x_only m lx) (fun _ => z_only m lz) (zd (stab c1)) (zd (stab c2)) rows V1 Hk1 V2); [destruct V2 as (P2 & N2 & _); lia|lia| |exact CC].
    split; [auto|]. split; [intros j r _ Hr; exact (HCm r Hr)|]. intros i j Hi Hj ->. split; [split; [intros Q; destruct (HA Q)|intros Q; destruct (Q eq_refl)]|]. split; apply commute_ip, ip_self. }
  assert (EV : even_ys (n * m) (zd (stab c))) by (rewrite ER; apply (concatenation_even n k m lx lz (zd (stab c1)) (zd (stab c2)) rows V1 Hk1 V2 VR LX LZ HA CC E1 E2)).
  assert (VC : valid_generators (n * m) k (zd (stab c))) by (rewrite ER; exact VR).
  exists rows. auto.
Qed.

(** ** C155 *)
(** the code concatenate_codes returns corrects with the package's own circuits every error
    on up to t qubits, when 2t+1 is at most the product of the distances *)
Theorem C155_corrects (K : StarRing) (h im : K) g1 g2 o1 o2 n k m c1 c2 lx lz c d1 d2 t (err : list (K * list (nat * (bool -> bool -> K)))) outs a : qubit_constants h im ->
  init g1 n k o1 = Ok c1 -> init g2 m 1 o2 = Ok c2 -> valid_generators n k (zd (stab c1)) -> valid_generators m 1 (zd (stab c2)) ->
  even_ys n (zd (stab c1)) -> even_ys m (zd (stab c2)) ->
  nth_error (zd (logical_x c2)) 0 = Some lx -> nth_error (zd (logical_z c2)) 0 = Some lz ->
  length lx = 2 * m -> length lz = 2 * m -> binary lx -> binary lz ->
  (forall r, In r (zd (stab c2)) -> commute m r (x_only m lx) /\ commute m r (z_only m lz)) -> ~ commute m (x_only m lx) (z_only m lz) ->
  distance_at_least n (zd (stab c1)) d1 -> distance_at_least m (zd (stab c2)) d2 -> concatenate_codes c1 c2 = Ok (Some c) ->
  2 * t + 1 <= d1 * d2 ->
  (forall p, In p err -> Forall (fun q => q < n * m) (touched (snd p)) /\ length (touched (snd p)) <= t) ->
  length outs = length (zd (normal_form c)) ->
  let message_ok l := forall p : K * list Z, In p l -> length (snd p) = k /\ binary (snd p) in
  let encoded l := superpose l (encode h im (n * m) c) in
  let measured l := measure_syndromes h im (n * m) c (zd (normal_form c)) outs (tensor (n * m) (superpose err (fun ops => noise ops (encoded l))) [a]) in
  ((exists corr, length corr = 2 * (n * m) /\ binary corr /\ weight (n * m) corr <= t /\ readings (n * m) (zd (normal_form c)) corr a = outs) \/
   (forall l, message_ok l -> eqs (n * m + 1) (measured l) (fun _ => s0))) /\
  forall corr, length corr = 2 * (n * m) -> binary corr -> weight (n * m) corr <= t -> readings (n * m) (zd (normal_form c)) corr a = outs ->
  exists z : K, forall l, message_ok l ->
  let corrected := exec h im [] (fst (apply_stabilizer_circuit (seq 0 (n * m)) (AsArray corr))) (drop_ancilla (last outs a) (measured l)) in
  eqs (n * m) corrected (sscale z (encoded l)) /\
  eqs (n * m + k) (exec h im [] (fst (decoding_circuit c (n * m) (seq 0 (n * m)) true false)) corrected)
    (sscale z (superpose l (fun st => tensor (n * m) (encode h im (n * m) c (repeat 0%Z k)) (message st)))).
Proof.
  intros HC I1 I2 V1 V2 E1 E2 EX EZ LX LZ BX BZ HCm HA D1 D2 CO HT HE LO message_ok encoded measured.
  destruct (concatenated_code g1 g2 o1 o2 n k m c1 c2 lx lz c d1 d2 I1 I2 V1 V2 E1 E2 EX EZ LX LZ BX BZ HCm HA D1 D2 CO) as (rows & I & VC & EV & D).
  assert (DN : distance_at_least (n * m) (zd (normal_form c)) (2 * t + 1)).
  { apply (C154_distance (Rows rows) (n * m) k None c (2 * t + 1) I); [exact (proj1 (proj2 (proj2 (proj2 VC))))|]. exact (distance_less _ _ _ _ HT D). }
  destruct (C113_any_error K h im (Rows rows) (n * m) k c t err outs a HC I VC EV DN HE LO) as (A & _ & B). split; [exact A|exact B].
Qed.
Print Assumptions C155_corrects.
(** the five-qubit code inside the Steane code corrects every error on up to four of its 35 qubits *)
Example C155_case : exists c1 c2 lx lz c, init (Strings five_qubit) 5 1 None = Ok c1 /\ init (Strings steane) 7 1 (Some (ZM 1 14 [repeat 1%Z 7 ++ repeat 0%Z 7], ZM 1 14 [repeat 0%Z 7 ++ repeat 1%Z 7])) = Ok c2 /\
  even_ys 5 (zd (stab c1)) /\ even_ys 7 (zd (stab c2)) /\ nth_error (zd (logical_x c2)) 0 = Some lx /\ nth_error (zd (logical_z c2)) 0 = Some lz /\ ~ commute 7 (x_only 7 lx) (z_only 7 lz) /\
  concatenate_codes c1 c2 = Ok (Some c) /\ 2 * 4 + 1 <= 3 * 3 /\ length (repeat false 34) = length (zd (normal_form c)).
Proof.
  eexists _, _, _, _, _. split; [calc|]. split; [calc|]. split; [repeat constructor|]. split; [repeat constructor|]. split; [reflexivity|]. split; [reflexivity|]. split; [apply decide_not_commute; reflexivity|].
  split; [calc|]. split; [lia|calc].
Qed.
