(** The rounds of the two design and of its inverse. *)
From Verif Require Import Py Scalar PauliModel PauliSpec EncoderProofs CircuitModel CircuitSpec CircuitProofs CircuitProofs2 OptimModel DeviceModel DeviceSpec DeviceProofs.
From Coq Require Import Reals Lra Permutation.
Open Scope nat_scope.

(** ** loops *)
Lemma combine_app {A B} (l l' : list A) : forall (m m' : list B), length l = length m -> combine (l ++ l') (m ++ m') = combine l m ++ combine l' m'.
Proof. induction l as [|x l IH]; intros [|y m] m' E; try discriminate; [reflexivity|]. cbn in *. rewrite IH by lia. reflexivity. Qed.
Lemma foldM_nested {A S} (g : A -> S -> A -> res S) (l : A -> list A) (L : list A) : forall st,
  foldM (fun st i => foldM (g i) (l i) st) L st = foldM (fun st ij => g (fst ij) st (snd ij)) (flat_map (fun i => map (pair i) (l i)) L) st.
Proof.
  assert (M : forall i m st, foldM (fun st ij => g (fst ij) st (snd ij)) (map (pair i) m) st = foldM (g i) m st).
  { intros i m. induction m as [|j m IH]; intros st; [reflexivity|]. cbn [map foldM fst snd]. destruct (g i st j); [apply IH|reflexivity]. }
  induction L as [|i L IH]; intros st; [reflexivity|]. cbn [flat_map foldM]. rewrite foldM_app, M. destruct (foldM (g i) (l i) st); [apply IH|reflexivity].
Qed.
Lemma foldM_filter {A S} (p : A -> bool) (f : S -> A -> res S) (L : list A) : forall st,
  foldM (fun st i => if p i then Ok st else f st i) L st = foldM f (filter (fun i => negb (p i)) L) st.
Proof.
  induction L as [|i L IH]; intros st; [reflexivity|]. cbn [foldM filter]. destruct (p i); [apply IH|]. cbn [negb foldM]. destruct (f st i); [apply IH|reflexivity].
Qed.
Lemma foldM_ext {A S} (f g : S -> A -> res S) (L : list A) : (forall st i, In i L -> f st i = g st i) -> forall st, foldM f L st = foldM g L st.
Proof.
  induction L as [|i L IH]; intros H st; [reflexivity|]. cbn [foldM]. rewrite H by (left; reflexivity). destruct (g st i); [|reflexivity]. apply IH. intros; apply H; right; assumption.
Qed.
Lemma filter_rev {A} (p : A -> bool) (l : list A) : filter p (rev l) = rev (filter p l).
Proof. induction l as [|x l IH]; [reflexivity|]. cbn [rev filter]. rewrite filter_app, IH. cbn [filter]. destruct (p x); [reflexivity|apply app_nil_r]. Qed.
Lemma flat_map_rev {A B} (f : A -> list B) (l : list A) : flat_map (fun x => rev (f x)) (rev l) = rev (flat_map f l).
Proof. induction l as [|x l IH]; [reflexivity|]. cbn [rev flat_map]. rewrite flat_map_app, IH, rev_app_distr. cbn [flat_map]. rewrite app_nil_r. reflexivity. Qed.

(** the pairs (i, j), i <> j, in the order of the loops *)
Definition pairs (n : nat) : list (nat * nat) := flat_map (fun i => map (pair i) (filter (fun j => negb (Nat.eqb i j)) (seq 0 n))) (seq 0 n).
Lemma pairs_in n i j : In (i, j) (pairs n) -> i < n /\ j < n /\ i <> j.
Proof.
  unfold pairs. rewrite in_flat_map. intros (i' & Hi & H). apply in_map_iff in H. destruct H as (j' & [= -> ->] & H). apply filter_In in H. destruct H as [H1 H2].
  apply in_seq in Hi, H1. apply negb_true_iff, Nat.eqb_neq in H2. lia.
Qed.
Definition reg (register : list nat) (i : nat) : nat := nth i register 0.

(** ** forward *)
Lemma choices_length l m : forall d, length (fst (choices l m d)) = m.
Proof. induction m as [|m IH]; intros d; cbn [choices]; [reflexivity|]. destruct (choice l d) as [x d1]. specialize (IH d1). destruct (choices l m d1). cbn in *. lia. Qed.
Lemma choices_in l m : l <> [] -> forall d, Forall (fun x => In x l) (fst (choices l m d)).
Proof.
  intros N. induction m as [|m IH]; intros d; cbn [choices]; [constructor|]. destruct (choice l d) as [x d1] eqn:E. specialize (IH d1). destruct (choices l m d1). cbn in *. constructor; [|exact IH].
  injection E as <- _. apply nth_In. apply Nat.mod_upper_bound. destruct l; [contradiction|discriminate].
Qed.

Section Round.
Variables (register : list nat) (n : nat).
Hypothesis L : length register = n.
Lemma reg_get i : i < n -> py_get register (Z.of_nat i) = Ok (reg register i).
Proof. intros H. apply py_get_nat. lia. Qed.

Definition single_cmds (l : list nat) (ps : list R) : list command := map (fun ip => PhaseGate [] (snd ip) (reg register (fst ip))) (combine l ps).
Definition pair_cmds (l : list (nat * nat)) (qs : list R) : list command := map (fun ip => PhaseGate [reg register (fst (fst ip))] (snd ip) (reg register (snd (fst ip)))) (combine l qs).

Lemma singles_run ps : length ps = n -> foldM (single_step register ps) (seq 0 n) ([], []) = Ok (single_cmds (seq 0 n) ps, ps).
Proof.
  intros Lp. assert (G : forall m, m <= n -> foldM (single_step register ps) (seq 0 m) ([], []) = Ok (single_cmds (seq 0 m) (firstn m ps), firstn m ps)).
  { induction m as [|m IH]; intros Hm; [reflexivity|]. rewrite seq_S, foldM_app, IH by lia. cbn [bind foldM plus single_step]. rewrite (py_get_nat ps m 0%R) by lia. cbn [bind]. rewrite reg_get by lia. cbn [bind].
    assert (F : firstn (S m) ps = firstn m ps ++ [nth m ps 0%R]).
    { clear IH. rewrite <- Lp in Hm. clear Lp. revert m Hm. induction ps as [|p l IHl]; intros m Hm; [cbn in Hm; lia|]. destruct m; [reflexivity|]. cbn [length] in Hm. cbn [nth]. change (firstn (S (S m)) (p :: l)) with (p :: firstn (S m) l). rewrite IHl by lia. reflexivity. }
    rewrite F. f_equal. f_equal. unfold single_cmds. rewrite combine_app by (rewrite seq_length, firstn_length; lia). rewrite map_app. reflexivity. }
  rewrite (G n) by lia. rewrite firstn_all2 by lia. reflexivity.
Qed.
Definition pair_body (st : list command * list R * list nat) (ij : nat * nat) : res (list command * list R * list nat) :=
  let '(cmds, used, draws) := st in
  let '(p, draws) := choice phases2 draws in
  Ok (cmds ++ [PhaseGate [reg register (fst ij)] p (reg register (snd ij))], used ++ [p], draws).
Lemma pairs_flat st : foldM (pairs_step register n) (seq 0 n) st = foldM pair_body (pairs n) st.
Proof.
  rewrite (foldM_ext _ (fun st i => foldM (fun st j => pair_body st (i, j)) (filter (fun j => negb (Nat.eqb i j)) (seq 0 n)) st)).
  - rewrite (foldM_nested (fun i st j => pair_body st (i, j)) (fun i => filter (fun j => negb (Nat.eqb i j)) (seq 0 n))). fold (pairs n). apply foldM_ext. intros st' [i j] _. reflexivity.
  - intros st' i Hi. apply in_seq in Hi. unfold pairs_step. rewrite reg_get by lia. cbn [bind]. rewrite <- foldM_filter. apply foldM_ext. intros [[c u] d] j Hj. apply in_seq in Hj. cbn [pair_step].
    destruct (Nat.eqb i j); [reflexivity|]. unfold pair_body. destruct (choice phases2 d) as [p d1]. rewrite reg_get by lia. reflexivity.
Qed.
Lemma pairs_run P : forall cmds used d, foldM pair_body P (cmds, used, d) =
  Ok (cmds ++ pair_cmds P (fst (choices phases2 (length P) d)), used ++ fst (choices phases2 (length P) d), snd (choices phases2 (length P) d)).
Proof.
  induction P as [|ij P IH]; intros cmds used d; [cbn; rewrite !app_nil_r; reflexivity|]. cbn [foldM length choices]. unfold pair_body at 1. destruct (choice phases2 d) as [p d1]. cbn [bind]. rewrite IH.
  destruct (choices phases2 (length P) d1) as [qs d2]. cbn [fst snd]. unfold pair_cmds. cbn [combine map fst snd]. rewrite <- !app_assoc. reflexivity.
Qed.
(** what one round sends *)
Definition forward (ps qs : list R) : list command := single_cmds (seq 0 n) ps ++ pair_cmds (pairs n) qs ++ map Hadamard register.
Definition round_phases (d : list nat) : list R * list R * list nat :=
  let '(ps, d1) := choices phases3 n d in let '(qs, d2) := choices phases2 (length (pairs n)) d1 in (ps, qs, d2).
Lemma design_round_run d : exists ps qs d', design_round register n d = Ok (forward ps qs, ps ++ qs, d') /\ round_phases d = (ps, qs, d') /\
  length ps = n /\ length qs = length (pairs n) /\ Forall (fun x => In x phases2) qs.
Proof.
  unfold design_round, round_phases. pose proof (choices_length phases3 n d) as L1. destruct (choices phases3 n d) as [ps d1]. cbn [fst] in L1. rewrite (singles_run ps L1). cbn [bind].
  rewrite pairs_flat, pairs_run. cbn [bind]. pose proof (choices_length phases2 (length (pairs n)) d1) as L2. pose proof (choices_in phases2 (length (pairs n)) ltac:(discriminate) d1) as I2.
  destruct (choices phases2 (length (pairs n)) d1) as [qs d2]. cbn [fst snd] in *. exists ps, qs, d2. rewrite <- app_assoc. auto.
Qed.

(** ** backward *)
Lemma py_get_back {A} (X Y : list A) (y : A) k : length Y = k -> py_get (X ++ y :: Y) (- Z.of_nat (S k)) = Ok y.
Proof.
  intros E. unfold py_get. assert (B : (- Z.of_nat (S k) <? 0)%Z = true) by (apply Z.ltb_lt; lia). rewrite B, app_length. cbn [length].
  replace (- Z.of_nat (S k) + Z.of_nat (length X + S (length Y)))%Z with (Z.of_nat (length X)) by lia.
  assert (B2 : (Z.of_nat (length X) <? 0)%Z = false) by (apply Z.ltb_ge; lia). rewrite B2, Nat2Z.id, nth_error_app2, Nat.sub_diag by lia. reflexivity.
Qed.
Section Back.
Variables (A : Type) (phases : list R) (step : list command * Z -> A -> res (list command * Z)) (mk : A -> R -> command).
Hypothesis ST : forall cmds counter x, step (cmds, counter) x = do p <- py_get phases (- counter); Ok (cmds ++ [mk x p], (counter + 1)%Z).
Lemma back_run l : forall ys X Y cmds, phases = X ++ rev ys ++ Y -> length ys = length l ->
  foldM step l (cmds, Z.of_nat (S (length Y))) = Ok (cmds ++ map (fun xy => mk (fst xy) (snd xy)) (combine l ys), Z.of_nat (S (length Y + length l))).
Proof.
  induction l as [|x l IH]; intros ys X Y cmds E Ly.
  - cbn. rewrite app_nil_r, Nat.add_0_r. reflexivity.
  - destruct ys as [|y ys]; [discriminate|]. cbn [foldM]. rewrite ST. cbn [rev] in E. rewrite <- app_assoc in E. cbn [List.app] in E. rewrite app_assoc in E. rewrite E at 1. rewrite py_get_back by reflexivity. cbn [bind].
    rewrite <- app_assoc in E. replace (Z.of_nat (S (length Y)) + 1)%Z with (Z.of_nat (S (length (y :: Y)))) by (cbn [length]; lia). rewrite (IH ys X (y :: Y)); [|exact E|cbn in Ly; lia].
    cbn [combine map fst snd length]. rewrite <- app_assoc. f_equal. f_equal. lia.
Qed.
End Back.
Definition inv_pair_body (phases : list R) (st : list command * Z) (ij : nat * nat) : res (list command * Z) :=
  let '(cmds, counter) := st in
  do p <- py_get phases (- counter); Ok (cmds ++ [PhaseGate [reg register (fst ij)] p (reg register (snd ij))], (counter + 1)%Z).
Definition inv_single_body (phases : list R) (st : list command * Z) (i : nat) : res (list command * Z) :=
  let '(cmds, counter) := st in
  do p <- py_get phases (- counter); Ok (cmds ++ [PhaseGate [] (- p)%R (reg register i)], (counter + 1)%Z).
Lemma rev_pairs : flat_map (fun i => map (pair i) (filter (fun j => negb (Nat.eqb i j)) (rev (seq 0 n)))) (rev (seq 0 n)) = rev (pairs n).
Proof.
  unfold pairs. rewrite <- flat_map_rev. apply flat_map_ext_in. intros i _. rewrite filter_rev, map_rev. reflexivity.
Qed.
Lemma inv_pairs_flat phases st : foldM (inv_pairs_step register phases n) (rev (seq 0 n)) st = foldM (inv_pair_body phases) (rev (pairs n)) st.
Proof.
  rewrite (foldM_ext _ (fun st i => foldM (fun st j => inv_pair_body phases st (i, j)) (filter (fun j => negb (Nat.eqb i j)) (rev (seq 0 n))) st)).
  - rewrite (foldM_nested (fun i st j => inv_pair_body phases st (i, j)) (fun i => filter (fun j => negb (Nat.eqb i j)) (rev (seq 0 n)))). rewrite rev_pairs. apply foldM_ext. intros st' [i j] _. reflexivity.
  - intros st' i Hi. apply in_rev, in_seq in Hi. unfold inv_pairs_step. rewrite reg_get by lia. cbn [bind]. rewrite <- foldM_filter. apply foldM_ext. intros [c k] j Hj. apply in_rev, in_seq in Hj. cbn [inv_pair_step].
    destruct (Nat.eqb i j); [reflexivity|]. unfold inv_pair_body. destruct (py_get phases (- k)); [|reflexivity]. cbn [bind]. rewrite reg_get by lia. reflexivity.
Qed.
Definition backward (ps qs : list R) : list command :=
  map Hadamard register ++ rev (pair_cmds (pairs n) qs) ++ rev (single_cmds (seq 0 n) (map Ropp ps)).
Lemma combine_rev {A B} (l : list A) (m : list B) : length l = length m -> combine (rev l) (rev m) = rev (combine l m).
Proof.
  revert m. induction l as [|x l IH]; intros [|y m] E; try discriminate; [reflexivity|]. cbn [rev combine]. cbn in E. rewrite combine_app by (rewrite !rev_length; lia). rewrite IH by lia. reflexivity.
Qed.
Lemma combine_map_r {A B C} (f : B -> C) (l : list A) : forall m, combine l (map f m) = map (fun p => (fst p, f (snd p))) (combine l m).
Proof. induction l as [|x l IH]; intros [|y m]; try reflexivity. cbn. rewrite IH. reflexivity. Qed.
Lemma inverse_round_run ps qs : length ps = n -> length qs = length (pairs n) -> inverse_round register n (ps ++ qs) = Ok (backward ps qs).
Proof.
  intros L1 L2. unfold inverse_round. rewrite inv_pairs_flat.
  rewrite (back_run _ (ps ++ qs) (inv_pair_body (ps ++ qs)) (fun ij p => PhaseGate [reg register (fst ij)] p (reg register (snd ij))) ltac:(reflexivity) (rev (pairs n)) (rev qs) ps []);
    [|rewrite rev_involutive, app_nil_r; reflexivity|rewrite !rev_length; exact L2]. cbn [bind length].
  rewrite (foldM_ext _ (inv_single_body (ps ++ qs))).
  2:{ intros [c k] i Hi. apply in_rev, in_seq in Hi. unfold inv_single_step. unfold inv_single_body. destruct (py_get (ps ++ qs) (- k)); [|reflexivity]. cbn [bind]. rewrite reg_get by lia. reflexivity. }
  rewrite rev_length, <- L2. change (0 + length qs) with (length qs).
  rewrite (back_run _ (ps ++ qs) (inv_single_body (ps ++ qs)) (fun i p => PhaseGate [] (- p)%R (reg register i)) ltac:(reflexivity) (rev (seq 0 n)) (rev ps) [] qs);
    [|rewrite rev_involutive; reflexivity|rewrite !rev_length, seq_length; exact L1]. cbn [bind].
  unfold backward. rewrite <- app_assoc. f_equal. f_equal. rewrite (combine_rev (pairs n) qs) by lia. rewrite (combine_rev (seq 0 n) ps); [|rewrite seq_length; lia]. rewrite !map_rev. f_equal.
  f_equal. unfold single_cmds. rewrite combine_map_r, map_map. reflexivity.
Qed.

(** ** cancellation *)
Section Cancel.
Variables (ids : list nat).
Hypothesis ND : NoDup register.
Hypothesis IN : incl register ids.
Lemma reg_in i : i < n -> In (reg register i) ids.
Proof. intros H. apply IN, nth_In. lia. Qed.
Lemma forward_on ps qs : Forall (on_qubits ids) (forward ps qs).
Proof.
  unfold forward. rewrite !Forall_app. repeat split; rewrite Forall_forall.
  - intros c H. apply in_map_iff in H. destruct H as ([i p] & <- & H). apply in_combine_l, in_seq in H. cbn. split; [constructor|apply reg_in; lia].
  - intros c H. apply in_map_iff in H. destruct H as ([[i j] p] & <- & H). apply in_combine_l, pairs_in in H. cbn. split; [constructor; [|constructor]|]; apply reg_in; lia.
  - intros c H. apply in_map_iff in H. destruct H as (q & <- & H). apply IN, H.
Qed.
Lemma backward_on ps qs : Forall (on_qubits ids) (backward ps qs).
Proof.
  pose proof (forward_on (map Ropp ps) qs) as H. unfold forward in H. unfold backward. rewrite !Forall_app in *. destruct H as (H1 & H2 & H3). repeat split; [exact H3|apply Forall_rev, H2|apply Forall_rev, H1].
Qed.
Lemma phase2_square x : In x phases2 -> cexp (x + x) = s1.
Proof.
  intros [<-|[<-|[]]]; [rewrite Rplus_0_r; apply cexp_0|]. replace (PI + PI)%R with (2 * PI)%R by ring. unfold cexp. rewrite cos_2PI, sin_2PI. reflexivity.
Qed.
Lemma round_cancels ps qs : Forall (fun x => In x phases2) qs -> forall psi, eqs (length ids) (gacts ids (backward ps qs) (gacts ids (forward ps qs) psi)) psi.
Proof.
  intros F psi. unfold backward, forward. rewrite !gacts_app. eapply eqs_trans; [apply gacts_eqs, gacts_eqs, (h_block ids register ND IN)|].
  eapply eqs_trans; [apply gacts_eqs|].
  - apply cancel_list. unfold pair_cmds. generalize (pairs n). intros P. clear -F. revert P. induction F as [|q qs Hq F IH]; intros [|[i j] P]; cbn [combine map]; try constructor; [|apply IH].
    apply phase_cancels. cbn [snd]. apply phase2_square, Hq.
  - apply cancel_list. unfold single_cmds. generalize (seq 0 n). intros P. clear. revert P. induction ps as [|p ps IH]; intros [|i P]; cbn [combine map]; try constructor; [|apply IH].
    apply phase_cancels. cbn [snd]. replace (- p + p)%R with 0%R by ring. apply cexp_0.
Qed.
End Cancel.
End Round.
