From Verif Require Import Py Scalar PauliModel PauliSpec KrausModel KrausSpec KrausProofs KrausProofs2 KrausProofs3 KrausProofs4 KrausProofs10 ChannelModel ChannelSpec SetterModel SetterSpec.
Open Scope nat_scope.
Section P.
Context {K : StarRing}.
Add Ring KSet : (s_rt K).
Implicit Types o : kraus K.
Definition onto (t : ten3 K) (k : nat) (b : ten3 K) : ten3 K := Nat.iter k (np_kron3 t) b.
Definition conj_ok o : Prop := sparse o = true -> nth_conj o = ctrans (nth_ops o).
Lemma loop_any o s m :
  let o' := fold_left (fun o _ => tensor_step (kraus_ops o) (nth_ops o) o) (seq s m) o in
  static o o' /\ nth_ops o' = onto (kraus_ops o) m (nth_ops o) /\ (1 <= m -> conj_ok o').
Proof.
  induction m as [|m IH].
  - cbn. split; [apply static_refl|]. split; [reflexivity|lia].
  - cbn zeta in *. rewrite seq_S, fold_left_app. cbn [fold_left]. set (o1 := fold_left _ _ o) in *. destruct IH as (S1 & E1 & C1).
    destruct S1 as (S1 & S2 & S3 & S4 & S5 & S6 & S7). unfold tensor_step, conj_ok. rewrite S1, S2. split; [|split].
    + destruct (sparse o) eqn:SP; repeat split; cbn; congruence.
    + cbn [set_nth nth_ops]. rewrite E1. reflexivity.
    + intros _ H. destruct (sparse o) eqn:SP; cbn in *; [reflexivity|congruence].
Qed.
(** one update, from any state *)
Lemma update_any o n : 1 <= n -> 1 <= current_n o -> let o' := fst (update_kraus_operators o n) in
  static o o' /\ current_n o' = n /\
  (current_n o < n -> nth_ops o' = onto (kraus_ops o) (n - current_n o) (nth_ops o)) /\
  (n < current_n o -> nth_ops o' = power3 (kraus_ops o) n) /\
  (n = current_n o -> nth_ops o' = nth_ops o /\ nth_conj o' = nth_conj o) /\
  (2 <= n -> n <> current_n o -> conj_ok o') /\
  (conj_ok o' -> snd (update_kraus_operators o n) = Ok tt /\ nth_exch o' = exch3 (nth_ops o')).
Proof.
  intros Hn Hc. unfold update_kraus_operators. set (o1 := if Nat.ltb (current_n o) n then _ else _).
  assert (G : static o o1 /\ (current_n o < n -> nth_ops o1 = onto (kraus_ops o) (n - current_n o) (nth_ops o)) /\ (n < current_n o -> nth_ops o1 = power3 (kraus_ops o) n) /\
     (n = current_n o -> nth_ops o1 = nth_ops o /\ nth_conj o1 = nth_conj o) /\ (2 <= n -> n <> current_n o -> conj_ok o1)).
  { unfold o1. clear o1. destruct (Nat.ltb_spec (current_n o) n) as [Hlt|Hge].
    - pose proof (loop_any o (current_n o) (n - current_n o)) as (S1 & E1 & C1). split; [exact S1|]. split; [intros _; exact E1|]. split; [lia|]. split; [lia|]. intros _ _. apply C1. lia.
    - destruct (Nat.ltb_spec n (current_n o)) as [Hlt|Hge'].
      + destruct (Nat.eqb_spec n 1) as [->|N1]; [split; [repeat split|]; split; [lia|]; split; [reflexivity|]; split; lia|].
        set (ob := tensor_step (kraus_ops o) (kraus_ops o) o).
        assert (S0 : static o ob) by (unfold ob, tensor_step; destruct (sparse o) eqn:SP; repeat split; cbn; congruence).
        assert (E0 : nth_ops ob = power3 (kraus_ops ob) 2) by (unfold ob, tensor_step; destruct (sparse o); reflexivity).
        assert (C0 : conj_ok ob) by (unfold conj_ok, ob, tensor_step; destruct (sparse o) eqn:SP; cbn; [reflexivity|congruence]).
        pose proof (step_loop ob 0 2 ltac:(lia) E0 (n - 2)) as (S1 & E1 & C1). destruct S0 as (S01 & S02 & S0).
        split; [eapply static_trans; [split; [exact S01|split; [exact S02|exact S0]]|exact S1]|].
        split; [lia|]. split; [intros _; rewrite E1, S02; f_equal; lia|]. split; [lia|]. intros _ _ SP. destruct S1 as (S11 & _). rewrite S11 in SP. apply C1; [left; exact C0|exact SP].
      + split; [apply static_refl|]. split; [lia|]. split; [lia|]. split; [auto|lia]. }
  clearbody o1. destruct G as ((S1 & S2 & S3 & S4 & S5 & S6 & S7) & A & B & C & D).
  destruct (kraus_operators_exchange (set_n o1 n)) as [e|e] eqn:X; cbn [fst snd].
  - split; [repeat split; assumption|]. split; [reflexivity|]. split; [exact A|]. split; [exact B|]. split; [exact C|]. split; [exact D|].
    intros CO. split; [reflexivity|]. rewrite exchange_fresh in X by exact CO. injection X as <-. reflexivity.
  - split; [repeat split; assumption|]. split; [reflexivity|]. split; [exact A|]. split; [exact B|]. split; [exact C|]. split; [exact D|].
    intros CO. rewrite exchange_fresh in X by exact CO. discriminate.
Qed.
Lemma edited_pos o l : 1 <= current_n o -> Forall uses l -> 1 <= current_n (edited o l).
Proof.
  revert o. induction l as [|e l IH]; intros o H F; [exact H|]. cbn [edited fold_left]. apply IH; [|exact (Forall_inv_tail F)]. pose proof (Forall_inv F) as U.
  destruct e as [n|t|t]; cbn in *; [|exact H|exact H]. destruct (update_any o n U H) as (_ & -> & _). exact U.
Qed.
Lemma edited_sparse o l : 1 <= current_n o -> Forall uses l -> sparse (edited o l) = sparse o.
Proof.
  revert o. induction l as [|e l IH]; intros o H F; [reflexivity|]. cbn [edited fold_left]. pose proof (Forall_inv F) as U. apply Forall_inv_tail in F.
  destruct e as [n|t|t]; cbn in U; [|apply (IH (assign_kraus_ops o t)); assumption|apply (IH (assign_nth_kraus_ops o t)); assumption].
  destruct (update_any o n U H) as ((S & _) & C & _). rewrite <- S. apply IH; [rewrite C; exact U|exact F].
Qed.
Lemma init_pos sp a nq din dout orthogonal o : kraus_init sp a nq din dout orthogonal = Ok o -> current_n o = 1 /\ sparse o = sp.
Proof.
  unfold kraus_init. destruct (arg_array a); [|discriminate]. cbn [bind]. match goal with |- context[foldM ?f ?l tt] => destruct (foldM f l tt) end; [|discriminate]. cbn [bind].
  match goal with |- context[kraus_operators_exchange ?x] => destruct (kraus_operators_exchange x) end; [|discriminate]. cbn [bind]. intros [= <-]. split; reflexivity.
Qed.
(** a state in which the operators are powers of the one-use operators *)
Definition pure o : Prop := consistent o /\ (2 <= current_n o -> conj_ok o).
Lemma pure_step o n : 1 <= n -> 1 <= current_n o -> pure o \/ n < current_n o -> pure (fst (update_kraus_operators o n)).
Proof.
  intros Hn Hc [[C P]|L].
  - destruct (update_kraus_operators o n) as [o' r] eqn:E. destruct (update_spec o n o' r E C Hn) as (S & C' & N & P' & _); [intros H; apply P, H|].
    split; [exact C'|]. rewrite <- N in P'. exact P'.
  - destruct (update_any o n Hn Hc) as (S & N & _ & B & _ & D & _). set (o' := fst (update_kraus_operators o n)) in *. split; [split; [rewrite N; exact Hn|]|].
    + rewrite (B L), N. destruct S as (_ & -> & _). reflexivity.
    + intros H. rewrite N in H. apply D; lia.
Qed.
Lemma run_pos o l : 1 <= current_n o -> Forall (fun m => 1 <= m) l -> 1 <= current_n (run_updates o l) /\ static o (run_updates o l) /\ current_n (run_updates o l) = last l (current_n o).
Proof.
  revert o. induction l as [|n l IH]; intros o H F; [split; [exact H|split; [apply static_refl|reflexivity]]|].
  pose proof (Forall_inv F) as U. cbn beta in U. apply Forall_inv_tail in F. destruct (update_any o n U H) as (S & C & _).
  cbn [run_updates fold_left]. set (o' := fst (update_kraus_operators o n)) in *. destruct (IH o') as (A & B & D); [lia|exact F|]. split; [exact A|]. split; [eapply static_trans; eassumption|].
  unfold run_updates in D. rewrite D, C. destruct l as [|m l]; [reflexivity|]. change (last (n :: m :: l) (current_n o)) with (last (m :: l) (current_n o)).
  clear. revert m. induction l as [|x l IH]; intros m; [reflexivity|]. exact (IH x).
Qed.
Lemma run_pure o l : 1 <= current_n o -> Forall (fun m => 1 <= m) l -> pure o \/ goes_down (current_n o :: l) -> pure (run_updates o l).
Proof.
  revert o. induction l as [|n l IH]; intros o H F G; [destruct G as [G|(p & x & y & s & E & L)]; [exact G|]; exfalso; destruct p as [|a [|b p]]; discriminate E|].
  pose proof (Forall_inv F) as U. cbn beta in U. apply Forall_inv_tail in F. destruct (update_any o n U H) as (S & C & _). cbn [run_updates fold_left]. apply IH; [lia|exact F|].
  destruct (Nat.lt_ge_cases n (current_n o)) as [L|L]; [left; apply pure_step; auto|].
  destruct G as [G|(p & x & y & s & E & L')]; [left; apply pure_step; auto|]. right. rewrite C. destruct p as [|a p].
  - injection E as E1 E2 E3. lia.
  - injection E as E1 E. exists p, x, y, s. split; assumption.
Qed.
Lemma run_snoc o l n : run_updates o (l ++ [n]) = fst (update_kraus_operators (run_updates o l) n).
Proof. unfold run_updates. rewrite fold_left_app. reflexivity. Qed.

(** ** what operators and answers there are *)
Lemma fresh_shows o ops : fresh o -> same_ops (slices (nth_ops o)) ops -> behaves_as o ops (t1 (nth_ops o)) (t2 (nth_ops o)).
Proof.
  intros F S. split; [exact S|]. split; [destruct F as [_ ->]; apply exch3_tensor, S|]. intros rho R. destruct (channel_value o rho F R) as (out & E & D1 & D2 & V).
  exists out. split; [exact E|]. split; [split; assumption|]. intros i j Hi Hj. rewrite V. apply (channel_map_same _ _ _ _ _ _ (fits_slices (nth_ops o)) S); auto. intros x y _ _. reflexivity.
Qed.
Lemma lowered o B past n : 1 <= current_n o -> kraus_ops o = B -> Forall (fun m => 1 <= m) past -> 1 <= n -> goes_down (current_n o :: past ++ [n]) -> sparse o = false \/ 2 <= n ->
  let o' := run_updates o (past ++ [n]) in snd (update_kraus_operators (run_updates o past) n) = Ok tt /\ current_n o' = n /\ behaves_as o' (power_ops (slices B) n) (t1 B ^ n) (t2 B ^ n).
Proof.
  intros H EB F Hn G SP o'. assert (F' : Forall (fun m => 1 <= m) (past ++ [n])) by (apply Forall_app; split; [exact F|repeat constructor; exact Hn]).
  destruct (run_pos o past H F) as (P1 & P2 & _). pose proof (run_pure o (past ++ [n]) H F' (or_intror G)) as [[Q1 Q2] Q3]. fold o' in Q1, Q2, Q3.
  destruct (update_any (run_updates o past) n Hn P1) as (S & C & _ & _ & _ & _ & X). rewrite <- run_snoc in S, C, X. fold o' in S, C, X.
  assert (ST : static o o') by (eapply static_trans; eassumption). destruct ST as (T1 & T2 & _).
  assert (CO : conj_ok o') by (destruct SP as [SP|SP]; [intros Y; congruence|apply Q3; lia]).
  destruct (X CO) as [X1 X2]. split; [exact X1|]. split; [exact C|]. rewrite C, T2, EB in Q2.
  destruct (power3_dims B n Hn) as (_ & D1 & D2). rewrite <- D1, <- D2, <- Q2. apply fresh_shows; [split; assumption|]. rewrite Q2. apply slices_power, Hn.
Qed.
Lemma tens_assoc_mat (A B C : marr K) : same_mat (tens (tens A B) C) (tens A (tens B C)).
Proof.
  split; [cbn; lia|]. split; [cbn; lia|]. intros i j Hi Hj. cbn [tens mr mc me] in *.
  assert (P : mr C <> 0) by (intros E; rewrite E in Hi; lia). assert (Q : mc C <> 0) by (intros E; rewrite E in Hj; lia).
  assert (P' : mr B <> 0) by (intros E; rewrite E in Hi; lia). assert (Q' : mc B <> 0) by (intros E; rewrite E in Hj; lia).
  rewrite !Nat.div_div by assumption. rewrite (Nat.mul_comm (mr C)), (Nat.mul_comm (mc C)).
  assert (M : forall x b c, b <> 0 -> c <> 0 -> (x mod (b * c)) / c = (x / c) mod b /\ (x mod (b * c)) mod c = x mod c).
  { intros x b c Hb Hc. rewrite (Nat.mul_comm b c), Nat.mod_mul_r by assumption. rewrite (Nat.mul_comm c), Nat.div_add by assumption. rewrite Nat.div_small by (apply Nat.mod_upper_bound; assumption).
    split; [reflexivity|]. rewrite Nat.mod_add by assumption. apply Nat.mod_mod; assumption. }
  destruct (M i (mr B) (mr C) P' P) as [-> ->]. destruct (M j (mc B) (mc C) Q' Q) as [-> ->]. ring.
Qed.
Lemma tens_ops_assoc (l m p : list (marr K)) : same_ops (tens_ops (tens_ops l m) p) (tens_ops l (tens_ops m p)).
Proof.
  unfold tens_ops. induction l as [|A l IH]; [constructor|]. cbn [flat_map]. rewrite flat_map_app. apply same_ops_app; [|exact IH]. clear IH.
  induction m as [|B m IH]; [constructor|]. cbn [map flat_map]. rewrite map_app. apply same_ops_app; [|exact IH]. clear IH.
  induction p as [|C p IH]; [constructor|]. cbn [map]. constructor; [apply tens_assoc_mat|exact IH].
Qed.
Lemma tens_one_l (A : marr K) : same_mat (tens one_by_one A) A.
Proof.
  split; [cbn; lia|]. split; [cbn; lia|]. intros i j Hi Hj. cbn [tens mr mc me one_by_one] in *. rewrite Nat.mul_1_l in Hi, Hj. rewrite !Nat.mod_small by assumption. ring.
Qed.
Lemma tens_ops_one_l (l : list (marr K)) : same_ops (tens_ops [one_by_one] l) l.
Proof. unfold tens_ops. cbn [flat_map]. rewrite app_nil_r. induction l as [|A l IH]; [constructor|]. constructor; [apply tens_one_l|exact IH]. Qed.
Lemma slices_onto t k b : same_ops (slices (onto t k b)) (tens_ops (power_ops (slices t) k) (slices b)).
Proof.
  induction k as [|k IH]; [apply same_ops_sym, tens_ops_one_l|]. cbn [onto Nat.iter power_ops]. eapply same_ops_trans; [apply slices_kron|].
  eapply same_ops_trans; [|apply same_ops_sym, tens_ops_assoc]. apply tens_ops_same; [apply same_ops_refl|exact IH].
Qed.
Lemma onto_onto t k m b : onto t k (onto t m b) = onto t (k + m) b.
Proof. induction k as [|k IH]; [reflexivity|]. change (np_kron3 t (onto t k (onto t m b)) = np_kron3 t (onto t (k + m) b)). rewrite IH. reflexivity. Qed.
Lemma onto_dims t k b : t1 (onto t k b) = t1 t ^ k * t1 b /\ t2 (onto t k b) = t2 t ^ k * t2 b.
Proof. induction k as [|k [I1 I2]]; [cbn; lia|]. change (onto t (S k) b) with (np_kron3 t (onto t k b)). cbn [np_kron3 t1 t2 Nat.pow]. rewrite I1, I2. lia. Qed.
Lemma run_onto o l : 1 <= current_n o -> climbs (current_n o) l -> 
  current_n o <= current_n (run_updates o l) /\ nth_ops (run_updates o l) = onto (kraus_ops o) (current_n (run_updates o l) - current_n o) (nth_ops o).
Proof.
  revert o. induction l as [|n l IH]; intros o H F; [cbn; rewrite Nat.sub_diag; split; [lia|reflexivity]|]. destruct F as [L F].
  destruct (update_any o n ltac:(lia) H) as (S & C & A & _ & B & _). change (run_updates o (n :: l)) with (run_updates (fst (update_kraus_operators o n)) l).
  set (o' := fst (update_kraus_operators o n)) in *. destruct (IH o') as [I1 I2]; [lia|rewrite C; exact F|]. split; [lia|]. rewrite I2. destruct S as (_ & -> & _).
  assert (N : nth_ops o' = onto (kraus_ops o) (n - current_n o) (nth_ops o)).
  { destruct (Nat.eq_dec n (current_n o)) as [E|NE]; [|apply A; lia]. destruct (B E) as [-> _]. rewrite E, Nat.sub_diag. reflexivity. }
  rewrite N, onto_onto. f_equal. lia.
Qed.
Lemma run_up_conj o l : 1 <= current_n o -> climbs (current_n o) l -> current_n o < current_n (run_updates o l) -> conj_ok (run_updates o l).
Proof.
  revert o. induction l as [|n l IH]; intros o H F L; [cbn in L; lia|]. destruct F as [L' F]. change (run_updates o (n :: l)) with (run_updates (fst (update_kraus_operators o n)) l) in *.
  destruct (update_any o n ltac:(lia) H) as (S & C & _ & _ & B & D & _). set (o' := fst (update_kraus_operators o n)) in *.
  destruct (Nat.eq_dec n (current_n (run_updates o' l))) as [E|NE]; [|apply IH; [lia|rewrite C; exact F|]; destruct (run_onto o' l) as [Q _]; [lia|rewrite C; exact F|]; lia].
  assert (G : forall m p, conj_ok p -> 1 <= current_n p -> climbs (current_n p) m -> conj_ok (run_updates p m)).
  { induction m as [|x m IHm]; intros p CP HP CL; [exact CP|]. destruct CL as [c1 c2]. change (run_updates p (x :: m)) with (run_updates (fst (update_kraus_operators p x)) m).
    destruct (update_any p x ltac:(lia) HP) as (S' & C' & _ & _ & B' & D' & _). apply IHm; [|lia|rewrite C'; exact c2].
    destruct (Nat.eq_dec x (current_n p)) as [E'|NE']; [|apply D'; lia]. destruct (B' E') as [Y1 Y2]. intros SP. destruct S' as (S' & _). rewrite Y1, Y2. apply CP. congruence. }
  apply G; [apply D; lia|lia|rewrite C; exact F].
Qed.
Lemma climbs_snoc from l n : climbs from (l ++ [n]) -> climbs from l.
Proof. revert from. induction l as [|x l IH]; intros from; [intros _; exact I|]. cbn. intros [A B]. split; [exact A|apply IH, B]. Qed.
Lemma climbs_pos from l : 1 <= from -> climbs from l -> Forall (fun m => 1 <= m) l.
Proof. revert from. induction l as [|x l IH]; intros from H C; [constructor|]. destruct C as [A B]. constructor; [lia|apply (IH x); [lia|exact B]]. Qed.
Lemma raised o B past n : 1 <= current_n o -> kraus_ops o = B -> climbs (current_n o) (past ++ [n]) -> sparse o = false \/ current_n o < n ->
  let o' := run_updates o (past ++ [n]) in let k := n - current_n o in
  snd (update_kraus_operators (run_updates o past) n) = Ok tt /\ current_n o' = n /\
  behaves_as o' (tens_ops (power_ops (slices B) k) (slices (nth_ops o))) (t1 B ^ k * t1 (nth_ops o)) (t2 B ^ k * t2 (nth_ops o)).
Proof.
  intros H EB F SP o' k. pose proof (climbs_pos _ _ H F) as F'. apply Forall_app in F'. destruct F' as [F1 F2]. apply Forall_inv in F2. 
  destruct (run_pos o past H F1) as (P1 & P2 & _). destruct (run_onto o (past ++ [n]) H F) as [R1 R2]. fold o' in R1, R2.
  destruct (update_any (run_updates o past) n F2 P1) as (S & C & _ & _ & _ & _ & X). rewrite <- run_snoc in S, C, X. fold o' in S, C, X.
  assert (ST : static o o') by (eapply static_trans; eassumption). destruct ST as (T1 & T2 & _).
  assert (CO : conj_ok o') by (destruct SP as [SP|SP]; [intros Y; congruence|apply run_up_conj; [exact H|exact F|fold o'; lia]]).
  destruct (X CO) as [X1 X2]. split; [exact X1|]. split; [exact C|]. rewrite C, EB in R2. fold k in R2.
  destruct (onto_dims B k (nth_ops o)) as (D1 & D2). rewrite <- D1, <- D2, <- R2. apply fresh_shows; [split; assumption|]. rewrite R2. apply slices_onto.
Qed.
Lemma update_len o m : numb_kraus (fst (update_kraus_operators o m)) = numb_kraus o.
Proof.
  assert (T : forall x y o, numb_kraus (tensor_step x y o) = numb_kraus o) by (intros; unfold tensor_step; destruct (sparse _); reflexivity).
  assert (FT : forall (l : list nat) o, numb_kraus (fold_left (fun o _ => tensor_step (kraus_ops o) (nth_ops o) o) l o) = numb_kraus o) by (induction l as [|i l IH]; intros p; [reflexivity|cbn [fold_left]; rewrite IH; apply T]).
  unfold update_kraus_operators. set (o1 := if Nat.ltb (current_n o) m then _ else _).
  assert (E1 : numb_kraus o1 = numb_kraus o). { unfold o1. destruct (Nat.ltb (current_n o) m); [apply FT|]. destruct (Nat.ltb m (current_n o)); [|reflexivity]. destruct (Nat.eqb m 1); [reflexivity|]. rewrite FT. apply T. }
  destruct (kraus_operators_exchange _); exact E1.
Qed.
Lemma edited_len o h : kraus_len (edited o h) = kraus_len o.
Proof.
  revert o. unfold edited. induction h as [|e h IH]; intros o; [reflexivity|]. cbn [fold_left]. rewrite IH. destruct e; [apply update_len|reflexivity|reflexivity].
Qed.
Lemma init_len sp a nq din dout orthogonal o0 : kraus_init sp a nq din dout orthogonal = Ok o0 -> kraus_len o0 = length (arg_matrices a).
Proof.
  unfold kraus_init. intros H. destruct (arg_array a) as [ops|]; [|discriminate]. cbn [bind] in H. destruct (foldM _ _ _); [|discriminate]. cbn [bind] in H.
  destruct (kraus_operators_exchange _); [|discriminate]. injection H as <-. reflexivity.
Qed.
End P.
