(** Proofs about shared arrays. *)
From Verif Require Import Py ZMat CodesModel Scalar PauliModel KrausModel KrausSpec KrausProofs KrausProofs2 KrausProofs3 KrausProofs4 SetterModel SetterSpec SetterProofs SharedModel SharedSpec.
Open Scope nat_scope.
Section P.
Context {K : StarRing}.
Implicit Types (h : heap (ten3 K)) (o : kraus_object K).
Lemma seen_current h o : current_n (seen h o) = current_n (base o). Proof. reflexivity. Qed.
Lemma rebuild (k : kraus K) : assign_nth_kraus_ops (assign_kraus_ops k (kraus_ops k)) (nth_ops k) = k. Proof. destruct k. reflexivity. Qed.
(** an update of the object is an update of what is seen *)
Lemma seen_update h o n : 1 <= n -> 1 <= current_n (base o) -> ops_at o < fresh h -> nth_at o < fresh h ->
  let '(h', o') := update h o n in
  seen h' o' = fst (update_kraus_operators (seen h o) n) /\ ops_at o' = ops_at o /\ fresh h <= fresh h' /\ nth_at o' < fresh h' /\ current_n (base o') = n /\ (forall a, a < fresh h -> cells h' a = cells h a) /\
  nth_at o' = (if Nat.eqb n (current_n (base o)) then nth_at o else if Nat.ltb n (current_n (base o)) && Nat.eqb n 1 then ops_at o else fresh h).
Proof.
  intros Hn Hc B1 B2. destruct (update_any (seen h o) n Hn Hc) as (ST & CN & _ & DOWN & SAME & _). set (new := fst (update_kraus_operators (seen h o) n)) in *. pose proof ST as (_ & SO & _).
  change (kraus_ops (seen h o)) with (cells h (ops_at o)) in *. change (nth_ops (seen h o)) with (cells h (nth_at o)) in *. rewrite seen_current in *.
  unfold update. rewrite seen_current. fold new. destruct (Nat.eqb_spec n (current_n (base o))) as [EN|NN].
  - split; [|repeat split; auto]. destruct (SAME EN) as [N _]. unfold seen. cbn [base ops_at nth_at]. rewrite <- SO, <- N. apply rebuild.
  - destruct (Nat.ltb n (current_n (base o)) && Nat.eqb n 1)%bool eqn:B.
    + apply andb_prop in B. destruct B as [L E1]. apply Nat.ltb_lt in L. apply Nat.eqb_eq in E1. split; [|repeat split; auto]. pose proof (DOWN L) as N. rewrite E1 in N. cbn [power3] in N. unfold seen. cbn [base ops_at nth_at].
      transitivity (assign_nth_kraus_ops (assign_kraus_ops new (kraus_ops new)) (nth_ops new)); [|apply rebuild]. rewrite SO. f_equal. rewrite N. reflexivity.
    + cbn [alloc]. split; [|repeat split; cbn [ops_at nth_at fresh base cells]; try lia; try exact CN; intros a La; destruct (Nat.eqb_spec a (fresh h)); [lia|reflexivity]].
      unfold seen. cbn [base ops_at nth_at cells]. rewrite Nat.eqb_refl. destruct (Nat.eqb_spec (ops_at o) (fresh h)); [lia|]. rewrite <- SO. apply rebuild.
Qed.
Lemma private_actions m l : forall h o, m <= ops_at o < fresh h -> m <= nth_at o < fresh h -> 1 <= current_n (base o) -> Forall (writes_below m) l -> Forall sensible l ->
  after_actions (h, o) l = edited (seen h o) (updates l).
Proof.
  induction l as [|e l IH]; intros h o B1 B2 C W S; [reflexivity|]. pose proof (Forall_inv W) as W1. pose proof (Forall_inv S) as S1. apply Forall_inv_tail in W. apply Forall_inv_tail in S.
  destruct e as [a t|n]; unfold after_actions; cbn [fold_left act fst snd].
  - cbn in W1. change (after_actions (write h a t, o) l = edited (seen h o) (updates l)). rewrite (IH (write h a t) o); [|exact B1|exact B2|exact C|exact W|exact S]. f_equal. unfold seen, write. cbn [cells]. destruct (Nat.eqb_spec (ops_at o) a); [lia|]. destruct (Nat.eqb_spec (nth_at o) a); [lia|reflexivity].
  - cbn in S1. pose proof (seen_update h o n S1 C (proj2 B1) (proj2 B2)) as U. destruct (update h o n) as [h' o'] eqn:EU. destruct U as (E & O & F & N & CN & _ & NA).
    change (after_actions (h', o') l = edited (seen h o) (Update n :: updates l)). rewrite (IH h' o'); [rewrite E; reflexivity|lia| |lia|exact W|exact S]. split; [|exact N]. rewrite NA. destruct (Nat.eqb n _); [lia|]. destruct (_ && _)%bool; lia.
Qed.
Lemma shared_actions m a l : a < m -> forall h o low, ops_at o = a -> m <= fresh h -> (if low : bool then nth_at o = a else m <= nth_at o < fresh h) -> 1 <= current_n (base o) -> Forall (writes_below m) l -> Forall sensible l ->
  after_actions (h, o) l = edited (seen h o) (as_assignments a (current_n (base o)) low l).
Proof.
  intros AM. induction l as [|e l IH]; intros h o low OA FM NL C W S; [reflexivity|]. pose proof (Forall_inv W) as W1. pose proof (Forall_inv S) as S1. apply Forall_inv_tail in W. apply Forall_inv_tail in S.
  destruct e as [b t|n]; unfold after_actions; cbn [fold_left act fst snd as_assignments].
  - cbn in W1. change (after_actions (write h b t, o) l = edited (seen h o) ((if Nat.eqb b a then AssignOne t :: (if low then [AssignCurrent t] else []) else []) ++ as_assignments a (current_n (base o)) low l)). rewrite (IH (write h b t) o low); [|exact OA|exact FM|exact NL|exact C|exact W|exact S].
    destruct (Nat.eqb_spec b a) as [->|NB]; cbn [app].
    + destruct low; cbn [app edited fold_left]; f_equal; unfold seen, write; cbn [cells]; rewrite OA, ?NL, Nat.eqb_refl; [reflexivity|]. destruct (Nat.eqb_spec (nth_at o) a); [lia|reflexivity].
    + f_equal. unfold seen, write. cbn [cells]. rewrite OA. destruct (Nat.eqb_spec a b); [congruence|]. destruct low; [rewrite NL; destruct (Nat.eqb_spec a b); [congruence|reflexivity]|]. destruct (Nat.eqb_spec (nth_at o) b); [lia|reflexivity].
  - cbn in S1. assert (B2 : nth_at o < fresh h) by (destruct low; lia). pose proof (seen_update h o n S1 C ltac:(lia) B2) as U. destruct (update h o n) as [h' o'] eqn:EU. destruct U as (E & O & F & N & CN & _ & NA).
    change (after_actions (h', o') l = edited (seen h o) (Update n :: as_assignments a n (if Nat.eqb n (current_n (base o)) then low else Nat.ltb n (current_n (base o)) && Nat.eqb n 1) l)).
    rewrite (IH h' o' (if Nat.eqb n (current_n (base o)) then low else Nat.ltb n (current_n (base o)) && Nat.eqb n 1)%bool); [rewrite E, CN; reflexivity|lia|lia| |lia|exact W|exact S].
    rewrite NA. destruct (Nat.eqb n (current_n (base o))); [destruct low; lia|]. destruct (_ && _)%bool; [exact OA|]. rewrite NA in N. lia.
Qed.
Lemma construct_seen h sp g nq din dout orthogonal h' o : construct h sp g nq din dout orthogonal = Ok (h', o) -> (forall a, g = GivenArray a -> a < fresh h) ->
  exists o0 : kraus K, kraus_init sp (held h g) nq din dout orthogonal = Ok o0 /\ seen h' o = o0 /\ current_n (base o) = 1 /\ fresh h <= nth_at o < fresh h' /\ fresh h <= fresh h' /\
    ((exists a, g = GivenArray a /\ sp = false /\ ops_at o = a) \/ (((exists l, g = GivenList l) \/ sp = true) /\ fresh h <= ops_at o < fresh h')).
Proof.
  intros E GB. unfold construct in E. apply bind_ok in E. destruct E as (o0 & I & E). exists o0. split; [exact I|].
  assert (C1 : current_n o0 = 1 /\ (forall t, g = GivenArray t -> kraus_ops o0 = cells h t)).
  { unfold kraus_init in I. apply bind_ok in I. destruct I as (t & T & I). apply bind_ok in I. destruct I as (u & _ & I). apply bind_ok in I. destruct I as (e & _ & [= <-]). split; [reflexivity|]. intros a ->. cbn in T. injection T as <-. reflexivity. }
  destruct C1 as [C1 KO]. destruct g as [l|a]; [|destruct sp].
  - cbn [alloc] in E. injection E as <- <-. cbn [base nth_at ops_at fresh]. split; [|split; [exact C1|]; split; [lia|]; split; [lia|]; right; split; [left; eauto|lia]].
    unfold seen. cbn [base ops_at nth_at cells fresh]. rewrite Nat.eqb_refl. destruct (Nat.eqb_spec (fresh h) (S (fresh h))); [lia|]. rewrite Nat.eqb_refl. apply rebuild.
  - cbn [alloc] in E. injection E as <- <-. cbn [base nth_at ops_at fresh]. split; [|split; [exact C1|]; split; [lia|]; split; [lia|]; right; split; [right; reflexivity|lia]].
    unfold seen. cbn [base ops_at nth_at cells fresh]. rewrite Nat.eqb_refl. destruct (Nat.eqb_spec (fresh h) (S (fresh h))); [lia|]. rewrite Nat.eqb_refl. apply rebuild.
  - cbn [alloc] in E. injection E as <- <-. cbn [base nth_at ops_at fresh]. specialize (GB a eq_refl). split; [|split; [exact C1|]; split; [lia|]; split; [lia|]; left; eauto].
    unfold seen. cbn [base ops_at nth_at cells fresh]. rewrite Nat.eqb_refl. destruct (Nat.eqb_spec a (fresh h)); [lia|]. rewrite <- (KO a eq_refl). apply rebuild.
Qed.
End P.
