(** Property of assignments to Kraus objects (C98).  Specification: SetterSpec.v,
    KrausSpec.v, ChannelSpec.v.  Model: SetterModel.v, KrausModel.v.
    Everywhere [h] is an arbitrary history of updates and assignments. *)
From Verif Require Import Py Scalar PauliModel PauliSpec KrausModel KrausSpec KrausProofs KrausProofs2 KrausProofs3 KrausProofs4 ChoiModel ChannelModel ChannelSpec KrausExamples
  SetterModel SetterSpec SetterProofs.
Open Scope nat_scope.

(** ** C98 *)
(** once n has gone down since the assignment, the object is the n-fold channel of the
    operators assigned (a sparse object: if n is at least 2) *)
Theorem C98_lowered_partial (K : StarRing) sp (a : kraus_arg K) nq din dout orthogonal o0 (h : list (edit K)) B past n :
  kraus_init sp a nq din dout orthogonal = Ok o0 -> Forall uses h ->
  let o := edited o0 h in
  Forall (fun m => 1 <= m) past -> 1 <= n -> goes_down (current_n o :: past ++ [n]) -> sp = false \/ 2 <= n ->
  let o' := edited o0 (h ++ AssignOne B :: map Update past) in
  snd (update_kraus_operators o' n) = Ok tt /\ current_n (fst (update_kraus_operators o' n)) = n /\
  behaves_as (fst (update_kraus_operators o' n)) (power_ops (slices B) n) (t1 B ^ n) (t2 B ^ n).
Proof.
  intros I U o F Hn G SP. cbn zeta. destruct (init_pos _ _ _ _ _ _ _ I) as [I1 I2]. pose proof (edited_pos o0 h ltac:(lia) U) as P. pose proof (edited_sparse o0 h ltac:(lia) U) as Q.
  assert (E : edited o0 (h ++ AssignOne B :: map Update past) = run_updates (assign_kraus_ops o B) past).
  { unfold edited at 1. rewrite fold_left_app. cbn [fold_left]. fold (edited o0 h). fold o. generalize (assign_kraus_ops o B). clear. induction past as [|m past IH]; intros p; [reflexivity|apply IH]. }
  rewrite E. rewrite <- run_snoc. apply (lowered (assign_kraus_ops o B) B past n); [exact P|reflexivity|exact F|exact Hn|exact G|]. destruct SP as [SP|SP]; [left|right; exact SP]. cbn. fold o in Q. congruence.
Qed.
(** as long as n has not gone down since the assignment, the operators assigned only make
    up the factors added since, in front of whatever operators there were *)
Theorem C98_raised_partial (K : StarRing) sp (a : kraus_arg K) nq din dout orthogonal o0 (h : list (edit K)) B past n :
  kraus_init sp a nq din dout orthogonal = Ok o0 -> Forall uses h ->
  let o := edited o0 h in let k := n - current_n o in
  climbs (current_n o) (past ++ [n]) -> sp = false \/ current_n o < n ->
  let o' := edited o0 (h ++ AssignOne B :: map Update past) in
  snd (update_kraus_operators o' n) = Ok tt /\ current_n (fst (update_kraus_operators o' n)) = n /\
  behaves_as (fst (update_kraus_operators o' n)) (tens_ops (power_ops (slices B) k) (slices (nth_ops o))) (t1 B ^ k * t1 (nth_ops o)) (t2 B ^ k * t2 (nth_ops o)).
Proof.
  intros I U o k C SP. cbn zeta. destruct (init_pos _ _ _ _ _ _ _ I) as [I1 I2]. pose proof (edited_pos o0 h ltac:(lia) U) as P. pose proof (edited_sparse o0 h ltac:(lia) U) as Q.
  assert (E : edited o0 (h ++ AssignOne B :: map Update past) = run_updates (assign_kraus_ops o B) past).
  { unfold edited at 1. rewrite fold_left_app. cbn [fold_left]. fold (edited o0 h). fold o. generalize (assign_kraus_ops o B). clear. induction past as [|m past IH]; intros p; [reflexivity|apply IH]. }
  rewrite E. rewrite <- run_snoc. apply (raised (assign_kraus_ops o B) B past n); [exact P|reflexivity|exact C|]. destruct SP as [SP|SP]; [left|right; exact SP]. cbn. fold o in Q. congruence.
Qed.
(** assigning the current operators of a dense object changes its answers to channel at
    once and its entropy exchange at the next update to the same n *)
Theorem C98_current_partial (K : StarRing) (a : kraus_arg K) nq din dout orthogonal o0 (h : list (edit K)) C :
  kraus_init false a nq din dout orthogonal = Ok o0 -> Forall uses h ->
  let o := edited o0 h in let o' := edited o0 (h ++ [AssignCurrent C]) in
  nth_exch o' = nth_exch o /\ current_n o' = current_n o /\ kraus_ops o' = kraus_ops o /\
  (forall rho, is_square (t2 C) rho -> exists out, channel o' rho false = Ok out /\ is_square (t1 C) out /\ eqm (t1 C) (t1 C) (me out) (channel_map (slices C) (me rho))) /\
  snd (update_kraus_operators o' (current_n o')) = Ok tt /\ behaves_as (fst (update_kraus_operators o' (current_n o'))) (slices C) (t1 C) (t2 C).
Proof.
  intros I U. cbn zeta. destruct (init_pos _ _ _ _ _ _ _ I) as [I1 I2]. pose proof (edited_pos o0 h ltac:(lia) U) as P. pose proof (edited_sparse o0 h ltac:(lia) U) as Q.
  assert (E : edited o0 (h ++ [AssignCurrent C]) = assign_nth_kraus_ops (edited o0 h) C) by (unfold edited; rewrite fold_left_app; reflexivity).
  rewrite E. clear E. set (o := edited o0 h) in *. set (o' := assign_nth_kraus_ops o C). assert (SP : sparse o' = false) by (cbn; congruence).
  do 3 (split; [reflexivity|]). split.
  - intros rho R. set (p := set_exch o' (exch3 C)). change (channel o' rho false) with (channel p rho false).
    destruct (channel_value p rho) as (out & X & D1 & D2 & V); [split; [intros Y; cbn in Y; cbn in SP; congruence|reflexivity]|exact R|].
    exists out. split; [exact X|]. split; [split; assumption|]. intros i j _ _. apply V.
  - destruct (update_any o' (current_n o') P P) as (S & N & _ & _ & D & _ & X). set (o1 := fst (update_kraus_operators o' (current_n o'))) in *. destruct (D eq_refl) as [D1 D2].
    assert (CO : conj_ok o1) by (intros Y; destruct S as (S & _); congruence). destruct (X CO) as [X1 X2]. split; [exact X1|].
    change C with (nth_ops o'). rewrite <- D1. apply fresh_shows; [split; assumption|apply same_ops_refl].
Qed.
(** len(o) is the number of operators the object was made with, whatever was assigned since *)
Theorem C98_length_partial (K : StarRing) sp (a : kraus_arg K) nq din dout orthogonal o0 (h : list (edit K)) :
  kraus_init sp a nq din dout orthogonal = Ok o0 -> kraus_len (edited o0 h) = length (arg_matrices a).
Proof. intros I. rewrite edited_len. exact (init_len sp a nq din dout orthogonal o0 I). Qed.
(** assigning the conjugates never succeeds and changes nothing, whatever the recursion limit *)
Theorem C98_conj_partial (K : StarRing) (o : kraus K) t depth : assign_nth_kraus_ops_conj depth o t = (o, Err RuntimeError).
Proof. induction depth as [|d IH]; [reflexivity|exact IH]. Qed.
(** The operators of a channel that resets a qubit are replaced by the identity.  The
    channel still resets, also after asking for n = 1 again; for n = 2 it leaves the first
    qubit alone and resets the second; and it still has two operators. *)
Theorem C98_refuted : exists (o0 : kraus GI) I2 rho rho2, kraus_init false reset_ops (1, 1) 2 2 [] = Ok o0 /\ is_square 2 rho /\ is_square 4 rho2 /\
  slices I2 = [MA 2 2 eye] /\
  let o1 := edited o0 [AssignOne I2] in let o2 := edited o0 [AssignOne I2; Update 1] in let o3 := edited o0 [AssignOne I2; Update 2] in let o4 := edited o0 [AssignOne I2; Update 2; Update 1] in
  kraus_len o1 = 2 /\ kraus_len o4 = 2 /\
  (exists out, channel o1 rho false = Ok out /\ entries out = [[(8, 0); (0, 0)]; [(0, 0); (0, 0)]]%Z) /\
  (exists out, channel o2 rho false = Ok out /\ entries out = [[(8, 0); (0, 0)]; [(0, 0); (0, 0)]]%Z) /\
  (exists out, channel o3 rho2 false = Ok out /\ map (fun i => me out i i) (seq 0 4) = [(3, 0); (0, 0); (12, 0); (0, 0)]%Z) /\
  (exists out, channel o4 rho false = Ok out /\ entries out = [[(3, 0); (0, 0)]; [(0, 0); (5, 0)]]%Z).
Proof.
  destruct (kraus_init false (reset_ops (K := GI)) (1, 1) 2 2 []) as [o|] eqn:Eo; [|discriminate Eo].
  exists o, (T3 1 2 2 (fun _ => eye)), (diag_mat (K := GI) [(3, 0); (5, 0)]%Z), (diag_mat (K := GI) [(1, 0); (2, 0); (4, 0); (8, 0)]%Z).
  injection Eo as <-. split; [reflexivity|]. split; [split; reflexivity|]. split; [split; reflexivity|]. split; [reflexivity|]. cbn zeta.
  split; [reflexivity|]. split; [reflexivity|]. repeat split; eexists; (split; [reflexivity|vm_compute; reflexivity]).
Qed.
Print Assumptions C98_lowered_partial.
Print Assumptions C98_raised_partial.
Print Assumptions C98_current_partial.
Print Assumptions C98_length_partial.
Print Assumptions C98_conj_partial.
Print Assumptions C98_refuted.
(** a history that meets the hypotheses of the first, and one that meets those of the second *)
Example C98_case : exists (o0 : kraus GI), kraus_init true reset_ops (1, 1) 2 2 [] = Ok o0 /\
  let h := [Update 2; AssignCurrent (T3 1 4 4 (fun _ => eye)); Update 4] in Forall uses h /\ current_n (edited o0 h) = 4 /\
  goes_down (current_n (edited o0 h) :: [5; 3] ++ [2]) /\ climbs (current_n (edited o0 h)) ([4; 5] ++ [5]).
Proof.
  eexists. split; [reflexivity|]. cbn zeta. split; [repeat constructor|]. split; [reflexivity|]. split; [|cbn; lia]. exists [4], 5, 3, [2]. split; [reflexivity|lia].
Qed.
