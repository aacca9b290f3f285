(** What a caller may do to arrays after handing them over (C151, C152).  Specification: SharedSpec.v, SetterSpec.v.  Model:
    SharedModel.v, SetterModel.v, KrausModel.v, CodesModel.v. *)
From Verif Require Import Py ZMat CodesModel Scalar PauliModel PauliSpec KrausModel KrausSpec KrausProofs KrausProofs2 KrausProofs3 KrausProofs4 ChannelModel ChannelSpec KrausExamples SetterModel SetterSpec SetterProofs PropsSetter SharedModel SharedSpec SharedProofs.
Open Scope nat_scope.

(** ** C151 *)
(** Operators given as a list, or a sparse channel: nothing the caller writes into arrays of their own changes the channel. *)
Theorem C151_own_partial (K : StarRing) h sp (g : given K) nq din dout orthogonal h' o l : construct h sp g nq din dout orthogonal = Ok (h', o) ->
  (forall a, g = GivenArray a -> a < fresh h) -> (exists ops, g = GivenList ops) \/ sp = true -> Forall (writes_below (fresh h)) l -> Forall sensible l ->
  exists o0, kraus_init sp (held h g) nq din dout orthogonal = Ok o0 /\ after_actions (h', o) l = edited o0 (updates l).
Proof.
  intros C GB OWN W S. destruct (construct_seen h sp g nq din dout orthogonal h' o C GB) as (o0 & I & E & C1 & NA & FF & [(a & -> & -> & _)|(_ & OA)]); [destruct OWN as [[ops O]|O]; discriminate|].
  exists o0. split; [exact I|]. rewrite <- E. apply (private_actions (fresh h)); [exact OA|exact NA|lia|exact W|exact S].
Qed.
(** A dense channel given an array: writing into the array is assigning to the channel's kraus_ops, and to its nth_kraus_ops as well
    after the number of uses has gone down to 1. *)
Theorem C151_shared_partial (K : StarRing) h a nq din dout orthogonal h' (o : kraus_object K) l : construct h false (GivenArray a) nq din dout orthogonal = Ok (h', o) ->
  a < fresh h -> Forall (writes_below (fresh h)) l -> Forall sensible l ->
  exists o0, kraus_init false (OpArray (cells h a)) nq din dout orthogonal = Ok o0 /\ after_actions (h', o) l = edited o0 (as_assignments a 1 false l).
Proof.
  intros C GB W S. destruct (construct_seen h false (GivenArray a) nq din dout orthogonal h' o C ltac:(intros b [= <-]; exact GB)) as (o0 & I & E & C1 & NA & FF & [(b & [= <-] & _ & OA)|([[ops O]|O] & _)]); try discriminate.
  exists o0. split; [exact I|]. rewrite <- E, <- C1. apply (shared_actions (fresh h)); [exact GB|exact OA|exact FF|exact NA|lia|exact W|exact S].
Qed.
(** What is written takes effect when the number of uses goes down: then the channel is the n-fold channel of the operators written. *)
Theorem C151_lowered_partial (K : StarRing) h a nq din dout orthogonal h' (o : kraus_object K) l B past n : construct h false (GivenArray a) nq din dout orthogonal = Ok (h', o) ->
  a < fresh h -> Forall (writes_below (fresh h)) l -> Forall sensible l -> Forall (fun m => 1 <= m) past -> 1 <= n -> goes_down (current_n (after_actions (h', o) l) :: past ++ [n]) ->
  let now := after_actions (h', o) (l ++ WriteTo a B :: map UpdateTo (past ++ [n])) in
  current_n now = n /\ behaves_as now (power_ops (slices B) n) (t1 B ^ n) (t2 B ^ n).
Proof.
  intros C GB W S FP Hn GD. cbn zeta.
  destruct (C151_shared_partial K h a nq din dout orthogonal h' o l C GB W S) as (o0 & I & E).
  assert (SPLIT : forall cur low past', as_assignments a cur low (map UpdateTo past') = map (@Update K) past') by (intros cur low past'; revert cur low; induction past' as [|x p IH]; intros cur low; [reflexivity|cbn [map as_assignments]; f_equal; apply IH]).
  assert (G : forall cur low, exists extra, (extra = [] \/ extra = [AssignCurrent B]) /\ as_assignments a cur low (l ++ WriteTo a B :: map UpdateTo (past ++ [n])) = as_assignments a cur low l ++ AssignOne B :: extra ++ map (@Update K) (past ++ [n])).
  { clear - SPLIT. induction l as [|[b t|x] l IH]; intros cur low; cbn [app as_assignments].
    - rewrite Nat.eqb_refl. exists (if low then [AssignCurrent B] else []). split; [destruct low; auto|]. rewrite SPLIT. destruct low; reflexivity.
    - destruct (IH cur low) as (extra & X & Q). exists extra. split; [exact X|]. rewrite Q, app_assoc. reflexivity.
    - destruct (IH x (if Nat.eqb x cur then low else Nat.ltb x cur && Nat.eqb x 1)%bool) as (extra & X & Q). exists extra. split; [exact X|]. rewrite Q. reflexivity. }
  destruct (C151_shared_partial K h a nq din dout orthogonal h' o (l ++ WriteTo a B :: map UpdateTo (past ++ [n])) C GB) as (o0' & I' & E').
  { apply Forall_app. split; [exact W|]. constructor; [exact GB|]. apply Forall_map. apply Forall_forall. intros; exact Logic.I. }
  { apply Forall_app. split; [exact S|]. constructor; [exact Logic.I|]. apply Forall_map. apply Forall_app. split; [exact FP|repeat constructor; exact Hn]. }
  rewrite I in I'. injection I' as <-. rewrite E'. destruct (G 1 false) as (extra & X & Q). rewrite Q.
  set (hist := as_assignments a 1 false l) in *. assert (U : Forall (@uses K) hist).
  { unfold hist. clear - S. generalize 1 at 1. generalize false. induction l as [|[b t|x] l IH]; intros low cur; cbn [as_assignments]; [constructor| |].
    - apply Forall_app. split; [destruct (Nat.eqb b a), low; repeat constructor|apply IH, (Forall_inv_tail S)].
    - constructor; [exact (Forall_inv S)|apply IH, (Forall_inv_tail S)]. }
  rewrite E in GD.
  (* an assignment to nth_kraus_ops that precedes does not matter: put it before the assignment to kraus_ops *)
  assert (SW : edited o0 (hist ++ AssignOne B :: extra ++ map Update (past ++ [n])) = edited o0 ((hist ++ extra) ++ AssignOne B :: map Update past ++ [Update n])).
  { rewrite map_app. unfold edited. rewrite <- app_assoc, !fold_left_app. cbn [fold_left map]. rewrite !fold_left_app. cbn [fold_left]. f_equal. f_equal. destruct X as [->| ->]; reflexivity. }
  rewrite SW. assert (U2 : Forall (@uses K) (hist ++ extra)) by (apply Forall_app; split; [exact U|destruct X as [->| ->]; repeat constructor]).
  assert (CE : current_n (edited o0 (hist ++ extra)) = current_n (edited o0 hist)) by (unfold edited; rewrite fold_left_app; destruct X as [->| ->]; reflexivity).
  destruct (C98_lowered_partial K false (OpArray (cells h a)) nq din dout orthogonal o0 (hist ++ extra) B past n I U2 FP Hn ltac:(rewrite CE; exact GD) (or_introl eq_refl)) as (_ & CN & BA).
  replace ((hist ++ extra) ++ AssignOne B :: map Update past ++ [Update n]) with (((hist ++ extra) ++ AssignOne B :: map Update past) ++ [Update n]) by (rewrite <- app_assoc; reflexivity).
  unfold edited at 1 2. rewrite fold_left_app. cbn [fold_left]. split; [exact CN|exact BA].
Qed.
Print Assumptions C151_own_partial.
Print Assumptions C151_shared_partial.
Print Assumptions C151_lowered_partial.
(** Full statement refuted: the array of the reset channel is given to a dense channel and overwritten in place with the operators
    1 and 0 of the identity.  At first the channel still resets; for n = 2 and n = 1 again it is the identity; and a list in the same
    position keeps resetting. *)
Theorem C151_refuted : exists (h : heap (ten3 GI)) B rho, let R := T3 2 2 2 (fun e i j => if Nat.eqb i 0 && Nat.eqb j e then s1 else s0)%bool in
  cells h 0 = R /\ 0 < fresh h /\ (t0 B = t0 R /\ t1 B = t1 R /\ t2 B = t2 R) /\ is_square 2 rho /\
  (exists h' o, construct h false (GivenArray 0) (1, 1) 2 2 [] = Ok (h', o) /\
    (exists out, channel (after_actions (h', o) [WriteTo 0 B]) rho false = Ok out /\ entries out = [[(8, 0); (0, 0)]; [(0, 0); (0, 0)]]%Z) /\
    (exists out, channel (after_actions (h', o) [WriteTo 0 B; UpdateTo 2; UpdateTo 1]) rho false = Ok out /\ entries out = [[(3, 0); (0, 0)]; [(0, 0); (5, 0)]]%Z) /\
    (exists out, channel (after_actions (h', o) [UpdateTo 2; UpdateTo 1; WriteTo 0 B]) rho false = Ok out /\ entries out = [[(3, 0); (0, 0)]; [(0, 0); (5, 0)]]%Z)) /\
  (exists h' o, construct h false (GivenList (slices R)) (1, 1) 2 2 [] = Ok (h', o) /\
    (exists out, channel (after_actions (h', o) [WriteTo 0 B; UpdateTo 2; UpdateTo 1]) rho false = Ok out /\ entries out = [[(8, 0); (0, 0)]; [(0, 0); (0, 0)]]%Z)).
Proof.
  set (R := T3 (K := GI) 2 2 2 (fun e i j => if Nat.eqb i 0 && Nat.eqb j e then s1 else s0)%bool).
  exists (Heap (fun _ => R) 1), (T3 2 2 2 (fun e i j => if Nat.eqb e 0 && Nat.eqb i j then s1 else s0)%bool), (diag_mat (K := GI) [(3, 0); (5, 0)]%Z). cbn zeta. fold R.
  split; [reflexivity|]. split; [cbn; lia|]. split; [repeat split|]. split; [split; reflexivity|]. split.
  - destruct (construct (Heap (fun _ => R) 1) false (GivenArray 0) (1, 1) 2 2 []) as [[h' o]|] eqn:E; [|discriminate E]. exists h', o. split; [reflexivity|]. injection E as <- <-.
    repeat split; eexists; (split; [reflexivity|vm_compute; reflexivity]).
  - destruct (construct (Heap (fun _ => R) 1) false (GivenList (slices R)) (1, 1) 2 2 []) as [[h' o]|] eqn:E; [|discriminate E]. exists h', o. split; [reflexivity|]. injection E as <- <-.
    eexists. split; [reflexivity|vm_compute; reflexivity].
Qed.
Print Assumptions C151_refuted.
(** a history that meets the hypotheses of the three theorems *)
Example C151_case : exists (h : heap (ten3 GI)) h1 o1 h2 o2, let B := T3 2 2 2 (fun e i j => if Nat.eqb e 0 && Nat.eqb i j then s1 else s0)%bool in let l := [UpdateTo 3; WriteTo 0 B; UpdateTo 1; WriteTo 1 B] in
  construct h false (GivenArray 0) (1, 1) 2 2 [] = Ok (h1, o1) /\ construct h true (GivenArray 0) (1, 1) 2 2 [] = Ok (h2, o2) /\ 0 < fresh h /\ Forall (writes_below (fresh h)) l /\ Forall sensible l /\
  as_assignments 0 1 false (l ++ [WriteTo 0 B]) = [Update 3; AssignOne B; Update 1; AssignOne B; AssignCurrent B] /\ updates l = [Update 3; Update 1] /\
  goes_down (current_n (after_actions (h1, o1) l) :: [2] ++ [1]).
Proof.
  set (R := T3 (K := GI) 2 2 2 (fun e i j => if Nat.eqb i 0 && Nat.eqb j e then s1 else s0)%bool).
  destruct (construct (Heap (fun _ => R) 2) false (GivenArray 0) (1, 1) 2 2 []) as [[h1 o1]|] eqn:E1; [|discriminate E1].
  destruct (construct (Heap (fun _ => R) 2) true (GivenArray 0) (1, 1) 2 2 []) as [[h2 o2]|] eqn:E2; [|discriminate E2].
  exists (Heap (fun _ => R) 2), h1, o1, h2, o2. cbn zeta. split; [exact E1|]. split; [exact E2|]. split; [cbn; lia|]. split; [repeat constructor|]. split; [repeat constructor|]. split; [reflexivity|]. split; [reflexivity|].
  injection E1 as <- <-. exists [1], 2, 1, []. split; [reflexivity|lia].
Qed.

(** ** C152 *)
Lemma cells_writes (l : list (nat * zmat)) : forall h a, (forall w, In w l -> fst w <> a) -> contents_after h l a = cells h a.
Proof.
  unfold contents_after. induction l as [|[b t] l IH]; intros h a F; [reflexivity|]. cbn [fold_left fst snd]. rewrite (IH (write h b t) a); [|intros w W; apply F; right; exact W]. cbn. destruct (Nat.eqb_spec a b) as [->|]; [|reflexivity].
  exfalso. apply (F (b, t) (or_introl eq_refl)). reflexivity.
Qed.
Lemma cells_agree (l : list (nat * zmat)) : forall h h' a, cells h a = cells h' a -> contents_after h l a = contents_after h' l a.
Proof. unfold contents_after. induction l as [|[b t] l IH]; intros h h' a E; [exact E|]. cbn [fold_left fst snd]. apply IH. cbn. rewrite E. reflexivity. Qed.
Lemma init_ops g n k lx lz c lx' lz' : init g n k (Some (lx, lz)) = Ok c -> zc lx' = 2 * n -> zc lz' = 2 * n ->
  init g n k (Some (lx', lz')) = Ok (Code (cn c) (ck c) (stab c) (pauli_stab c) (normal_form c) (crank c) lx' lz') /\ logical_x c = lx /\ logical_z c = lz.
Proof.
  assert (B : forall M, init_body M n k (Some (lx, lz)) = Ok c -> zc lx' = 2 * n -> zc lz' = 2 * n ->
    init_body M n k (Some (lx', lz')) = Ok (Code (cn c) (ck c) (stab c) (pauli_stab c) (normal_form c) (crank c) lx' lz') /\ logical_x c = lx /\ logical_z c = lz).
  { intros M E X Z. unfold init_body in *. destruct (assert_ (is_stabilizer_code M)); [|discriminate E]. cbn [bind] in *. destruct (mapM _ _); [|discriminate E]. cbn [bind] in *. destruct (standard_normal_form n k M) as [[F r]|]; [|discriminate E]. cbn [bind] in *.
    rewrite X, Z, Nat.eqb_refl. cbn [assert_ guard bind]. destruct (Nat.eqb (zc lx) (2 * n)); [|discriminate E]. destruct (Nat.eqb (zc lz) (2 * n)); [|discriminate E]. injection E as <-. repeat split. }
  intros E X Z. destruct g as [l|[|r0 l]]; cbn [init] in *; [|discriminate E|].
  - destruct (pauli_str_to_binary_representation l) as [M|]; [|discriminate E]. cbn [bind] in *. destruct (negb (is_stabilizer_code M)); [discriminate E|]. destruct (_ && _)%bool; [|discriminate E]. apply B; assumption.
  - destruct (forallb _ l); [|discriminate E]. destruct (assert_ _); [|discriminate E]. cbn [bind] in *. destruct (assert_ _); [|discriminate E]. cbn [bind] in *. apply B; assumption.
Qed.
(** Without logical_ops, nothing the caller writes into arrays that existed before changes the code. *)
Theorem C152_own_partial h g n k h' o l : construct_code h g n k None = Ok (h', o) -> (forall w, In w l -> fst w < fresh h) ->
  init g n k None = Ok (code_after h' o l).
Proof.
  intros C W. unfold construct_code in C. apply bind_ok in C. destruct C as (c & I & C). cbn [alloc] in C. injection C as <- <-. rewrite I. f_equal.
  unfold code_after, seen_code. cbn [code_base stab_at x_at z_at fresh]. match goal with |- _ = Code _ _ (cells ?H _) _ _ _ _ _ => set (HH := H) end.
  assert (A : forall a, fresh h <= a -> cells HH a = cells (Heap (fun a : nat => if a =? S (S (fresh h)) then logical_z c else if a =? S (fresh h) then logical_x c else if a =? fresh h then stab c else cells h a) (S (S (S (fresh h))))) a).
  { intros a La. unfold HH. apply cells_writes. intros w Hw. specialize (W w Hw). lia. }
  rewrite !A by lia. cbn [cells]. rewrite !Nat.eqb_refl.
  replace (fresh h =? S (S (fresh h))) with false by (symmetry; apply Nat.eqb_neq; lia). replace (fresh h =? S (fresh h)) with false by (symmetry; apply Nat.eqb_neq; lia). replace (S (fresh h) =? S (S (fresh h))) with false by (symmetry; apply Nat.eqb_neq; lia).
  destruct c; reflexivity.
Qed.
(** With logical_ops, the code is at every time the one that would be built from what the two arrays hold then. *)
Theorem C152_shared_partial h g n k x z h' o l : construct_code h g n k (Some (x, z)) = Ok (h', o) -> x < fresh h -> z < fresh h ->
  (forall w, In w l -> fst w < fresh h) -> (forall w, In w l -> fst w = x \/ fst w = z -> zc (snd w) = 2 * n) ->
  init g n k (Some (contents_after h l x, contents_after h l z)) = Ok (code_after h' o l).
Proof.
  intros C X Z W SH. unfold construct_code in C. apply bind_ok in C. destruct C as (c & I & C). cbn [alloc] in C. injection C as <- <-.
  assert (OLD : zc (cells h x) = 2 * n /\ zc (cells h z) = 2 * n).
  { clear - I. assert (B : forall M, init_body M n k (Some (cells h x, cells h z)) = Ok c -> zc (cells h x) = 2 * n /\ zc (cells h z) = 2 * n).
    { intros M E. unfold init_body in E. destruct (assert_ _); [|discriminate E]. cbn [bind] in E. destruct (mapM _ _); [|discriminate E]. cbn [bind] in E. destruct (standard_normal_form n k M) as [[F r]|]; [|discriminate E]. cbn [bind] in E.
      destruct (Nat.eqb_spec (zc (cells h x)) (2 * n)); [|discriminate E]. destruct (Nat.eqb_spec (zc (cells h z)) (2 * n)); [|discriminate E]. auto. }
    destruct g as [s|[|r0 s]]; cbn [init] in I; [|discriminate I|].
    - destruct (pauli_str_to_binary_representation s) as [M|]; [|discriminate I]. cbn [bind] in I. destruct (negb (is_stabilizer_code M)); [discriminate I|]. destruct (_ && _)%bool; [|discriminate I]. eapply B, I.
    - destruct (forallb _ s); [|discriminate I]. destruct (assert_ _); [|discriminate I]. cbn [bind] in I. destruct (assert_ _); [|discriminate I]. cbn [bind] in I. eapply B, I. }
  assert (SHP : forall a, a = x \/ a = z -> zc (contents_after h l a) = 2 * n).
  { intros a Ha. assert (Q : zc (cells h a) = 2 * n) by (destruct Ha as [->| ->]; apply OLD). revert Q SH. clear - Ha. unfold contents_after. revert h. induction l as [|[b t] l IH]; intros h Q SH; [exact Q|]. cbn [fold_left fst snd]. apply IH.
    - cbn [write cells]. destruct (Nat.eqb_spec a b) as [->|]; [|exact Q]. apply (SH (b, t) (or_introl eq_refl)). exact Ha.
    - intros w Hw. apply SH. right. exact Hw. }
  destruct (init_ops g n k _ _ c (contents_after h l x) (contents_after h l z) I (SHP x (or_introl eq_refl)) (SHP z (or_intror eq_refl))) as (E & LX & LZ). rewrite E. f_equal.
  unfold code_after, seen_code. cbn [code_base stab_at x_at z_at].
  set (h1 := Heap (fun a : nat => if a =? fresh h then stab c else cells h a) (S (fresh h))).
  change (Code (cn c) (ck c) (stab c) (pauli_stab c) (normal_form c) (crank c) (contents_after h l x) (contents_after h l z) = Code (cn c) (ck c) (contents_after h1 l (fresh h)) (pauli_stab c) (normal_form c) (crank c) (contents_after h1 l x) (contents_after h1 l z)).
  rewrite (cells_writes l h1 (fresh h)) by (intros w Hw; specialize (W w Hw); lia). cbn [h1 cells]. rewrite Nat.eqb_refl.
  rewrite (cells_agree l h h1 x), (cells_agree l h h1 z); [reflexivity| |]; cbn [h1 cells]; [destruct (Nat.eqb_spec z (fresh h))|destruct (Nat.eqb_spec x (fresh h))]; try lia; reflexivity.
Qed.
Print Assumptions C152_own_partial.
Print Assumptions C152_shared_partial.
(** Full statement refuted.  The three-qubit repetition code with XXX and ZII as logical operators: the array for XXX is overwritten
    with ZII, and the logical X of the code commutes with its logical Z.  And the array that stab_bin_rep returns is the code's own:
    overwritten with rows that do not commute, the code has the Pauli strings of the old rows and generators that do not commute. *)
Theorem C152_refuted : exists h h' o, construct_code h (Strings [str "ZZI"; str "IZZ"]) 3 1 (Some (0, 1)) = Ok (h', o) /\ 1 < fresh h /\
  (let xxx := [1; 1; 1; 0; 0; 0]%Z in let zii := [0; 0; 0; 1; 0; 0]%Z in
  zd (logical_x (seen_code h' o)) = [xxx] /\ zd (logical_z (seen_code h' o)) = [zii] /\ inner_prod xxx zii = 1%Z /\
  let c1 := code_after h' o [(0, ZM 1 6 [zii])] in zd (logical_x c1) = [zii] /\ zd (logical_z c1) = [zii] /\ inner_prod zii zii = 0%Z /\
  let c2 := code_after h' o [(stab_at o, ZM 2 6 [xxx; zii])] in
  pauli_stab c2 = [str "ZZI"; str "IZZ"] /\ mapM binary_rep_to_pauli_str (zd (stab c2)) = Ok [str "XXX"; str "ZII"] /\ is_stabilizer_code (stab c2) = false).
Proof.
  set (h := Heap (fun a => if Nat.eqb a 0 then ZM 1 6 [[1; 1; 1; 0; 0; 0]%Z] else ZM 1 6 [[0; 0; 0; 1; 0; 0]%Z]) 2).
  destruct (construct_code h (Strings [str "ZZI"; str "IZZ"]) 3 1 (Some (0, 1))) as [[h' o]|] eqn:E; [|vm_compute in E; discriminate E]. exists h, h', o. split; [exact E|]. split; [cbn; lia|].
  vm_compute in E. injection E as <- <-. vm_compute. repeat split.
Qed.
Print Assumptions C152_refuted.
(** hypotheses of the two theorems met, with arrays that change *)
Example C152_case : exists h h1 o1 h2 o2, construct_code h (Strings [str "ZZI"; str "IZZ"]) 3 1 None = Ok (h1, o1) /\ construct_code h (Strings [str "ZZI"; str "IZZ"]) 3 1 (Some (0, 1)) = Ok (h2, o2) /\ 1 < fresh h /\
  let l := [(0, ZM 1 6 [[1; 1; 1; 1; 1; 0]%Z]); (2, ZM 0 0 [])] in
  (forall w, In w l -> fst w < fresh h) /\ (forall w, In w l -> fst w = 0 \/ fst w = 1 -> zc (snd w) = 6) /\ contents_after h l 0 <> cells h 0.
Proof.
  set (h := Heap (fun a => if Nat.eqb a 0 then ZM 1 6 [[1; 1; 1; 0; 0; 0]%Z] else ZM 1 6 [[0; 0; 0; 1; 0; 0]%Z]) 3).
  destruct (construct_code h (Strings [str "ZZI"; str "IZZ"]) 3 1 None) as [[h1 o1]|] eqn:E1; [|vm_compute in E1; discriminate E1].
  destruct (construct_code h (Strings [str "ZZI"; str "IZZ"]) 3 1 (Some (0, 1))) as [[h2 o2]|] eqn:E2; [|vm_compute in E2; discriminate E2].
  exists h, h1, o1, h2, o2. split; [exact E1|]. split; [exact E2|]. split; [cbn; lia|]. cbn zeta. split; [intros w [<-|[<-|[]]]; cbn; lia|]. split; [intros w [<-|[<-|[]]]; cbn; lia|]. vm_compute. discriminate.
Qed.
