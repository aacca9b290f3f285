(** Choi matrices: the channel and the fidelity. *)
From Verif Require Import Py Scalar PauliModel PauliSpec KrausModel KrausSpec KrausProofs ChoiModel ChannelModel ChannelSpec ChoiSpec.
From Coq Require Import Reals Lra.
Open Scope nat_scope.

Section Choi.
Context {K : StarRing}.
Add Ring KrCh : (s_rt K).
Open Scope K_scope.

Lemma nprod_app l m : nprod (l ++ m) = (nprod l * nprod m)%nat.
Proof. unfold nprod. induction l as [|x l IH]; cbn [app fold_right]; [lia|]. rewrite IH. lia. Qed.
Lemma nprod_repeat d k : nprod (repeat d k) = (d ^ k)%nat.
Proof. unfold nprod. induction k as [|k IH]; cbn; [reflexivity|]. rewrite IH. reflexivity. Qed.

Lemma divmod_l o i a : (a < o)%nat -> ((i * o + a) / o = i /\ (i * o + a) mod o = a)%nat.
Proof. intros H. split; [symmetry; apply (Nat.div_unique _ o i a); lia|symmetry; apply (Nat.mod_unique _ o i a); lia]. Qed.

(** what a Choi object computes, for any matrix *)
Theorem choi_channel_value (c : choi K) rho k : num_in c = k -> num_out c = k ->
  let D := (ch_din c ^ k)%nat in let O := (ch_dout c ^ k)%nat in
  is_square D rho -> is_square (D * O) (ch_mat c) ->
  exists out, choi_channel c rho = Ok out /\ is_square O out /\
    forall a b, (a < O)%nat -> (b < O)%nat -> me out a b = bsum D (fun i => bsum D (fun j => me (ch_mat c) (i * O + a)%nat (j * O + b)%nat * me rho i j)).
Proof.
  intros HI HO D O [R1 R2] [M1 M2]. unfold choi_channel, np_dot, np_kron, np_T, np_eye, ch_output_dim. rewrite HI, HO. cbn [mr mc me].
  fold D O. rewrite R1, R2, M2, Nat.eqb_refl. cbn [guard bind]. unfold ptrace. rewrite app_length, !repeat_length.
  assert (E0 : Nat.leb (k + k) (k + k) = true) by (apply Nat.leb_le; lia). rewrite E0. cbn [guard bind mr mc me].
  rewrite nprod_app, !nprod_repeat. fold D O. rewrite M1, Nat.eqb_refl. cbn [andb guard bind].
  eexists. split; [reflexivity|].
  assert (F1 : firstn k (repeat (ch_din c) k ++ repeat (ch_dout c) k) = repeat (ch_din c) k).
  { rewrite firstn_app, repeat_length, Nat.sub_diag. cbn [firstn]. rewrite app_nil_r. rewrite <- (repeat_length (ch_din c) k) at 1. apply firstn_all. }
  assert (F2 : skipn k (repeat (ch_din c) k ++ repeat (ch_dout c) k) = repeat (ch_dout c) k).
  { rewrite skipn_app, repeat_length, Nat.sub_diag. cbn [skipn]. rewrite <- (repeat_length (ch_din c) k) at 1. rewrite skipn_all. reflexivity. }
  assert (F3 : firstn k (repeat (ch_dout c) k) = repeat (ch_dout c) k).
  { rewrite <- (repeat_length (ch_dout c) k) at 1. apply firstn_all. }
  assert (F4 : skipn (k + k) (repeat (ch_din c) k ++ repeat (ch_dout c) k) = []).
  { apply skipn_all2. rewrite app_length, !repeat_length. lia. }
  rewrite F1, F2, F3, F4, !nprod_repeat. fold D O. split; [split; reflexivity|].
  intros a b Ha Hb. cbn [me]. apply bsum_ext; intros i Hi. change (nprod []) with 1%nat. cbn [bsum].
  replace ((i * O + a) * 1 + 0)%nat with (i * O + a)%nat by lia. replace ((i * O + b) * 1 + 0)%nat with (i * O + b)%nat by lia.
  unfold mm. rewrite bsum_blocks. destruct (divmod_l O i b Hb) as [E3 E4].
  transitivity (bsum D (fun j => bsum O (fun b' => me (ch_mat c) (i * O + a)%nat (j * O + b')%nat * (me rho i j * eye b' b)))).
  - match goal with |- 0 + ?x = _ => replace (0 + x) with x by ring end. apply bsum_ext; intros j Hj. apply bsum_ext; intros b' Hb'. destruct (divmod_l O j b' Hb') as [E1 E2]. rewrite E1, E2, E3, E4. reflexivity.
  - apply bsum_ext; intros j Hj. rewrite (bsum_one O b); [|exact Hb|intros b' _ N; unfold eye; destruct (Nat.eqb_spec b' b); [contradiction|ring]].
    unfold eye. rewrite Nat.eqb_refl. ring.
Qed.

(** entries of the Choi matrix of a Kraus list *)
Lemma ketbra_sandwich d (A : array K) i j a b : (i < d)%nat -> (j < d)%nat -> mm d (mm d A (ketbra i j)) (adj A) a b = A a i * (A b j)^*.
Proof.
  intros Hi Hj. unfold mm. rewrite (bsum_one d j); [|exact Hj|].
  - rewrite (bsum_one d i); [unfold ketbra; rewrite !Nat.eqb_refl; cbn [andb]; unfold adj; ring|exact Hi|].
    intros x _ N. unfold ketbra. destruct (Nat.eqb_spec x i); [contradiction|]. cbn [andb]. ring.
  - intros y _ N. rewrite (bsum_zero d); [ring|]. intros x _. unfold ketbra. destruct (Nat.eqb_spec y j); [contradiction|]. rewrite Bool.andb_false_r. ring.
Qed.
Lemma choi_entry (ops : list (marr K)) O D i j a b : fits O D ops -> (i < D)%nat -> (j < D)%nat -> (a < O)%nat -> (b < O)%nat ->
  choi_matrix ops O (i * O + a)%nat (j * O + b)%nat = ksum (map (fun A => me A a i * (me A b j)^*) ops).
Proof.
  intros F Hi Hj Ha Hb. unfold choi_matrix, choi_of, channel_map. destruct (divmod_l O i a Ha) as [-> ->]. destruct (divmod_l O j b Hb) as [-> ->].
  f_equal. apply map_ext_in. intros A HA. unfold fits in F; rewrite Forall_forall in F. destruct (F A HA) as [_ E]. rewrite E. apply ketbra_sandwich; assumption.
Qed.

Lemma bsum_ksum_map {T} (l : list T) n (f : T -> nat -> K) : bsum n (fun i => ksum (map (fun A => f A i) l)) = ksum (map (fun A => bsum n (f A)) l).
Proof.
  induction l as [|x l IH]; cbn [map].
  - apply bsum_zero. intros; reflexivity.
  - rewrite ksum_cons, <- IH, <- bsum_add. apply bsum_ext; intros i _. apply ksum_cons.
Qed.
Lemma ksum_mul_r {T} (l : list T) (f : T -> K) a : ksum (map f l) * a = ksum (map (fun x => f x * a) l).
Proof. induction l as [|x l IH]; cbn [map]; [rewrite ksum_nil; ring|]. rewrite !ksum_cons, <- IH. ring. Qed.

Theorem choi_channel_kraus (c : choi K) rho k ops : num_in c = k -> num_out c = k ->
  let D := (ch_din c ^ k)%nat in let O := (ch_dout c ^ k)%nat in
  is_square D rho -> is_square (D * O) (ch_mat c) -> fits O D ops -> eqm (D * O) (D * O) (me (ch_mat c)) (choi_matrix ops O) ->
  exists out, choi_channel c rho = Ok out /\ is_square O out /\ eqm O O (me out) (channel_map ops (me rho)).
Proof.
  intros HI HO D O SR SM F E. destruct (choi_channel_value c rho k HI HO SR SM) as (out & EO & SO & V). fold D O in SO, V. exists out. split; [exact EO|]. split; [exact SO|].
  intros a b Ha Hb. rewrite V by assumption.
  transitivity (bsum D (fun i => bsum D (fun j => ksum (map (fun A => me A a i * (me A b j)^* * me rho i j) ops)))).
  - apply bsum_ext; intros i Hi. apply bsum_ext; intros j Hj. rewrite E by nia. rewrite (choi_entry ops O D) by assumption. apply ksum_mul_r.
  - unfold channel_map. rewrite (bsum_ext D _ (fun i => ksum (map (fun A => bsum D (fun j => me A a i * (me A b j)^* * me rho i j)) ops))) by (intros; apply bsum_ksum_map).
    rewrite bsum_ksum_map. f_equal. apply map_ext_in. intros A HA. unfold fits in F. rewrite Forall_forall in F. destruct (F A HA) as [_ EC]. rewrite EC.
    rewrite bsum_swap. unfold mm. apply bsum_ext; intros j Hj. rewrite <- bsum_mul_r. apply bsum_ext; intros i Hi. unfold adj. ring.
Qed.

(** ** fidelity *)
Lemma vec_overlap (c : choi K) D rho ops : is_square D rho -> is_square (D * D) (ch_mat c) -> fits D D ops -> hermitian D (me rho) ->
  eqm (D * D) (D * D) (me (ch_mat c)) (choi_matrix ops D) ->
  choi_overlap c rho = Ok (ksum (map (fun A => tr D (mm D (me A) (me rho)) * (tr D (mm D (me A) (me rho)))^*) ops)).
Proof.
  intros [R1 R2] [M1 M2] F HE E. unfold choi_overlap, vectorize_rho. rewrite R1, R2, M1, M2, Nat.eqb_refl. cbn [andb guard bind]. f_equal.
  assert (T : forall A : array K, tr D (mm D A (me rho)) = bsum D (fun j => bsum D (fun b => A b j * (me rho b j)^*))).
  { intros A. unfold tr, mm. rewrite bsum_swap. apply bsum_ext; intros j Hj. apply bsum_ext; intros b Hb. f_equal. symmetry. apply (HE j b Hj Hb). }
  rewrite bsum_blocks.
  transitivity (bsum D (fun j => bsum D (fun b => ksum (map (fun A => tr D (mm D (me A) (me rho)) * ((me A b j)^* * me rho b j)) ops)))).
  - apply bsum_ext; intros j Hj. apply bsum_ext; intros b Hb.
    replace ((j * D + b) mod D)%nat with b by (symmetry; apply divmod_l, Hb). replace ((j * D + b) / D)%nat with j by (symmetry; apply divmod_l, Hb).
    rewrite bsum_blocks.
    transitivity (bsum D (fun i => bsum D (fun a => ksum (map (fun A => me A a i * (me A b j)^* * (me rho a i)^*) ops))) * me rho b j).
    + f_equal. apply bsum_ext; intros i Hi. apply bsum_ext; intros a Ha.
      replace ((i * D + a) mod D)%nat with a by (symmetry; apply divmod_l, Ha). replace ((i * D + a) / D)%nat with i by (symmetry; apply divmod_l, Ha).
      rewrite E by nia. rewrite (choi_entry ops D D) by assumption. rewrite <- ksum_mul_r. ring.
    + rewrite (bsum_ext D _ (fun i => ksum (map (fun A => bsum D (fun a => me A a i * (me A b j)^* * (me rho a i)^*)) ops))) by (intros; apply bsum_ksum_map).
      rewrite bsum_ksum_map, ksum_mul_r. f_equal. apply map_ext. intros A. rewrite T.
      rewrite (bsum_ext D (fun i => bsum D (fun a => me A a i * (me A b j)^* * (me rho a i)^*)) (fun i => bsum D (fun a => me A a i * (me rho a i)^*) * (me A b j)^*)).
      * rewrite bsum_mul_r. ring.
      * intros i Hi. rewrite <- bsum_mul_r. apply bsum_ext; intros a Ha. ring.
  - rewrite (bsum_ext D _ (fun j => ksum (map (fun A => bsum D (fun b => tr D (mm D (me A) (me rho)) * ((me A b j)^* * me rho b j))) ops))) by (intros; apply bsum_ksum_map).
    rewrite bsum_ksum_map. f_equal. apply map_ext. intros A. pose proof (T (me A)) as TA. set (t := tr D (mm D (me A) (me rho))) in *. replace (t^*) with ((bsum D (fun j => bsum D (fun b => me A b j * (me rho b j)^*)))^*) by (rewrite <- TA; reflexivity). clearbody t. rewrite bsum_conj, <- bsum_mul_l. apply bsum_ext; intros j Hj.
    rewrite bsum_conj, <- bsum_mul_l. apply bsum_ext; intros b Hb. rewrite sconj_mul, sconj_conj. reflexivity.
Qed.
End Choi.
