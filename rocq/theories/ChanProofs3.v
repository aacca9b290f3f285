(** Choi channels with more particles at the input than at the output, but not twice as many. *)
From Verif Require Import Py Scalar PauliModel PauliSpec KrausModel KrausSpec KrausProofs KrausProofs2 ChoiModel ChannelModel ChoiSpec ChoiProofs ChanSpec ChanProofs ChanProofs2 CohProofs3.
From Coq Require Import Reals Lra.
Open Scope nat_scope.
Open Scope K_scope.
Add Ring CCring49 : (s_rt CC).

Lemma on_last_l D A a b (rho : array CC) x c z : a < A -> b < A -> c < A -> (x * A + b < D)%nat -> mm D (on_last A a b) rho (x * A + c)%nat z = if c =? a then rho (x * A + b)%nat z else 0.
Proof.
  intros Ha Hb Hc Hx. unfold mm, on_last. destruct (divmod_l A x c Hc) as [-> ->]. destruct (Nat.eqb_spec c a) as [->|N]; cbn [andb].
  - rewrite (bsum_one D (x * A + b)%nat); [|exact Hx|].
    + destruct (divmod_l A x b Hb) as [-> ->]. unfold eye, ketbra. rewrite !Nat.eqb_refl. cbn [andb]. ring.
    + intros v Hv N. unfold eye, ketbra. rewrite Nat.eqb_refl. destruct (Nat.eqb_spec x (v / A)) as [E1|]; [|ring]. destruct (Nat.eqb_spec (v mod A) b) as [E2|]; [|cbn [andb]; ring].
      destruct N. rewrite E1, <- E2, (Nat.mul_comm (v / A)). apply Nat.div_mod. lia.
  - apply bsum_zero; intros v Hv. unfold ketbra. destruct (Nat.eqb_spec c a); [contradiction|]. cbn [andb]. ring.
Qed.
Theorem between (c : choi CC) rho ops : num_out c <= num_in c <= 2 * num_out c -> is_square (ch_input_dim c) rho -> is_square (ch_input_dim c * ch_output_dim c) (ch_mat c) ->
  fits (ch_output_dim c) (ch_input_dim c) ops -> eqm (ch_input_dim c * ch_output_dim c) (ch_input_dim c * ch_output_dim c) (me (ch_mat c)) (choi_matrix ops (ch_output_dim c)) ->
  let A := (ch_din c ^ (num_in c - num_out c))%nat in let B := (ch_dout c ^ (2 * num_out c - num_in c))%nat in let W := (ch_dout c ^ (num_in c - num_out c))%nat in
  exists out, choi_channel c rho = Ok out /\ is_square (A * B) out /\
    forall a o b o', a < A -> o < B -> b < A -> o' < B ->
      me out (a * B + o)%nat (b * B + o')%nat = marginal 1 B W (channel_map ops (mm (ch_input_dim c) (on_last A a b) (me rho))) o o'.
Proof.
  intros L [R1 R2] [M1 M2] F HC. set (p := num_out c) in *. set (q := num_in c) in *. set (d := ch_din c) in *. set (e := ch_dout c) in *. intros A B W.
  unfold choi_channel, np_dot, np_kron, np_T, np_eye. cbn [mr mc me]. rewrite R1, R2, M2, Nat.eqb_refl. cbn [guard bind]. unfold ptrace. fold p q d e.
  rewrite app_length, !repeat_length. rewrite (proj2 (Nat.leb_le _ _)) by lia. cbn [guard bind mr mc me].
  rewrite nprod_app, !nprod_repeat. change (d ^ q)%nat with (ch_input_dim c). change (e ^ p)%nat with (ch_output_dim c). rewrite M1, Nat.eqb_refl. cbn [andb guard bind].
  eexists. split; [reflexivity|].
  rewrite !firstn_app, !skipn_app, !firstn_app, !skipn_repeat, !repeat_length, !firstn_repeat.
  replace (p - q)%nat with 0%nat by lia. replace (q - (p + p))%nat with 0%nat by lia. cbn [firstn repeat app]. rewrite Nat.sub_0_r, app_nil_r, nprod_app, !nprod_repeat.
  replace (Nat.min p q) with p by lia. replace (Nat.min p (q - p)) with (q - p)%nat by lia. replace (Nat.min (p - (q - p)) p) with (2 * p - q)%nat by lia. replace (p - (p + p - q))%nat with (q - p)%nat by lia. fold A B W.
  set (m := (d ^ p)%nat). assert (DE : ch_input_dim c = (m * A)%nat) by (unfold ch_input_dim, m, A; fold d q; rewrite <- Nat.pow_add_r; f_equal; lia).
  assert (OE : ch_output_dim c = (B * W)%nat) by (unfold ch_output_dim, B, W; fold e p; rewrite <- Nat.pow_add_r; f_equal; lia).
  split; [split; reflexivity|]. intros a o b o' Ha Ho Hb Ho'. unfold marginal. cbn [me bsum]. rewrite Nat.mul_0_l, !Nat.add_0_l.
  match goal with |- _ = 0 + ?x => replace (0 + x) with x by ring end. rewrite bsum_swap. apply bsum_ext; intros w Hw.
  rewrite (channel_cross (ch_output_dim c) (ch_input_dim c)) by exact F. set (D := ch_input_dim c) in *. set (O := ch_output_dim c) in *.
  assert (Hy : (o * W + w < O)%nat) by (rewrite OE; nia). assert (Hy' : (o' * W + w < O)%nat) by (rewrite OE; nia).
  transitivity (bsum m (fun x => bsum D (fun z => cross ops (o * W + w)%nat (x * A + a)%nat (o' * W + w)%nat z * me rho (x * A + b)%nat z))).
  - apply bsum_ext; intros x Hx. assert (Hu : (x * A + a < D)%nat) by (rewrite DE; nia). assert (Hv : (x * A + b < D)%nat) by (rewrite DE; nia).
    replace ((x * (A * B) + (a * B + o)) * W + w)%nat with ((x * A + a) * O + (o * W + w))%nat by (rewrite OE; ring).
    replace ((x * (A * B) + (b * B + o')) * W + w)%nat with ((x * A + b) * O + (o' * W + w))%nat by (rewrite OE; ring).
    unfold mm. rewrite bsum_blocks. apply bsum_ext; intros z Hz. destruct (divmod_l O (x * A + b) (o' * W + w) Hy') as [E1 E2]. rewrite E1, E2.
    rewrite (bsum_one O (o' * W + w)%nat); [|exact Hy'|].
    + destruct (divmod_l O z (o' * W + w) Hy') as [-> ->]. unfold eye. rewrite Nat.eqb_refl. rewrite HC by nia. rewrite (choi_entry ops O D) by assumption. unfold cross. ring.
    + intros o1 Ho1 N. destruct (divmod_l O z o1 Ho1) as [-> ->]. unfold eye. destruct (Nat.eqb_spec o1 (o' * W + w)); [contradiction|ring].
  - rewrite bsum_swap. apply bsum_ext; intros z Hz. rewrite DE at 1. rewrite bsum_blocks. apply bsum_ext; intros x Hx. rewrite (bsum_one A a); [|exact Ha|].
    + rewrite on_last_l by (try assumption; rewrite DE; nia). rewrite Nat.eqb_refl. reflexivity.
    + intros c' Hc' N. rewrite on_last_l by (try assumption; rewrite DE; nia). destruct (Nat.eqb_spec c' a); [contradiction|ring].
Qed.
