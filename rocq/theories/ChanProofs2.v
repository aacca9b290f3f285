(** Choi channels with different numbers of particles at the input and the output. *)
From Verif Require Import Py Scalar PauliModel PauliSpec KrausModel KrausSpec KrausProofs KrausProofs2 ChoiModel ChannelModel ChoiSpec ChoiProofs ChanSpec ChanProofs.
From Coq Require Import Reals Lra.
Open Scope nat_scope.
Add Ring CCring37 : (s_rt CC).

Theorem more_out (c : choi CC) rho : num_in c < num_out c -> is_square (ch_input_dim c) rho -> is_square (ch_input_dim c * ch_output_dim c) (ch_mat c) ->
  choi_channel c rho = Err IndexError.
Proof.
  intros L [R1 R2] [M1 M2]. unfold choi_channel, np_dot, np_kron, np_T, np_eye. cbn [mr mc]. rewrite R2, M2, Nat.eqb_refl. cbn [guard bind]. unfold ptrace.
  rewrite app_length, !repeat_length. rewrite (proj2 (Nat.leb_gt _ _)) by lia. reflexivity.
Qed.
Lemma firstn_repeat {A} (x : A) n k : firstn k (repeat x n) = repeat x (Nat.min k n).
Proof. revert k. induction n as [|n IH]; intros [|k]; try reflexivity. cbn [repeat firstn Nat.min]. rewrite IH. reflexivity. Qed.
Lemma skipn_repeat {A} (x : A) n k : skipn k (repeat x n) = repeat x (n - k).
Proof. revert k. induction n as [|n IH]; intros [|k]; try reflexivity. cbn [repeat skipn Nat.sub]. apply IH. Qed.
Theorem fewer_out (c : choi CC) rho : 2 * num_out c <= num_in c -> is_square (ch_input_dim c) rho -> is_square (ch_input_dim c * ch_output_dim c) (ch_mat c) ->
  choi_tp (ch_input_dim c) (ch_output_dim c) (me (ch_mat c)) ->
  exists out, choi_channel c rho = Ok out /\ is_square (ch_din c ^ num_out c) out /\
    eqm (ch_din c ^ num_out c) (ch_din c ^ num_out c) (me out)
        (transpose (marginal (ch_din c ^ num_out c) (ch_din c ^ num_out c) (ch_din c ^ (num_in c - 2 * num_out c)) (me rho))).
Proof.
  intros L [R1 R2] [M1 M2] T. set (p := num_out c) in *. set (q := num_in c) in *. set (d := ch_din c) in *.
  unfold choi_channel, np_dot, np_kron, np_T, np_eye. cbn [mr mc me]. rewrite R1, R2, M2, Nat.eqb_refl. cbn [guard bind]. unfold ptrace. fold p q d.
  rewrite app_length, !repeat_length. rewrite (proj2 (Nat.leb_le _ _)) by lia. cbn [guard bind mr mc me].
  rewrite nprod_app, !nprod_repeat. change (d ^ q) with (ch_input_dim c). change (ch_dout c ^ p) with (ch_output_dim c). rewrite M1, Nat.eqb_refl. cbn [andb guard bind].
  eexists. split; [reflexivity|].
  rewrite !firstn_app, !skipn_app, !firstn_app, !skipn_repeat, !repeat_length, !firstn_repeat.
  replace (p - q) with 0 by lia. replace (p + p - q) with 0 by lia. replace (p - (q - p)) with 0 by lia. rewrite Nat.sub_0_r. cbn [firstn]. rewrite !app_nil_r.
  replace (Nat.min p q) with p by lia. replace (Nat.min p (q - p)) with p by lia. rewrite nprod_app, !nprod_repeat. replace (q - (p + p)) with (q - 2 * p) by lia.
  change (ch_dout c ^ p) with (ch_output_dim c). set (O := ch_output_dim c) in *. set (Q := d ^ (q - 2 * p)). set (m := d ^ p).
  assert (DE : ch_input_dim c = m * m * Q) by (unfold ch_input_dim, m, Q; fold d q; rewrite <- !Nat.pow_add_r; f_equal; lia). set (D := ch_input_dim c) in *.
  split; [split; reflexivity|]. intros a b Ha Hb. unfold transpose, marginal. cbn [me]. apply bsum_ext. intros x Hx. rewrite bsum_blocks. apply bsum_ext. intros y Hy.
  set (u := (x * m + a) * Q + y). set (v := (x * m + b) * Q + y).
  assert (Hu : u < D) by (unfold u; rewrite DE; assert (x * m + a < m * m) by nia; nia).
  assert (Hv : v < D) by (unfold v; rewrite DE; assert (x * m + b < m * m) by nia; nia).
  transitivity (bsum O (fun o => bsum D (fun z => smul (me (ch_mat c) (u * O + o) (z * O + o)) (me rho v z)))).
  - apply bsum_ext. intros o Ho. replace ((x * m + a) * (Q * O) + (y * O + o)) with (u * O + o) by (unfold u; ring). replace ((x * m + b) * (Q * O) + (y * O + o)) with (v * O + o) by (unfold v; ring).
    unfold mm. rewrite bsum_blocks. apply bsum_ext. intros z Hz. destruct (divmod_l O v o Ho) as [E1 E2]. rewrite E1, E2.
    rewrite (bsum_one O o); [|exact Ho|].
    + destruct (divmod_l O z o Ho) as [-> ->]. unfold eye. rewrite Nat.eqb_refl. ring.
    + intros o' Ho' N. destruct (divmod_l O z o' Ho') as [-> ->]. unfold eye. destruct (Nat.eqb_spec o' o); [contradiction|ring].
  - rewrite bsum_swap. rewrite (bsum_one D u); [|exact Hu|].
    + rewrite bsum_mul_r. rewrite (T u u Hu Hu). unfold eye. rewrite Nat.eqb_refl. ring.
    + intros z Hz N. rewrite bsum_mul_r. rewrite (T u z Hu Hz). unfold eye. destruct (Nat.eqb_spec u z); [congruence|ring].
Qed.
