(** C32: the n-fold power of a list of operators is trace preserving only if the list is. *)
From Verif Require Import Py Scalar PauliModel PauliSpec KrausModel KrausSpec KrausProofs KrausProofs2 KrausProofs8 KrausProofs12
  ChoiModel ChannelModel ChannelSpec.
From Coq Require Import Reals Lra.
Open Scope nat_scope.
Open Scope K_scope.
Add Ring CCring50 : (s_rt CC).

Fixpoint cpow (x : CC) (n : nat) : CC := match n with O => 1 | S m => x * cpow x m end.
Lemma cpow_zero x n : cpow x n = 0 -> x = 0.
Proof.
  induction n as [|n IH]; cbn [cpow]; intros E.
  - exfalso. apply (f_equal fst) in E. cbn in E. lra.
  - destruct x as [a b]. destruct (cpow (a, b) n) as [c d]. apply (f_equal (fun z : CC => (fst z, snd z))) in E. cbn in E. injection E as E1 E2.
    destruct (Req_dec (a * a + b * b) 0) as [Z|Z].
    + assert (a = 0%R) by exact (Rplus_sqr_eq_0_l _ _ Z). assert (b = 0%R) by (rewrite Rplus_comm in Z; exact (Rplus_sqr_eq_0_l _ _ Z)). subst. reflexivity.
    + apply IH. assert (C : ((a * a + b * b) * c = 0)%R) by (transitivity (a * (a * c - b * d) + b * (a * d + b * c))%R; [ring|rewrite E1, E2; ring]). assert (D : ((a * a + b * b) * d = 0)%R) by (transitivity (a * (a * d + b * c) - b * (a * c - b * d))%R; [ring|rewrite E1, E2; ring]).
      apply Rmult_integral in C. apply Rmult_integral in D. destruct C as [C|C], D as [D|D]; try contradiction. subst. reflexivity.
Qed.
Lemma cpow_real x n : cpow ((x, 0%R) : CC) n = ((x ^ n)%R, 0%R).
Proof. induction n as [|n IH]; [reflexivity|]. cbn [cpow]. rewrite IH. apply pair_equal_spec; split; cbn; ring. Qed.
Lemma pow_le_one x n : (0 <= x <= 1)%R -> (x ^ n <= 1)%R.
Proof. intros H. induction n as [|n IH]; cbn [pow]; [lra|]. assert (0 <= x ^ n)%R by (apply pow_le; lra). nra. Qed.
Lemma pow_one x n : 1 <= n -> (0 <= x)%R -> (x ^ n = 1)%R -> x = 1%R.
Proof.
  intros Hn Hx E. destruct (Rtotal_order x 1) as [L|[L|L]]; [exfalso|exact L|exfalso].
  - destruct n; [lia|]. cbn [pow] in E. assert (x ^ n <= 1)%R by (apply pow_le_one; lra).
    assert (0 <= x ^ n)%R by (apply pow_le; exact Hx). nra.
  - pose proof (Rlt_pow_R1 x n L ltac:(lia)). lra.
Qed.
(** i, i, .., i in base d *)
Fixpoint same_digit (d i n : nat) : nat := match n with O => 0 | S m => (i * d ^ m + same_digit d i m)%nat end.
Lemma same_digit_lt d i n : i < d -> same_digit d i n < d ^ n.
Proof. intros H. induction n as [|n IH]; cbn [same_digit Nat.pow]; [lia|]. nia. Qed.
Lemma gram_power r d ops n i j : fits r d ops -> i < d -> j < d -> gram (power_ops ops n) (same_digit d i n) (same_digit d j n) = cpow (gram ops i j) n.
Proof.
  intros F Hi Hj. induction n as [|n IH].
  - cbn. unfold gram, mm, adj. cbn. apply pair_equal_spec; split; cbn; ring.
  - cbn [power_ops same_digit cpow]. rewrite (gram_tens r d (r ^ n) (d ^ n)) by auto using fits_power. unfold kf.
    pose proof (same_digit_lt d i n Hi) as Li. pose proof (same_digit_lt d j n Hj) as Lj.
    rewrite !Nat.div_add_l, !(Nat.div_small (same_digit _ _ _)), !Nat.add_0_r by lia. rewrite !(Nat.add_comm (_ * d ^ n)), !Nat.mod_add, !Nat.mod_small by lia. rewrite IH. reflexivity.
Qed.
Lemma gram_diag (ops : list (marr CC)) i : exists x, (0 <= x)%R /\ gram ops i i = ((x, 0%R) : CC).
Proof.
  unfold gram. induction ops as [|A ops (x & Hx & E)]; [exists 0%R; split; [lra|reflexivity]|].
  assert (B : exists y, (0 <= y)%R /\ mm (mr A) (adj (me A)) (me A) i i = ((y, 0%R) : CC)).
  { unfold mm. induction (mr A) as [|m (y & Hy & Ey)]; [exists 0%R; split; [lra|reflexivity]|]. cbn [bsum]. rewrite Ey. unfold adj.
    exists (y + (fst (me A m i) * fst (me A m i) + snd (me A m i) * snd (me A m i)))%R. split; [nra|]. destruct (me A m i). apply pair_equal_spec; split; cbn; ring. }
  destruct B as (y & Hy & Ey). exists (y + x)%R. split; [lra|]. cbn [map ksum fold_right]. change (mm (mr A) (adj (me A)) (me A) i i + ksum (map (fun A => mm (mr A) (adj (me A)) (me A) i i) ops) = ((y + x)%R, 0%R)).
  rewrite Ey, E. apply pair_equal_spec; split; cbn; ring.
Qed.
Theorem tp_of_power r d (ops : list (marr CC)) n : fits r d ops -> 1 <= n -> trace_preserving (d ^ n) (power_ops ops n) -> trace_preserving d ops.
Proof.
  intros F Hn T i j Hi Hj. change (gram ops i j = eye i j).
  pose proof (T (same_digit d i n) (same_digit d j n) (same_digit_lt _ _ _ Hi) (same_digit_lt _ _ _ Hj)) as E.
  change (gram (power_ops ops n) (same_digit d i n) (same_digit d j n) = eye (same_digit d i n) (same_digit d j n)) in E. rewrite (gram_power r d) in E by assumption.
  destruct (Nat.eq_dec i j) as [<-|N].
  - unfold eye in *. rewrite Nat.eqb_refl in *. destruct (gram_diag ops i) as (x & Hx & Ex). rewrite Ex, cpow_real in E. rewrite Ex. apply (f_equal fst) in E. cbn in E.
    rewrite (pow_one x n) by assumption. reflexivity.
  - assert (M : same_digit d i n <> same_digit d j n).
    { destruct n as [|n]; [lia|]. cbn [same_digit]. intros C. apply N. pose proof (same_digit_lt d i n Hi). pose proof (same_digit_lt d j n Hj). nia. }
    unfold eye in *. rewrite (proj2 (Nat.eqb_neq _ _) N). rewrite (proj2 (Nat.eqb_neq _ _) M) in E. apply cpow_zero in E. exact E.
Qed.
