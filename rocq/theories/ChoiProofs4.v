(** Choi matrices of Kraus lists are positive; the adjoint flag; the attribute of the number
    of operators; cases for PropsChoi.v. *)
From Verif Require Import Py Scalar PauliModel PauliSpec EncoderProofs EighExists Spectral SpectralProofs PowerSums KrausModel KrausSpec KrausProofs KrausProofs2 KrausProofs6 KrausProofs8 KrausProofs12
  ChoiModel ChannelModel ChannelSpec ChoiSpec ChoiProofs ChoiProofs2 ChoiProofs3 Sqrt EntropyProofs KrausExamples.
From Coq Require Import Reals Lra.
From Coq Require String.
Import String.StringSyntax.
Open Scope nat_scope.
Open Scope K_scope.
Add Ring CCring11 : (s_rt CC).

Theorem choi_psd O D ops : fits O D ops -> psd (D * O)%nat (choi_matrix (K := CC) ops O).
Proof.
  intros F. apply (psd_ext _ (fun x y => ksum (map (fun A => pure (fun z => me A (z mod O)%nat (z / O)%nat) x y) ops))).
  - intros x y Hx Hy. assert (O0 : O <> 0%nat) by (intros Z; rewrite Z in Hx; lia).
    rewrite (Nat.div_mod x O), (Nat.div_mod y O) by exact O0. rewrite !(Nat.mul_comm O).
    assert (x / O < D /\ y / O < D) as [X1 Y1] by (split; apply Nat.div_lt_upper_bound; lia).
    assert (x mod O < O /\ y mod O < O) as [X2 Y2] by (split; apply Nat.mod_upper_bound; exact O0).
    set (i := x / O) in *. set (a := x mod O) in *. set (j := y / O) in *. set (b := y mod O) in *. clearbody i a j b.
    rewrite (choi_entry ops O D) by assumption. f_equal. apply map_ext. intros A. unfold pure. destruct (divmod_l O i a X2) as [-> ->]. destruct (divmod_l O j b Y2) as [-> ->]. reflexivity.
  - rewrite psd_quad. intros v. rewrite quad_ksum. apply nonneg_ksum. intros A _. pose proof (pure_psd (D * O) (fun z => me A (z mod O)%nat (z / O)%nat)) as P. rewrite psd_quad in P. apply P.
Qed.
(** the operators extracted act as the channel of the Choi matrix *)
Theorem extract_channel eigh (c : choi CC) rho : eigh_all_ok eigh -> num_in c = num_out c ->
  let D := ch_input_dim c in let O := ch_output_dim c in is_square (D * O)%nat (ch_mat c) -> psd (D * O)%nat (me (ch_mat c)) -> is_square D rho ->
  (forall t, t < D * O -> (fst (eigh (ch_mat c)) t <= 0)%R \/ (cutoff8 < fst (eigh (ch_mat c)) t)%R) ->
  exists out, choi_channel c rho = Ok out /\ is_square O out /\ eqm O O (me out) (channel_map (choi_kraus_operators eigh c) (me rho)).
Proof.
  intros OK SQN. destruct c as [m ki ko di dd]. cbn [num_in num_out] in SQN. subst ki. set (c := CH m ko ko di dd). intros D O SM P SQ H.
  apply (choi_channel_kraus c rho ko (choi_kraus_operators eigh c) eq_refl eq_refl SQ SM (extract_shapes eigh c)).
  apply eqm_sym. exact (extract_exact eigh OK c SM P H).
Qed.
Lemma idem_eigs d A V e : eqm d d (mm d A A) A -> eigen_decomposition d A e V -> forall t, t < d -> e t = 0%R \/ e t = 1%R.
Proof.
  intros I ED t Ht. pose proof ED as [[U _] H]. assert (Q : rc (e t * e t) = rc (e t)).
  { rewrite <- (eig_quad d A V e ED t Ht). rewrite (quad_ext d A (mm d A A)) by (apply eqm_sym, I).
    assert (E2 : eigen_decomposition d (mm d A A) (fun t => e t * e t)%R V).
    { split; [apply ED|]. intros i s Hi Hs. rewrite mm_assoc. rewrite (mm_congr_r d A _ (fun l s => V l s * rc (e s))) by (intros; apply H; assumption).
      transitivity (mm d A V i s * rc (e s)); [unfold mm; rewrite <- bsum_mul_r; apply bsum_ext; intros; ring|]. rewrite H by assumption. fold (rc (e s)) (rc (e s * e s)). rewrite <- rc_mul. ring. }
    rewrite (eig_quad d _ V _ E2 t Ht). reflexivity. }
  apply rc_inj in Q. destruct (Req_dec (e t) 0) as [|N]; [left; assumption|right]. apply Rmult_eq_reg_l with (e t); [lra|exact N].
Qed.

(** adjoint=True on a Choi channel *)
Theorem adjoint_ignored sparse (c : choi CC) rho n b b' : chan_channel (ChoiType sparse c) rho n b = chan_channel (ChoiType sparse c) rho n b'.
Proof. reflexivity. Qed.
Definition dual_ops (ops : list (marr CC)) : list (marr CC) := map (fun A => MA (mc A) (mr A) (adj (me A))) ops.

Definition choi_arr (ops : list (marr CC)) (D O : nat) : marr CC := MA (D * O)%nat (D * O)%nat (choi_matrix ops O).
Lemma reset_fits : fits 2 2 (arg_matrices (K := CC) reset_ops).
Proof. repeat constructor. Qed.
Lemma reset_choi_idem : eqm (K := CC) 4 4 (mm 4 (choi_matrix (arg_matrices reset_ops) 2) (choi_matrix (arg_matrices reset_ops) 2)) (choi_matrix (arg_matrices reset_ops) 2).
Proof.
  assert (X : forall x y, x < 4 -> y < 4 -> choi_matrix (K := CC) (arg_matrices reset_ops) 2 x y = if (Nat.eqb x y && Nat.even x)%bool then 1 else 0).
  { intros x y Hx Hy. assert (Y : forall i a j b, a < 2 -> b < 2 -> i < 2 -> j < 2 -> choi_matrix (K := CC) (arg_matrices reset_ops) 2 (i * 2 + a)%nat (j * 2 + b)%nat = if (Nat.eqb i j && Nat.eqb a 0 && Nat.eqb b 0)%bool then 1 else 0).
    { intros i a j b Ha Hb Hi Hj. rewrite (choi_entry _ 2 2) by (try assumption; apply reset_fits). cbn [arg_matrices reset_ops map]. rewrite !ksum_cons, ksum_nil. cbn [unit_mat me].
      assert ((i = 0 \/ i = 1) /\ (j = 0 \/ j = 1) /\ (a = 0 \/ a = 1) /\ (b = 0 \/ b = 1))%nat as ([->| ->] & [->| ->] & [->| ->] & [->| ->]) by lia; cbn [Nat.eqb andb]; rewrite ?sconj_0, ?sconj_1; ring. }
    assert ((x = 0 \/ x = 1 \/ x = 2 \/ x = 3) /\ (y = 0 \/ y = 1 \/ y = 2 \/ y = 3))%nat as ([->|[->|[->| ->]]] & [->|[->|[->| ->]]]) by lia.
    all: lazymatch goal with |- choi_matrix _ _ ?p ?q = _ => let i := eval compute in (p / 2) in let a := eval compute in (p mod 2) in let j := eval compute in (q / 2) in let b := eval compute in (q mod 2) in apply (Y i a j b); lia end. }
  intros x y Hx Hy. rewrite X by assumption. unfold mm. rewrite (bsum_ext 4 _ (fun k => (if Nat.eqb k x then (if Nat.even x then 1 else 0) * (if (Nat.eqb x y && Nat.even x)%bool then 1 else 0) else 0))).
  - rewrite bsum_delta by exact Hx. destruct (Nat.even x); rewrite ?Bool.andb_true_r, ?Bool.andb_false_r; [destruct (Nat.eqb x y)|]; ring.
  - intros k Hk. rewrite !X by assumption. rewrite (Nat.eqb_sym x k). destruct (Nat.eqb_spec k x) as [->|N]; cbn [andb]; [|ring]. destruct (Nat.even x); cbn [andb]; rewrite ?Bool.andb_true_r, ?Bool.andb_false_r; ring.
Qed.
Theorem attribute_count (K : StarRing) sp (a : kraus_arg K) nq din dout orthogonal o0 past :
  kraus_init sp a nq din dout orthogonal = Ok o0 -> exists k, after (KrausType o0) past = KrausType k /\ kraus_getattr k "numb_kraus"%string = Ok (length (arg_matrices a)).
Proof.
  intros H. assert (H0 : numb_kraus o0 = length (arg_matrices a)).
  { unfold kraus_init in H. destruct (arg_array a) as [ops|]; [|discriminate]. cbn [bind] in H. destruct (foldM _ _ _); [|discriminate]. cbn [bind] in H. destruct (kraus_operators_exchange _); [|discriminate]. injection H as <-. reflexivity. }
  clear H. unfold after. revert o0 H0. induction past as [|m past IH]; intros o0 H0; cbn [fold_left].
  - exists o0. split; [reflexivity|]. cbn. rewrite H0. reflexivity.
  - cbn [update_channel_tensored]. destruct (Nat.eqb m (current_n o0)); [apply IH, H0|].
    assert (U : numb_kraus (fst (update_kraus_operators o0 m)) = length (arg_matrices a)).
    { rewrite <- H0. clear. assert (T : forall x y (o : kraus K), numb_kraus (tensor_step x y o) = numb_kraus o) by (intros; unfold tensor_step; destruct (sparse o); reflexivity).
      assert (FT : forall (l : list nat) (o : kraus K), numb_kraus (fold_left (fun o _ => tensor_step (kraus_ops o) (nth_ops o) o) l o) = numb_kraus o) by (induction l as [|i l IH]; intros o; [reflexivity|cbn [fold_left]; rewrite IH; apply T]).
      unfold update_kraus_operators. set (o1 := if Nat.ltb (current_n o0) m then _ else _).
      assert (E1 : numb_kraus o1 = numb_kraus o0). { unfold o1. destruct (Nat.ltb (current_n o0) m); [apply FT|]. destruct (Nat.ltb m (current_n o0)); [|reflexivity]. destruct (Nat.eqb m 1); [reflexivity|]. rewrite FT. apply T. }
      destruct (kraus_operators_exchange _); exact E1. }
    destruct (update_kraus_operators o0 m) as [k r]. apply IH, U.
Qed.
Theorem entropy_mixed eigvalsh d : eigvalsh_ok eigvalsh -> 0 < d -> (/ 10000000000 < / INR d)%R ->
  entropy eigvalsh [MA d d (fun i j => if Nat.eqb i j then (((/ INR d)%R, 0%R) : CC) else s0)] = Ok (ln (INR d) / ln 2)%R.
Proof.
  intros OK Hd HC. set (A := MA d d _). assert (DP : (0 < INR d)%R) by (apply lt_0_INR, Hd).
  assert (H : hermitian d (me A)). { intros i j _ _. unfold adj. cbn [A me]. rewrite Nat.eqb_sym. destruct (Nat.eqb i j); [apply rc_conj|apply sconj_0]. }
  destruct (entropy_one eigvalsh A d OK (conj eq_refl eq_refl) H) as (s & Es & VN). rewrite Es. f_equal. destruct VN as (l & SP & ->).
  rewrite (entropy_by_sums _ d (me A) l (repeat (/ INR d)%R d)); [|left; apply Rinv_0_lt_compat; lra|exact SP|].
  - unfold entropy_of. assert (G : forall m, fold_right Rplus 0%R (map (fun x => if Rlt_dec (/ 10000000000) (Rabs x) then (x * (ln x / ln 2))%R else 0%R) (repeat (/ INR d)%R m)) = (INR m * (/ INR d * (- ln (INR d) / ln 2)))%R).
    { induction m as [|m IH]; [cbn; ring|]. cbn [repeat map fold_right]. rewrite IH, S_INR. rewrite Rabs_pos_eq by (left; apply Rinv_0_lt_compat, DP). destruct (Rlt_dec _ _); [|contradiction]. rewrite ln_Rinv by exact DP. ring. }
    rewrite G. pose proof ln2_pos. field. lra.
  - intros p. assert (E : eqm d d (mpow d (me A) (S p)) (fun i j => if Nat.eqb i j then rc ((/ INR d) ^ S p) else 0)).
    { induction p as [|p IH]; intros i j Hi Hj.
      - cbn [mpow]. rewrite mm_eye_r by exact Hj. cbn [A me]. destruct (Nat.eqb i j); [|reflexivity]. fold (rc (/ INR d)). apply (f_equal rc). rewrite pow_1. reflexivity.
      - change (mpow d (me A) (S (S p))) with (mm d (me A) (mpow d (me A) (S p))). unfold mm. rewrite (bsum_one d i); [|exact Hi|].
        + rewrite IH by assumption. cbn [A me]. rewrite Nat.eqb_refl. destruct (Nat.eqb i j); [|ring]. fold (rc (/ INR d)). rewrite rc_mul. reflexivity.
        + intros k Hk N. cbn [A me]. destruct (Nat.eqb_spec i k); [congruence|ring]. }
    rewrite (tr_eqm d _ _ E). unfold tr. rewrite (bsum_ext d _ (fun _ => rc ((/ INR d) ^ S p))) by (intros; rewrite Nat.eqb_refl; reflexivity).
    generalize (/ INR d)%R. intros x. clear. induction d as [|m IH]; [reflexivity|]. cbn [bsum repeat]. rewrite IH. unfold sumof. cbn [map fold_right]. rewrite rc_add. f_equal. ring.
Qed.
