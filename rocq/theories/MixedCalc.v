(** Real analysis behind the optimum of the dephrasure channel (C130). *)
From Coq Require Import Reals Lra Psatz.
From Coquelicot Require Import Coquelicot.
Open Scope R_scope.

(** ** signs of derivatives *)
Ltac mp := repeat match goal with |- 0 < _ * _ => apply Rmult_lt_0_compat end.
Lemma climb f df a b : a <= b -> (forall x, a <= x <= b -> continuity_pt f x) -> (forall x, a < x < b -> is_derive f x (df x)) -> (forall x, a < x < b -> 0 <= df x) -> f a <= f b.
Proof.
  intros L C D P. destruct (Req_dec a b) as [->|N]; [lra|].
  destruct (MVT f id a b (fun c P => exist _ (df c) (proj1 (is_derive_Reals _ _ _) (D c P))) (fun c P => derivable_pt_id c)) as (c & Hc & E); [lra|exact C|intros; apply derivable_continuous_pt, derivable_pt_id|].
  cbn [derive_pt proj1_sig] in E. rewrite derive_pt_id in E. unfold id in E. specialize (P c Hc). assert (0 <= (b - a) * df c) by (apply Rmult_le_pos; lra). cbn in E. lra.
Qed.

Lemma fall f df a b : a <= b -> (forall x, a <= x <= b -> continuity_pt f x) -> (forall x, a < x < b -> is_derive f x (df x)) -> (forall x, a < x < b -> df x <= 0) -> f b <= f a.
Proof.
  intros L C D P. apply Ropp_le_cancel. apply (climb (fun x => - f x) (fun x => - df x)); [exact L|intros x H; apply continuity_pt_opp, C, H|intros x H; apply (is_derive_opp f x (df x)), D, H|intros x H; specialize (P x H); lra].
Qed.
(** first up, then down: the least value is taken at an end *)
Lemma hill f df a b : a <= b -> (forall x, a <= x <= b -> continuity_pt f x) -> (forall x, a < x < b -> is_derive f x (df x)) ->
  (forall x y, a < x -> x <= y -> y < b -> 0 <= df y -> 0 <= df x) -> forall x, a <= x <= b -> Rmin (f a) (f b) <= f x.
Proof.
  intros L C D S x H. destruct (Req_dec x a) as [->|Na]; [apply Rmin_l|]. destruct (Req_dec x b) as [->|Nb]; [apply Rmin_r|]. destruct (Rle_dec 0 (df x)) as [P|P].
  - apply Rle_trans with (f a); [apply Rmin_l|]. apply (climb f df a x); [lra|intros; apply C; lra|intros; apply D; lra|]. intros y Hy. apply (S y x); lra.
  - apply Rle_trans with (f b); [apply Rmin_r|]. apply (fall f df x b); [lra|intros; apply C; lra|intros; apply D; lra|]. intros y Hy. destruct (Rle_dec (df y) 0) as [Q|Q]; [exact Q|]. exfalso. apply P, (S x y); lra.
Qed.
Lemma deriv_cont f x l : is_derive f x l -> continuity_pt f x.
Proof. intros D. apply derivable_continuous_pt. exists l. apply is_derive_Reals, D. Qed.
(** ** the inverse hyperbolic tangent *)
Definition ath (r : R) : R := (ln (1 + r) - ln (1 - r)) / 2.
Lemma ath_d r : -1 < r < 1 -> is_derive ath r (/ (1 - r * r)).
Proof. intros H. unfold ath. auto_derive; [lra|]. field. repeat split; nra. Qed.
Lemma ath_0 : ath 0 = 0. Proof. unfold ath. replace (1 + 0) with 1 by ring. replace (1 - 0) with 1 by ring. lra. Qed.
Lemma below_0 f df : f 0 = 0 -> (forall x, 0 <= x < 1 -> is_derive f x (df x)) -> (forall x, 0 < x < 1 -> 0 <= df x) -> forall x, 0 <= x < 1 -> 0 <= f x.
Proof. intros Z D P x Hx. rewrite <- Z. apply (climb f df); [lra|intros y Hy; apply (deriv_cont f y (df y)), D; lra|intros y Hy; apply D; lra|intros y Hy; apply P; lra]. Qed.
Lemma sq1 r : 0 <= r < 1 -> 0 < 1 - r * r. Proof. intros. nra. Qed.
Ltac ders := intros x Hx; pose proof (sq1 x ltac:(lra)); unfold ath; auto_derive; [repeat split; nra|change (ln (1 + - x)) with (ln (1 - x))].
Lemma ath_low r : 0 <= r < 1 -> r + r * r * r / 3 <= ath r.
Proof.
  intros H. assert (0 <= ath r - (r + r * r * r / 3)); [|lra]. revert r H. apply (below_0 _ (fun x => / (1 - x * x) - (1 + x * x))).
  - rewrite ath_0. lra.
  - ders. field. split; nra.
  - intros x Hx. pose proof (sq1 x ltac:(lra)). apply (Rmult_le_reg_r (1 - x * x)); [assumption|]. rewrite Rmult_minus_distr_r, Rinv_l by lra. nra.
Qed.
Lemma ath_high r : 0 <= r < 1 -> ath r <= r / (1 - r * r).
Proof.
  intros H. assert (0 <= r / (1 - r * r) - ath r); [|lra]. revert r H. apply (below_0 _ (fun x => (1 + x * x) / ((1 - x * x) * (1 - x * x)) - / (1 - x * x))).
  - rewrite ath_0. lra.
  - ders. field. repeat split; nra.
  - intros x Hx. pose proof (sq1 x ltac:(lra)). replace ((1 + x * x) / ((1 - x * x) * (1 - x * x)) - / (1 - x * x)) with ((2 * (x * x)) * / ((1 - x * x) * (1 - x * x))) by (field; lra). apply Rmult_le_pos; [nra|]. left. apply Rinv_0_lt_compat. nra.
Qed.
Lemma ath_pos r : 0 < r < 1 -> 0 < ath r. Proof. intros H. pose proof (ath_low r ltac:(lra)). assert (0 < r * r * r) by (mp; lra). lra. Qed.
Lemma div_pos x y : 0 <= x -> 0 < y -> 0 <= x / y. Proof. intros. apply Rmult_le_pos; [assumption|]. left. apply Rinv_0_lt_compat. assumption. Qed.
(** r^2/(1-r^2) + r ath r >= 2 (ath r)^2 *)
Lemma quad_a r : 0 <= r < 1 -> 0 <= 2 * r / (1 - r * r) + r - (3 + r * r) * ath r.
Proof.
  revert r. apply (below_0 _ (fun x => 2 * x * (x * (1 + x * x) / ((1 - x * x) * (1 - x * x)) - ath x))).
  - rewrite ath_0. lra.
  - ders. field. repeat split; nra.
  - intros x Hx. pose proof (sq1 x ltac:(lra)) as Q. pose proof (ath_high x ltac:(lra)) as A. assert (B : x / (1 - x * x) <= x * (1 + x * x) / ((1 - x * x) * (1 - x * x))).
    { assert (0 <= x * (1 + x * x) / ((1 - x * x) * (1 - x * x)) - x / (1 - x * x)); [|lra]. replace (x * (1 + x * x) / ((1 - x * x) * (1 - x * x)) - x / (1 - x * x)) with (2 * x * x * x / ((1 - x * x) * (1 - x * x))) by (field; lra). apply div_pos; [|nra]. assert (0 < x * x * x) by (mp; lra). lra. }
    apply Rmult_le_pos; lra.
Qed.
Lemma quad_k r : 0 <= r < 1 -> 2 * (ath r * ath r) <= r * ath r + r * r / (1 - r * r).
Proof.
  intros H. assert (0 <= r * r / (1 - r * r) + r * ath r - 2 * (ath r * ath r)); [|lra]. revert r H.
  apply (below_0 _ (fun x => (2 * x / (1 - x * x) + x - (3 + x * x) * ath x) / (1 - x * x))).
  - rewrite ath_0. lra.
  - ders. field. repeat split; nra.
  - intros x Hx. apply div_pos; [apply quad_a; lra|apply sq1; lra].
Qed.
Lemma quad_p r : 0 <= r < 1 -> r * (1 - 3 * (r * r)) * ath r + r * r <= 2 * (1 - r * r) * (1 - r * r) * (ath r * ath r).
Proof.
  intros H. pose proof (sq1 r H) as Q. assert (P : 0 <= 2 * (ath r * ath r) - r * (1 - 3 * (r * r)) * ath r / ((1 - r * r) * (1 - r * r)) - r * r / ((1 - r * r) * (1 - r * r))).
  { clear Q. revert r H. apply (below_0 _ (fun x => (ath x * (3 - 2 * (x * x) + 7 * (x * x * x * x)) - 3 * x + x * x * x) / ((1 - x * x) * (1 - x * x) * (1 - x * x)))).
    - rewrite ath_0. lra.
    - ders. field. repeat split; nra.
    - intros x Hx. pose proof (sq1 x ltac:(lra)) as Q. pose proof (ath_low x ltac:(lra)) as A. apply div_pos; [|mp; assumption].
      assert (W : 0 <= 3 - 2 * (x * x) + 7 * (x * x * x * x)) by nra. assert (X3 : 0 < x * x * x) by (mp; lra). assert (X5 : 0 < x * x * x * (x * x)) by (apply Rmult_lt_0_compat; nra). assert (X7 : 0 < x * x * x * (x * x) * (x * x)) by (apply Rmult_lt_0_compat; nra).
      pose proof (Rmult_le_compat_r _ _ _ W A) as Z. nra. }
  assert (S : 0 < (1 - r * r) * (1 - r * r)) by nra. apply (Rmult_le_compat_r _ _ _ (Rlt_le _ _ S)) in P. rewrite Rmult_0_l in P.
  replace ((2 * (ath r * ath r) - r * (1 - 3 * (r * r)) * ath r / ((1 - r * r) * (1 - r * r)) - r * r / ((1 - r * r) * (1 - r * r))) * ((1 - r * r) * (1 - r * r))) with (2 * (1 - r * r) * (1 - r * r) * (ath r * ath r) - r * (1 - 3 * (r * r)) * ath r - r * r) in P by (field; lra). lra.
Qed.
(** ** the logarithm of (ath r)/r *)
Definition lf (r : R) : R := ln (ath r) - ln r.
Definition gee (r : R) : R := / (r * ath r) - / (r * r) + 1.
Definition lam (r : R) : R := / (r * (1 - r * r) * ath r) - / (r * r).
Lemma lf_d r : 0 < r < 1 -> is_derive lf r (r * lam r).
Proof.
  intros H. pose proof (ath_pos r H) as A. pose proof (sq1 r ltac:(lra)) as Q. pose proof (ath_d r ltac:(lra)) as D. unfold lf, lam.
  evar_last; [apply (is_derive_minus (fun x => ln (ath x)) ln); [apply (is_derive_comp ln ath r (/ ath r)); [apply is_derive_Reals, derivable_pt_lim_ln, A|exact D]|apply is_derive_Reals, derivable_pt_lim_ln; lra]|].
  unfold minus, plus, opp, scal; cbn; unfold mult; cbn. field. repeat split; lra.
Qed.
Lemma gee_fall r v : 0 < r -> r <= v -> v < 1 -> gee v <= gee r.
Proof.
  intros Hr L Hv. set (dg := fun x => 2 / (x * x * x) - (ath x + x / (1 - x * x)) / (x * x * (ath x * ath x))).
  assert (D : forall x, r <= x <= v -> is_derive gee x (dg x)).
  { intros x Hx; pose proof (ath_pos x ltac:(lra)) as A; pose proof (sq1 x ltac:(lra)) as Q; pose proof (ath_d x ltac:(lra)) as D; unfold gee, dg; auto_derive; [repeat split; [exists (/ (1 - x * x)); exact D|nra|nra]|]; replace (Derive (fun x0 : R => ath x0) x) with (/ (1 - x * x)) by (symmetry; apply is_derive_unique; exact D); field; repeat split; nra. }
  apply (fall gee dg r v); [exact L|intros x Hx; eapply deriv_cont, D, Hx|intros x Hx; apply D; lra|].
  intros x Hx. pose proof (ath_pos x ltac:(lra)) as A. pose proof (sq1 x ltac:(lra)) as Q. pose proof (quad_k x ltac:(lra)) as K. unfold dg.
  assert (0 <= (x * ath x + x * x / (1 - x * x) - 2 * (ath x * ath x)) / (x * x * x * (ath x * ath x))) as P by (apply div_pos; [lra|mp; lra]).
  replace (2 / (x * x * x) - (ath x + x / (1 - x * x)) / (x * x * (ath x * ath x))) with (- ((x * ath x + x * x / (1 - x * x) - 2 * (ath x * ath x)) / (x * x * x * (ath x * ath x)))) by (field; lra). lra.
Qed.
Lemma lam_climb r v : 0 < r -> r <= v -> v < 1 -> lam r <= lam v.
Proof.
  intros Hr L Hv. set (dl := fun x => 2 / (x * x * x) - ((1 - 3 * (x * x)) * ath x + x) / (x * x * ((1 - x * x) * (1 - x * x)) * (ath x * ath x))).
  assert (D : forall x, r <= x <= v -> is_derive lam x (dl x)).
  { intros x Hx; pose proof (ath_pos x ltac:(lra)) as A; pose proof (sq1 x ltac:(lra)) as Q; pose proof (ath_d x ltac:(lra)) as D; unfold lam, dl; auto_derive; [repeat split; [exists (/ (1 - x * x)); exact D|change (1 + - (x * x)) with (1 - x * x); apply Rgt_not_eq, Rlt_gt; mp; lra|nra]|]; replace (Derive (fun x0 : R => ath x0) x) with (/ (1 - x * x)) by (symmetry; apply is_derive_unique; exact D); field; repeat split; nra. }
  apply (climb lam dl r v); [exact L|intros x Hx; eapply deriv_cont, D, Hx|intros x Hx; apply D; lra|].
  intros x Hx. pose proof (ath_pos x ltac:(lra)) as A. pose proof (sq1 x ltac:(lra)) as Q. pose proof (quad_p x ltac:(lra)) as K. unfold dl.
  replace (2 / (x * x * x) - ((1 - 3 * (x * x)) * ath x + x) / (x * x * ((1 - x * x) * (1 - x * x)) * (ath x * ath x))) with ((2 * (1 - x * x) * (1 - x * x) * (ath x * ath x) - (x * (1 - 3 * (x * x)) * ath x + x * x)) / (x * x * x * ((1 - x * x) * (1 - x * x)) * (ath x * ath x))) by (field; lra).
  apply div_pos; [lra|mp; lra].
Qed.
Lemma lam_pos r : 0 < r < 1 -> 0 <= lam r.
Proof.
  intros H. pose proof (ath_pos r H) as A. pose proof (sq1 r ltac:(lra)) as Q. pose proof (ath_high r ltac:(lra)) as K. unfold lam.
  replace (/ (r * (1 - r * r) * ath r) - / (r * r)) with ((r / (1 - r * r) - ath r) / (r * r * ath r)) by (field; lra). apply div_pos; [lra|mp; lra].
Qed.
Lemma gee_lam r : 0 < r < 1 -> (1 - r * r) * lam r = gee r.
Proof. intros H. pose proof (ath_pos r H). pose proof (sq1 r ltac:(lra)). unfold gee, lam. field. lra. Qed.
Lemma lf_0 r : 0 < r < 1 -> 0 <= lf r.
Proof. intros H. pose proof (ath_pos r H). pose proof (ath_low r ltac:(lra)). assert (0 < r * r * r) by (mp; lra). unfold lf. assert (ln r <= ln (ath r)) by (apply ln_le; lra). lra. Qed.
(** Fl(v) <= Fl(o) + Fl(z) where 1-v^2 = (1-o^2)(1-z^2) *)
Definition join (o z : R) : R := sqrt (1 - (1 - o * o) * (1 - z * z)).
Lemma join_sq o z : 0 <= o <= 1 -> 0 <= z <= 1 -> 0 <= 1 - (1 - o * o) * (1 - z * z) <= 1.
Proof. intros Ho Hz. assert (0 <= 1 - o * o <= 1) by nra. assert (0 <= 1 - z * z <= 1) by nra. nra. Qed.
Lemma join_bounds o z : 0 < o < 1 -> 0 <= z < 1 -> o <= join o z < 1 /\ z <= join o z /\ join o z * join o z = 1 - (1 - o * o) * (1 - z * z).
Proof.
  intros Ho Hz. pose proof (join_sq o z ltac:(lra) ltac:(lra)) as J. pose proof (sq1 o ltac:(lra)) as Qo. pose proof (sq1 z ltac:(lra)) as Qz. assert (P : 0 < (1 - o * o) * (1 - z * z)) by (mp; lra).
  split; [split|split].
  - unfold join. rewrite <- (sqrt_square o) at 1 by lra. apply sqrt_le_1_alt. nra.
  - unfold join. apply Rlt_le_trans with (sqrt 1); [apply sqrt_lt_1_alt; lra|rewrite sqrt_1; lra].
  - unfold join. rewrite <- (sqrt_square z) at 1 by lra. apply sqrt_le_1_alt. nra.
  - unfold join. apply sqrt_sqrt. lra.
Qed.
Lemma join_0 o : 0 <= o -> join o 0 = o.
Proof. intros H. unfold join. replace (1 - (1 - o * o) * (1 - 0 * 0)) with (o * o) by ring. apply sqrt_square, H. Qed.
Lemma join_d o z : 0 < o < 1 -> 0 <= z < 1 -> is_derive (join o) z ((1 - o * o) * z / join o z).
Proof.
  intros Ho Hz. destruct (join_bounds o z Ho Hz) as ((J1 & J2) & J3 & J4). unfold join at 1. auto_derive; [fold (1 - o * o) (1 - z * z) (1 - (1 - o * o) * (1 - z * z)); rewrite <- J4; nra|].
  fold (1 - o * o) (1 - z * z) (1 - (1 - o * o) * (1 - z * z)). fold (join o z). field. lra.
Qed.
Lemma lf_join o z : 0 < o < 1 -> 0 < z < 1 -> lf (join o z) <= lf o + lf z.
Proof.
  intros Ho Hz. assert (LIM : continuity_pt (fun e => lf (join o e)) 0).
  { apply (continuity_pt_comp (join o) lf); [eapply deriv_cont, join_d; lra|]. rewrite join_0 by lra. eapply deriv_cont, lf_d, Ho. }
  assert (STEP : forall e, 0 < e < z -> lf (join o z) - lf z <= lf (join o e)).
  { intros e He. apply Rle_trans with (lf (join o e) - lf e); [|pose proof (lf_0 e ltac:(lra)); lra].
    set (dh := fun x => (1 - o * o) * x / join o x * (join o x * lam (join o x)) - x * lam x).
    assert (D : forall x, e <= x <= z -> is_derive (fun x => lf (join o x) - lf x) x (dh x)).
    { intros x Hx. apply (is_derive_minus (fun x => lf (join o x)) lf); [|apply lf_d; lra]. apply (is_derive_comp lf (join o) x (join o x * lam (join o x)) ((1 - o * o) * x / join o x)); [|apply join_d; lra]. apply lf_d. pose proof (join_bounds o x Ho ltac:(lra)). lra. }
    apply (fall (fun x => lf (join o x) - lf x) dh e z); [lra|intros x Hx; eapply deriv_cont, D, Hx|intros x Hx; apply D; lra|].
    intros x Hx. unfold dh. destruct (join_bounds o x Ho ltac:(lra)) as ((J1 & J2) & J3 & J4). pose proof (sq1 x ltac:(lra)) as Q.
    replace ((1 - o * o) * x / join o x * (join o x * lam (join o x)) - x * lam x) with (x / (1 - x * x) * (((1 - o * o) * (1 - x * x)) * lam (join o x) - (1 - x * x) * lam x)) by (field; lra).
    replace ((1 - o * o) * (1 - x * x)) with (1 - join o x * join o x) by lra. rewrite !gee_lam by lra. pose proof (gee_fall x (join o x) ltac:(lra) J3 J2). assert (0 <= x / (1 - x * x)) by (apply div_pos; lra). nra. }
  destruct (Rle_dec (lf (join o z)) (lf o + lf z)) as [G|G]; [exact G|]. exfalso. set (g := lf (join o z) - (lf o + lf z)). assert (Hg : 0 < g) by (unfold g; lra).
  destruct (LIM g Hg) as (d & Hd & B). set (e := Rmin (d / 2) (z / 2)). assert (E : 0 < e /\ e < d /\ e < z) by (unfold e; pose proof (Rmin_l (d / 2) (z / 2)); pose proof (Rmin_r (d / 2) (z / 2)); split; [apply Rmin_glb_lt; lra|lra]).
  specialize (B e). cbn in B. unfold R_dist in B. rewrite join_0 in B by lra. rewrite Rminus_0_r in B. assert (X : Rabs (lf (join o e) - lf o) < g). { apply B. split; [split; [exact I|lra]|]. rewrite Rabs_right by lra. lra. }
  apply Rabs_def2 in X. specialize (STEP e ltac:(lra)). unfold g in X. lra.
Qed.
(** ** x ln x and the entropy of two numbers *)
Definition xl (x : R) : R := x * ln x.
Lemma ln_neg x : x <= 0 -> ln x = 0. Proof. intros H. unfold ln. destruct (Rlt_dec 0 x); [exfalso; lra|reflexivity]. Qed.
Lemma xl_small x : 0 < x < 1 -> - (2 * sqrt x) <= xl x <= 0.
Proof.
  intros H. unfold xl. pose proof (sqrt_lt_R0 x ltac:(lra)) as S. pose proof (sqrt_sqrt x ltac:(lra)) as SS. assert (L : ln x = 2 * ln (sqrt x)) by (rewrite <- SS at 1; rewrite ln_mult by assumption; ring).
  split; [|assert (ln x < 0) by (rewrite <- ln_1; apply ln_increasing; lra); nra].
  assert (I : - ln (sqrt x) <= / sqrt x). { rewrite <- ln_Rinv by exact S. pose proof (exp_ineq1_le (ln (/ sqrt x))) as X. rewrite exp_ln in X by (apply Rinv_0_lt_compat, S). lra. }
  rewrite L. apply (Rmult_le_compat_l x _ _ ltac:(lra)) in I. replace (x * / sqrt x) with (sqrt x) in I by (rewrite <- SS at 2; field; lra). lra.
Qed.
Lemma xl_cont x : 0 <= x -> continuity_pt xl x.
Proof.
  intros H. destruct (Req_dec x 0) as [->|N].
  - intros e He. exists (Rmin 1 (e / 2 * (e / 2))). split; [apply Rmin_glb_lt; [lra|nra]|]. intros y [_ D]. cbn in *. unfold R_dist in *. rewrite Rminus_0_r in D. unfold xl at 2. rewrite Rmult_0_l, Rminus_0_r.
    destruct (Rle_dec y 0) as [L|L]; [unfold xl; rewrite ln_neg by exact L; rewrite Rmult_0_r, Rabs_R0; exact He|]. rewrite Rabs_right in D by lra.
    pose proof (Rmin_l 1 (e / 2 * (e / 2))). pose proof (Rmin_r 1 (e / 2 * (e / 2))). destruct (xl_small y ltac:(lra)) as [A B]. assert (sqrt y < e / 2) by (rewrite <- (sqrt_square (e / 2)) by lra; apply sqrt_lt_1_alt; lra).
    apply Rabs_def1; lra.
  - apply (continuity_pt_mult id ln); [apply derivable_continuous_pt, derivable_pt_id|apply derivable_continuous_pt; exists (/ x); apply derivable_pt_lim_ln; lra].
Qed.
Definition phi (r : R) : R := (xl (1 + r) + xl (1 - r)) / 2.
Lemma phi_d r : -1 < r < 1 -> is_derive phi r (ath r).
Proof. intros H. unfold phi, xl, ath. auto_derive; [lra|]. change (ln (1 + - r)) with (ln (1 - r)). field. split; lra. Qed.
Lemma phi_cont r : -1 <= r <= 1 -> continuity_pt phi r.
Proof.
  intros H. unfold phi. apply (continuity_pt_mult (fun r => xl (1 + r) + xl (1 - r)) (fun _ => / 2)); [|apply continuity_pt_const; intros u w; reflexivity].
  apply continuity_pt_plus.
  - apply (continuity_pt_comp (fun r => 1 + r) xl); [|apply xl_cont; lra]. apply (deriv_cont _ _ 1). auto_derive; [trivial|ring].
  - apply (continuity_pt_comp (fun r => 1 - r) xl); [|apply xl_cont; lra]. apply (deriv_cont _ _ (- 1)). auto_derive; [trivial|ring].
Qed.
Lemma phi_0 : phi 0 = 0. Proof. unfold phi, xl. rewrite Rplus_0_r, Rminus_0_r, ln_1. lra. Qed.
Lemma phi_1 : phi 1 = ln 2. Proof. unfold phi, xl. replace (1 + 1) with 2 by ring. replace (1 - 1) with 0 by ring. lra. Qed.
Lemma phi_up r : 0 <= r <= 1 -> 0 <= phi r.
Proof. intros H. rewrite <- phi_0. apply (climb phi ath); [lra|intros x Hx; apply phi_cont; lra|intros x Hx; apply phi_d; lra|intros x Hx; left; apply ath_pos; lra]. Qed.
Lemma join_cont o z : 0 < o < 1 -> 0 <= z <= 1 -> continuity_pt (join o) z.
Proof.
  intros Ho Hz. apply (continuity_pt_comp (fun z => 1 - (1 - o * o) * (1 - z * z)) sqrt); [|apply continuity_pt_sqrt; apply (join_sq o z); lra].
  apply (deriv_cont _ _ ((1 - o * o) * (2 * z))). auto_derive; [trivial|ring].
Qed.
(** ** the two steps *)
Lemma ln_back x y : 0 < y -> ln x <= ln y -> x <= y.
Proof. intros Hy L. destruct (Rle_dec x y) as [H|H]; [exact H|]. exfalso. pose proof (ln_increasing y x Hy ltac:(lra)). lra. Qed.
Definition rest (o : R) : R := (1 - o * o) * (ath o / o).
Theorem along o z : 0 < o < 1 -> 0 <= z <= 1 -> phi (join o z) - phi o <= rest o * phi z.
Proof.
  intros Ho Hz. set (f := fun x => rest o * phi x - phi (join o x)). assert (G : f 0 <= f z); [|unfold f in G; rewrite phi_0, (join_0 o) in G by lra; lra].
  set (df := fun x => rest o * ath x - (1 - o * o) * x / join o x * ath (join o x)).
  assert (JB : forall x, 0 <= x <= 1 -> 0 <= join o x <= 1). { intros x Hx. unfold join. split; [apply sqrt_pos|]. apply Rle_trans with (sqrt 1); [apply sqrt_le_1_alt; apply (join_sq o x); lra|rewrite sqrt_1; lra]. }
  apply (climb f df); [lra| | |].
  - intros x Hx. unfold f. apply (continuity_pt_minus (fun x => rest o * phi x) (fun x => phi (join o x))); [apply (continuity_pt_scal phi), phi_cont; lra|]. apply (continuity_pt_comp (join o) phi); [apply join_cont; lra|]. apply phi_cont. pose proof (JB x ltac:(lra)). lra.
  - intros x Hx. unfold f, df. apply (is_derive_minus (fun x => rest o * phi x) (fun x => phi (join o x))); [apply (is_derive_scal phi x (rest o) (ath x)), phi_d; lra|]. apply (is_derive_comp phi (join o) x (ath (join o x)) ((1 - o * o) * x / join o x)); [|apply join_d; lra]. apply phi_d. pose proof (join_bounds o x Ho ltac:(lra)). lra.
  - intros x Hx. unfold df, rest. destruct (join_bounds o x Ho ltac:(lra)) as ((J1 & J2) & J3 & J4). pose proof (sq1 o ltac:(lra)) as Q. pose proof (ath_pos o Ho) as A. pose proof (ath_pos x ltac:(lra)) as B. pose proof (ath_pos (join o x) ltac:(lra)) as C.
    assert (L : ath (join o x) / join o x <= ath o / o * (ath x / x)).
    { pose proof (lf_join o x Ho ltac:(lra)) as L. unfold lf in L. rewrite <- !ln_div in L by lra. rewrite <- ln_mult in L by (apply Rdiv_lt_0_compat; lra). apply ln_back; [apply Rmult_lt_0_compat; apply Rdiv_lt_0_compat; lra|exact L]. }
    replace ((1 - o * o) * (ath o / o) * ath x - (1 - o * o) * x / join o x * ath (join o x)) with ((1 - o * o) * x * (ath o / o * (ath x / x) - ath (join o x) / join o x)) by (field; lra). apply Rmult_le_pos; [nra|lra].
Qed.

Lemma rest_1 o : 0 < o < 1 -> 0 <= rest o <= 1.
Proof.
  intros Ho. unfold rest. pose proof (ath_pos o Ho) as A. pose proof (sq1 o ltac:(lra)) as Q. pose proof (ath_high o ltac:(lra)) as H. split; [apply Rmult_le_pos; [lra|apply div_pos; lra]|].
  apply (Rmult_le_compat_l ((1 - o * o) / o)) in H; [|apply div_pos; lra]. replace ((1 - o * o) / o * ath o) with ((1 - o * o) * (ath o / o)) in H by (field; lra). replace ((1 - o * o) / o * (o / (1 - o * o))) with 1 in H by (field; lra). exact H.
Qed.
Section Across.
Variables (o z : R).
Hypothesis Ho : 0 < o < 1.
Hypothesis Hz : 0 <= z <= 1.
Let al (t : R) : R := sqrt (z * z + o * o * t).
Let be (t : R) : R := sqrt (z * z + t).
Let top : R := 1 - z * z.
Lemma al_in t : 0 < t < top -> 0 < al t /\ al t <= be t /\ be t < 1.
Proof.
  intros Ht. unfold top in Ht. assert (0 < o * o) by nra. assert (0 < o * o * t) by (apply Rmult_lt_0_compat; lra). assert (o * o * t <= 1 * t) by (apply Rmult_le_compat_r; nra). split; [apply sqrt_lt_R0; nra|]. split; [apply sqrt_le_1_alt; lra|]. apply Rlt_le_trans with (sqrt 1); [apply sqrt_lt_1_alt; nra|rewrite sqrt_1; lra].
Qed.
Lemma al_d t : 0 < t < top -> is_derive al t (o * o / (2 * al t)).
Proof. intros Ht. destruct (al_in t Ht) as (A & _). assert (P : 0 < z * z + o * o * t) by (unfold al in A; destruct (Rlt_dec 0 (z * z + o * o * t)) as [P|P]; [exact P|]; exfalso; rewrite sqrt_neg_0 in A by lra; lra). unfold al at 1. auto_derive; [exact P|]. fold (al t). field. lra. Qed.
Lemma be_d t : 0 < t < top -> is_derive be t (1 / (2 * be t)).
Proof. intros Ht. destruct (al_in t Ht) as (A & B & _). assert (P : 0 < z * z + t) by nra. unfold be at 1. auto_derive; [exact P|]. fold (be t). field. lra. Qed.
Lemma gap t s : 0 < t -> t <= s -> s < top -> lf (al s) - lf (be s) <= lf (al t) - lf (be t).
Proof.
  intros Ht L Hs. set (df := fun x => o * o / (2 * al x) * (al x * lam (al x)) - 1 / (2 * be x) * (be x * lam (be x))).
  assert (D : forall x, t <= x <= s -> is_derive (fun x => lf (al x) - lf (be x)) x (df x)).
  { intros x Hx. destruct (al_in x ltac:(lra)) as (A & B & C). apply (is_derive_minus (fun x => lf (al x)) (fun x => lf (be x))).
    - apply (is_derive_comp lf al x (al x * lam (al x)) (o * o / (2 * al x))); [apply lf_d; lra|apply al_d; lra].
    - apply (is_derive_comp lf be x (be x * lam (be x)) (1 / (2 * be x))); [apply lf_d; lra|apply be_d; lra]. }
  apply (fall (fun x => lf (al x) - lf (be x)) df t s); [exact L|intros x Hx; eapply deriv_cont, D, Hx|intros x Hx; apply D; lra|].
  intros x Hx. destruct (al_in x ltac:(lra)) as (A & B & C). unfold df. replace (o * o / (2 * al x) * (al x * lam (al x)) - 1 / (2 * be x) * (be x * lam (be x))) with ((o * o * lam (al x) - lam (be x)) / 2) by (field; lra).
  pose proof (lam_climb (al x) (be x) A B C). pose proof (lam_pos (al x) ltac:(lra)). assert (0 <= o * o <= 1) by nra. nra.
Qed.
Theorem across t : 0 <= t <= top -> (1 - rest o) * phi (be t) + (phi (join o z) - phi o) <= phi (al t).
Proof.
  intros Ht. pose proof (rest_1 o Ho) as K. set (k := 1 - rest o) in *. set (f := fun x => phi (al x) - k * phi (be x)).
  set (df := fun x => o * o / (2 * al x) * ath (al x) - k * (1 / (2 * be x) * ath (be x))).
  assert (B1 : forall x, 0 <= x <= top -> 0 <= al x <= 1 /\ 0 <= be x <= 1).
  { intros x Hx. unfold top in Hx. assert (o * o * x <= 1 * x) by (apply Rmult_le_compat_r; nra). split; (split; [apply sqrt_pos|]); (apply Rle_trans with (sqrt 1); [apply sqrt_le_1_alt; lra|rewrite sqrt_1; lra]). }
  assert (M : Rmin (f 0) (f top) <= f t).
  { apply (hill f df); [lra| | | |exact Ht].
    - intros x Hx. destruct (B1 x Hx) as [Ba Bb]. assert (0 <= o * o * x) by (apply Rmult_le_pos; [nra|lra]). apply (continuity_pt_minus (fun x => phi (al x)) (fun x => k * phi (be x))).
      + apply (continuity_pt_comp al phi); [|apply phi_cont; lra]. apply (continuity_pt_comp (fun x => z * z + o * o * x) sqrt); [apply (deriv_cont _ _ (o * o)); auto_derive; [trivial|ring]|apply continuity_pt_sqrt; nra].
      + apply (continuity_pt_scal (fun x => phi (be x))). apply (continuity_pt_comp be phi); [|apply phi_cont; lra]. apply (continuity_pt_comp (fun x => z * z + x) sqrt); [apply (deriv_cont _ _ 1); auto_derive; [trivial|ring]|apply continuity_pt_sqrt; nra].
    - intros x Hx. destruct (al_in x Hx) as (A & B & C). apply (is_derive_minus (fun x => phi (al x)) (fun x => k * phi (be x))).
      + apply (is_derive_comp phi al x (ath (al x)) (o * o / (2 * al x))); [apply phi_d; lra|apply al_d, Hx].
      + apply (is_derive_scal (fun x => phi (be x)) x k (1 / (2 * be x) * ath (be x))). apply (is_derive_comp phi be x (ath (be x)) (1 / (2 * be x))); [apply phi_d; lra|apply be_d, Hx].
    - intros x y Hx L Hy P. destruct (al_in x ltac:(lra)) as (A & B & C). destruct (al_in y ltac:(lra)) as (A' & B' & C').
      pose proof (ath_pos (al x) ltac:(lra)) as X1. pose proof (ath_pos (be x) ltac:(lra)) as X2. pose proof (ath_pos (al y) ltac:(lra)) as Y1. pose proof (ath_pos (be y) ltac:(lra)) as Y2.
      pose proof (gap x y Hx L Hy) as G. unfold lf in G. rewrite <- (ln_div (ath (al x)) (al x)), <- (ln_div (ath (be x)) (be x)), <- (ln_div (ath (al y)) (al y)), <- (ln_div (ath (be y)) (be y)) in G by lra. unfold df in *.
      set (ax := ath (al x) / al x) in *. set (bx := ath (be x) / be x) in *. set (ay := ath (al y) / al y) in *. set (b := ath (be y) / be y) in *.
      assert (Pax : 0 < ax) by (apply Rdiv_lt_0_compat; lra). assert (Pbx : 0 < bx) by (apply Rdiv_lt_0_compat; lra). assert (Pay : 0 < ay) by (apply Rdiv_lt_0_compat; lra). assert (Pby : 0 < b) by (apply Rdiv_lt_0_compat; lra).
      assert (M : ay * bx <= ax * b). { apply ln_back; [apply Rmult_lt_0_compat; assumption|]. rewrite !ln_mult by assumption. lra. }
      replace (o * o / (2 * al y) * ath (al y) - k * (1 / (2 * be y) * ath (be y))) with ((o * o * ay - k * b) / 2) in P by (unfold ay, b; field; lra).
      replace (o * o / (2 * al x) * ath (al x) - k * (1 / (2 * be x) * ath (be x))) with ((o * o * ax - k * bx) / 2) by (unfold ax, bx; field; lra).
      assert (P1 : k * b <= o * o * ay) by lra. apply (Rmult_le_compat_r bx _ _ ltac:(lra)) in P1. assert (OO : 0 <= o * o) by nra. apply (Rmult_le_compat_l (o * o) _ _ OO) in M.
      assert (Q : (k * bx) * b <= (o * o * ax) * b) by lra. apply (Rmult_le_reg_r b _ _ Pby) in Q; lra. }
  assert (F0 : f 0 = rest o * phi z). { unfold f, al, be, k. rewrite Rmult_0_r, !Rplus_0_r, sqrt_square by lra. ring. }
  assert (F1 : f top = phi (join o z) - k * ln 2). { unfold f, al, be, top. replace (z * z + (1 - z * z)) with 1 by ring. replace (z * z + o * o * (1 - z * z)) with (1 - (1 - o * o) * (1 - z * z)) by ring. rewrite sqrt_1, phi_1. reflexivity. }
  pose proof (along o z Ho Hz) as A0. pose proof (along o 1 Ho ltac:(lra)) as A1. unfold join in A1 at 1. replace (1 - (1 - o * o) * (1 - 1 * 1)) with 1 in A1 by ring. rewrite sqrt_1, phi_1 in A1.
  assert (N : phi (join o z) - phi o <= Rmin (f 0) (f top)). { apply Rmin_glb; [rewrite F0; exact A0|]. rewrite F1. unfold k. lra. }
  unfold f in M at 3. lra.
Qed.
End Across.
