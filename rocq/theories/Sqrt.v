(** The positive square root of a positive semidefinite matrix is unique, and the
    fidelity tr sqrt(sqrt(rho) sigma sqrt(rho)) of two states is between 0 and 1. *)
From Verif Require Import Py Scalar PauliModel PauliSpec EncoderProofs EighExists Spectral SpectralProofs KrausSpec KrausProofs KrausProofs2 KrausProofs6 ChoiSpec ChoiProofs2.
From Coq Require Import Reals Lra Setoid Morphisms.
Open Scope nat_scope.
Open Scope K_scope.
Add Ring CCring9 : (s_rt CC).

#[local] Instance eqm_equiv d : Equivalence (@eqm CC d d).
Proof. split; [intros A; apply eqm_refl|intros A B; apply eqm_sym|intros A B C; apply eqm_trans]. Qed.
#[local] Instance mm_proper d : Proper (@eqm CC d d ==> @eqm CC d d ==> @eqm CC d d) (mm d).
Proof. intros A B H C D H'. apply (mm_eqm d); assumption. Qed.
#[local] Instance adj_proper d : Proper (@eqm CC d d ==> @eqm CC d d) adj.
Proof. intros A B H i j Hi Hj. unfold adj. rewrite H by assumption. reflexivity. Qed.
#[local] Instance tr_proper d : Proper (@eqm CC d d ==> eq) (tr d).
Proof. intros A B H. apply tr_eqm, H. Qed.
Definition msub (A B : array CC) : array CC := fun i j => A i j - B i j.
#[local] Instance msub_proper d : Proper (@eqm CC d d ==> @eqm CC d d ==> @eqm CC d d) msub.
Proof. intros A B H C D H' i j Hi Hj. unfold msub. rewrite H, H' by assumption. reflexivity. Qed.
Lemma assoc d (A B C : array CC) : eqm d d (mm d (mm d A B) C) (mm d A (mm d B C)).
Proof. intros i j _ _. apply mm_assoc. Qed.
Lemma eyel d (A : array CC) : eqm d d (mm d eye A) A. Proof. intros i j Hi Hj. apply mm_eye_l, Hi. Qed.
Lemma eyer d (A : array CC) : eqm d d (mm d A eye) A. Proof. intros i j Hi Hj. apply mm_eye_r, Hj. Qed.
Lemma adjm d (A B : array CC) : eqm d d (adj (mm d A B)) (mm d (adj B) (adj A)). Proof. intros i j _ _. apply adj_mm. Qed.
Lemma adja d (A : array CC) : eqm d d (adj (adj A)) A. Proof. intros i j _ _. apply adj_adj. Qed.
Lemma msub_l d A B C : eqm d d (mm d (msub A B) C) (msub (mm d A C) (mm d B C)).
Proof. intros i j _ _. unfold msub, mm. rewrite <- bsum_sub. apply bsum_ext; intros; ring. Qed.
Lemma msub_r d A B C : eqm d d (mm d C (msub A B)) (msub (mm d C A) (mm d C B)).
Proof. intros i j _ _. unfold msub, mm. rewrite <- bsum_sub. apply bsum_ext; intros; ring. Qed.
Lemma adj_msub d A B : eqm d d (adj (msub A B)) (msub (adj A) (adj B)).
Proof. intros i j _ _. unfold msub, adj. apply sconj_sub. Qed.
Lemma tr_msub d A B : tr d (msub A B) = tr d A - tr d B.
Proof. unfold tr, msub. apply bsum_sub. Qed.
Lemma tr_comm d (A B : array CC) : tr d (mm d A B) = tr d (mm d B A). Proof. apply tr_mm. Qed.

(** ** uniqueness *)
Lemma quad_dot d A v : quad d A v = dot d v (app d A v).
Proof. unfold quad, dot, app. apply bsum_ext; intros i Hi. rewrite <- bsum_mul_l. apply bsum_ext; intros; ring. Qed.
Lemma app_mm d A B v i : app d (mm d A B) v i = app d A (app d B v) i.
Proof.
  unfold app, mm. transitivity (bsum d (fun l => bsum d (fun k => A i k * B k l * v l))); [apply bsum_ext; intros; rewrite <- bsum_mul_r; reflexivity|].
  rewrite bsum_swap. apply bsum_ext; intros k Hk. rewrite <- bsum_mul_l. apply bsum_ext; intros; ring.
Qed.
Lemma app_ext d A B v w i : eqm d d A B -> (forall j, j < d -> v j = w j) -> i < d -> app d A v i = app d B w i.
Proof. intros E H Hi. unfold app. apply bsum_ext; intros j Hj. rewrite E, H by assumption. reflexivity. Qed.
Theorem square_root_unique d A S T : square_root d A S -> square_root d A T -> eqm d d S T.
Proof.
  intros (HS & PS & SS) (HT & PT & TT). destruct (spectral d S HS) as (V & e & ED). pose proof (psd_eig d S V e ED PS) as Pe. destruct ED as [U EV].
  assert (K : eqm d d (mm d T V) (mm d S V)).
  { intros i t Hi Ht. rewrite EV by assumption. fold (rc (e t)). specialize (Pe t Ht). set (s := e t) in *. set (w := fun a => V a t).
    assert (Sw : forall j, j < d -> app d S w j = w j * rc s) by (intros j Hj; exact (EV j t Hj Ht)).
    assert (TTw : forall j, j < d -> app d T (app d T w) j = w j * rc s * rc s).
    { intros j Hj. rewrite <- app_mm. assert (SST : eqm d d (mm d T T) (mm d S S)) by (rewrite TT, SS; reflexivity). rewrite (app_ext d _ _ w w j SST (fun _ _ => eq_refl) Hj).
      rewrite app_mm. rewrite (app_ext d S S (app d S w) (fun a => w a * rc s) j (eqm_refl d d S) Sw Hj). rewrite app_scale, Sw by assumption. reflexivity. }
    set (x := fun j => app d T w j + w j * rc (- s)).
    assert (Tx : forall j, j < d -> app d T x j = x j * rc (- s)).
    { intros j Hj. unfold x at 1. rewrite (app_add d T (app d T w) (fun a => w a * rc (- s))), app_scale, TTw by exact Hj. unfold x. replace (rc (- s)) with (- rc s) by (apply CC_eq; cbn; lra). ring. }
    assert (Z : fst (dot d x x) = 0%R).
    { destruct (Req_dec s 0) as [Es|Ns].
      - assert (X : forall j, j < d -> x j = app d T w j) by (intros j Hj; unfold x; rewrite Es, Ropp_0; change (rc 0) with (0 : CC); ring).
        rewrite (dot_ext d x (app d T w) x (app d T w)) by exact X. rewrite (app_self_adj d T HT). unfold dot. rewrite bsum_zero; [reflexivity|]. intros j Hj. rewrite TTw by exact Hj. rewrite Es. change (rc 0) with (0 : CC). ring.
      - rewrite psd_quad in PT. destruct (PT x) as (y & Hy & E). rewrite quad_dot in E. rewrite (dot_ext d x x (app d T x) (fun j => x j * rc (- s))) in E by (try reflexivity; exact Tx).
        rewrite dot_scale_r, dot_self_re in E. apply (f_equal fst) in E. cbn in E. pose proof (dot_self_nonneg d x). nra. }
    pose proof (dot_self_zero d x Z i Hi) as X0. unfold x in X0. replace (rc (- s)) with (- rc s) in X0 by (apply CC_eq; cbn; lra).
    change (mm d T V i t) with (app d T w i). transitivity (app d T w i + w i * - rc s + w i * rc s); [ring|]. rewrite X0. unfold w. ring. }
  destruct U as [_ U]. rewrite <- (eyer d S), <- (eyer d T). rewrite <- U. rewrite <- !assoc. rewrite K. reflexivity.
Qed.

(** ** traces of positive matrices *)
Lemma psd_trace d A : psd d A -> exists x, (0 <= x)%R /\ tr d A = rc x.
Proof.
  intros P. unfold tr. assert (G : forall n, n <= d -> exists x, (0 <= x)%R /\ bsum n (fun i => A i i) = rc x).
  { induction n as [|n IH]; intros Hn; [exists 0%R; split; [lra|reflexivity]|]. destruct IH as (x & Hx & E); [lia|]. destruct (psd_diag_real d A n P) as [I R]; [lia|].
    exists (x + fst (A n n))%R. split; [lra|]. cbn [bsum]. rewrite E. apply CC_eq; cbn; [lra|rewrite I; lra]. }
  apply (G d). lia.
Qed.
Lemma psd_sandwich d A B : psd d A -> psd d (mm d (mm d (adj B) A) B).
Proof.
  intros P. rewrite psd_quad in *. intros v. destruct (P (app d B v)) as (x & Hx & E). exists x. split; [exact Hx|]. rewrite <- E. rewrite !quad_dot.
  rewrite (dot_ext d v v _ (app d (adj B) (app d A (app d B v)))).
  - unfold dot, app at 1. transitivity (bsum d (fun i => bsum d (fun l => (v i)^* * (B l i)^* * app d A (app d B v) l))).
    + apply bsum_ext; intros i Hi. rewrite <- bsum_mul_l. apply bsum_ext; intros l Hl. unfold adj. ring.
    + rewrite bsum_swap. apply bsum_ext; intros l Hl. replace ((app d B v l)^*) with (bsum d (fun i => (B l i)^* * (v i)^*)) by (unfold app; rewrite bsum_conj; apply bsum_ext; intros; rewrite sconj_mul; reflexivity). rewrite <- bsum_mul_r. apply bsum_ext; intros i Hi. ring.
  - reflexivity.
  - intros i Hi. rewrite app_mm, app_mm. reflexivity.
Qed.
Lemma psd_gram d B : psd d (mm d (adj B) B).
Proof.
  apply (psd_ext _ (mm d (mm d (adj B) eye) B)); [rewrite eyer; reflexivity|]. apply psd_sandwich. rewrite psd_quad. intros v. rewrite quad_dot.
  rewrite (dot_ext d v v _ v); [|reflexivity|]. { rewrite dot_self_re. eexists. split; [apply dot_self_nonneg|reflexivity]. }
  intros i Hi. unfold app. rewrite (bsum_one d i); [unfold eye; rewrite Nat.eqb_refl; ring|exact Hi|]. intros j _ N. unfold eye. destruct (Nat.eqb_spec i j); [congruence|ring].
Qed.

(** ** the fidelity is at most one *)
(** with the polar decomposition of sqrt(sigma) sqrt(rho): X X^dagger is rho, Y Y^dagger is the
    part of sigma in the range of a projector G, and the fidelity is tr (Y^dagger X) *)
Lemma fidelity_polar d rho sigma r s q : tr d rho = 1 -> square_root d sigma q -> square_root d rho r -> square_root d (mm d (mm d r sigma) r) s ->
  exists x (X Y G : array CC), tr d s = rc x /\ (0 <= x)%R /\ eqm d d (adj G) G /\ eqm d d (mm d G G) G /\
    eqm d d (mm d X (adj X)) rho /\ eqm d d (mm d Y (adj Y)) (mm d (mm d q G) q) /\
    tr d (mm d (adj X) X) = 1 /\ tr d (mm d (adj Y) Y) = tr d (mm d sigma G) /\ tr d (mm d (adj Y) X) = rc x /\ tr d (mm d (adj X) Y) = rc x.
Proof.
  intros Tr (HQ & PQ & QQ) (HR & PR & RR) (HS & PS & SS).
  destruct (psd_trace d s PS) as (x & Hx & Ex). exists x.
  destruct (spectral d s HS) as (V & e & ED). pose proof (psd_eig d s V e ED PS) as Pe. pose proof ED as [[U1 U2] EV].
  set (dg := fun f : nat -> R => (fun i j => if Nat.eqb i j then rc (f i) else 0) : array CC).
  assert (dgr : forall A f i j, j < d -> mm d A (dg f) i j = A i j * rc (f j)).
  { intros A f i j Hj. unfold mm. rewrite (bsum_one d j); [unfold dg; rewrite Nat.eqb_refl; reflexivity|exact Hj|]. intros k _ N. unfold dg. destruct (Nat.eqb_spec k j); [contradiction|ring]. }
  assert (dgm : forall f g, eqm d d (mm d (dg f) (dg g)) (dg (fun t => f t * g t)%R)).
  { intros f g i j Hi Hj. rewrite dgr by exact Hj. unfold dg. destruct (Nat.eqb_spec i j) as [->|N]; [apply rc_mul|ring]. }
  assert (dga : forall f, eqm d d (adj (dg f)) (dg f)).
  { intros f i j Hi Hj. unfold adj, dg. rewrite Nat.eqb_sym. destruct (Nat.eqb_spec i j) as [->|N]; [apply rc_conj|apply sconj_0]. }
  assert (dge : forall f g, (forall t, t < d -> f t = g t) -> eqm d d (dg f) (dg g)).
  { intros f g H i j Hi Hj. unfold dg. destruct (Nat.eqb i j); [rewrite H by exact Hi|]; reflexivity. }
  assert (EV' : eqm d d (mm d s V) (mm d V (dg e))) by (intros i t Hi Ht; rewrite dgr by exact Ht; apply EV; assumption).
  set (inv := fun t => if Req_EM_T (e t) 0 then 0%R else (/ e t)%R).
  set (one := fun t => if Req_EM_T (e t) 0 then 0%R else 1%R).
  assert (Hr' : eqm d d (adj r) r) by exact HR. assert (Hq' : eqm d d (adj q) q) by exact HQ.
  set (X := mm d r V). set (U := mm d (mm d (mm d q r) V) (dg inv)). set (Y := mm d q U).
  (* V^dagger r sigma r V = diag e^2 *)
  assert (D2 : eqm d d (mm d (mm d (adj V) (mm d (mm d r sigma) r)) V) (dg (fun t => e t * e t)%R)).
  { rewrite <- SS. rewrite !assoc. rewrite EV'. rewrite <- (assoc d s V). rewrite EV'. rewrite !assoc. rewrite <- (assoc d (adj V) V). rewrite U1, eyel. apply dgm. }
  assert (D2' : eqm d d (mm d (adj V) (mm d r (mm d q (mm d q (mm d r V))))) (dg (fun t => e t * e t)%R)).
  { rewrite <- D2. rewrite <- QQ. rewrite !assoc. reflexivity. }
  assert (UU : eqm d d (mm d (adj U) U) (dg one)).
  { unfold U. rewrite !adjm, dga, Hr', Hq'. rewrite !assoc. 
    transitivity (mm d (dg inv) (mm d (mm d (adj V) (mm d r (mm d q (mm d q (mm d r V))))) (dg inv))); [rewrite !assoc; reflexivity|].
    rewrite D2', !dgm. apply dge. intros t Ht. unfold inv, one. destruct (Req_EM_T (e t) 0) as [Z|N]; [ring|field; exact N]. }
  assert (U0 : eqm d d (mm d U (dg one)) U).
  { unfold U. rewrite assoc, dgm. rewrite (dge _ inv); [reflexivity|]. intros t Ht. unfold inv, one. destruct (Req_EM_T (e t) 0); ring. }
  (* G = U U^dagger is a projector *)
  set (G := mm d U (adj U)).
  assert (GA : eqm d d (adj G) G) by (unfold G; rewrite adjm, adja; reflexivity).
  assert (GG : eqm d d (mm d G G) G).
  { unfold G. rewrite assoc, <- (assoc d (adj U)), UU, <- assoc, U0. reflexivity. }
  assert (TY : tr d (mm d (adj Y) Y) = tr d (mm d sigma G)).
  { unfold Y. rewrite adjm, Hq'. rewrite assoc, <- (assoc d q q), QQ. rewrite tr_comm. unfold G. rewrite assoc. reflexivity. }
  assert (TX : tr d (mm d (adj X) X) = 1).
  { unfold X. rewrite adjm, Hr'. rewrite assoc, <- (assoc d r r), RR. rewrite tr_comm, assoc, U2, eyer. exact Tr. }
  assert (YX : eqm d d (mm d (adj Y) X) (dg e)).
  { unfold Y, X, U. rewrite !adjm, dga, Hr', Hq'. rewrite !assoc. rewrite D2', dgm. apply dge. intros t Ht. unfold inv. destruct (Req_EM_T (e t) 0) as [Z|N]; [rewrite Z; ring|field; exact N]. }
  assert (TS : tr d (dg e) = rc x).
  { rewrite <- Ex. rewrite <- (eyer d s), <- U2, <- assoc, EV', tr_comm, <- assoc, U1, eyel. reflexivity. }
  assert (XY : tr d (mm d (adj X) Y) = rc x).
  { rewrite <- TS. rewrite <- (adja d Y). rewrite <- adjm, YX, dga. reflexivity. }
  exists X, Y, G. split; [exact Ex|]. split; [exact Hx|]. split; [exact GA|]. split; [exact GG|]. split; [|split; [|split; [exact TX|split; [exact TY|split; [rewrite YX; exact TS|exact XY]]]]].
  - unfold X. rewrite adjm, Hr'. rewrite assoc, <- (assoc d V), U2, eyel. exact RR.
  - unfold Y. rewrite adjm, Hq'. unfold G. rewrite !assoc. reflexivity.
Qed.
Lemma outside d sigma G : psd d sigma -> eqm d d (adj G) G -> eqm d d (mm d G G) G ->
  exists y, (0 <= y)%R /\ tr d sigma - tr d (mm d sigma G) = rc y /\ tr d (mm d (mm d (adj (msub eye G)) sigma) (msub eye G)) = rc y.
Proof.
  intros Ps GA GG. destruct (psd_trace d _ (psd_sandwich d sigma (msub eye G) Ps)) as (y & Hy & Ey). exists y. split; [exact Hy|]. split; [|exact Ey].
  assert (E1 : eqm d d (adj (msub eye G)) (msub eye G)).
  { rewrite adj_msub, GA. intros i j Hi Hj. unfold msub. f_equal. unfold adj, eye. rewrite Nat.eqb_sym. destruct (Nat.eqb i j); [apply sconj_1|apply sconj_0]. }
  assert (E2 : eqm d d (mm d (msub eye G) (msub eye G)) (msub eye G)).
  { rewrite msub_l, (eyel d (msub eye G)), msub_r, eyer, GG. intros i j _ _. unfold msub. ring. }
  rewrite E1, assoc, tr_comm, assoc, E2, msub_r, eyer, tr_msub in Ey. exact Ey.
Qed.
Lemma difference d X Y (x : R) : tr d (mm d (adj X) X) = 1 -> tr d (mm d (adj Y) X) = rc x -> tr d (mm d (adj X) Y) = rc x ->
  exists y, (0 <= y)%R /\ tr d (mm d (adj (msub X Y)) (msub X Y)) = rc y /\ (1 + fst (tr d (mm d (adj Y) Y)) - 2 * x = y)%R.
Proof.
  intros TX YX XY. destruct (psd_trace d _ (psd_gram d (msub X Y))) as (y & Hy & Ey). exists y. split; [exact Hy|]. split; [exact Ey|].
  rewrite adj_msub, msub_l, !msub_r, !tr_msub, TX, YX, XY in Ey. apply (f_equal fst) in Ey. cbn in Ey. cbn. lra.
Qed.
Theorem fidelity_bound d rho sigma r s : density d rho -> density d sigma -> square_root d rho r -> square_root d (mm d (mm d r sigma) r) s ->
  exists x, tr d s = rc x /\ (0 <= x <= 1)%R.
Proof.
  intros (Hr & Pr & Tr) (Hs & Ps & Ts) SR SS. destruct (square_root_exists d sigma Ps) as (q & SQ).
  destruct (fidelity_polar d rho sigma r s q Tr SQ SR SS) as (x & X & Y & G & Ex & Hx & GA & GG & _ & _ & TX & TY & YX & XY). exists x. split; [exact Ex|]. split; [exact Hx|].
  destruct (outside d sigma G Ps GA GG) as (y & Hy & Ey & _). destruct (difference d X Y x TX YX XY) as (z & Hz & _ & Ez). rewrite TY in Ez.
  rewrite Ts in Ey. apply (f_equal fst) in Ey. cbn in Ey. lra.
Qed.

(** ** it is one only for equal states and zero only for orthogonal ones *)
Lemma gram_zero d (B : array CC) : tr d (mm d (adj B) B) = 0 -> forall i j, i < d -> j < d -> B i j = 0.
Proof.
  intros T i j Hi Hj.
  assert (G : forall m, m <= d -> fst (bsum m (fun t => mm d (adj B) B t t)) = 0%R -> forall t, t < m -> fst (mm d (adj B) B t t) = 0%R).
  { assert (P : forall t, (0 <= fst (mm d (adj B) B t t))%R) by (intros t; exact (dot_self_nonneg d (fun k => B k t))).
    assert (Q : forall m, (0 <= fst (bsum m (fun t => mm d (adj B) B t t)))%R) by (induction m as [|m IH]; [cbn; lra|cbn [bsum]; specialize (P m); cbn; lra]).
    induction m as [|m IH]; intros Hm Z t Ht; [lia|]. cbn [bsum] in Z. specialize (Q m). pose proof (P m) as Pm. cbn in Z.
    destruct (Nat.eq_dec t m) as [->|N]; [lra|]. apply IH; [lia|lra|lia]. }
  apply (dot_self_zero d (fun k => B k j)); [|exact Hi]. apply (G d (le_n d)); [|exact Hj]. change (bsum d (fun t => mm d (adj B) B t t)) with (tr d (mm d (adj B) B)). rewrite T. reflexivity.
Qed.
Theorem fidelity_one d rho sigma r s : density d rho -> density d sigma -> square_root d rho r -> square_root d (mm d (mm d r sigma) r) s ->
  tr d s = 1 -> eqm d d sigma rho.
Proof.
  intros (Hr & Pr & Tr) (Hs & Ps & Ts) SR SS T1. destruct (square_root_exists d sigma Ps) as (q & SQ).
  destruct (fidelity_polar d rho sigma r s q Tr SQ SR SS) as (x & X & Y & G & Ex & Hx & GA & GG & XX & YY & TX & TY & YX & XY).
  assert (x = 1%R). { rewrite T1 in Ex. apply (f_equal fst) in Ex. cbn in Ex. lra. } subst x.
  destruct (outside d sigma G Ps GA GG) as (y & Hy & Ey & Oy). destruct (difference d X Y 1 TX YX XY) as (z & Hz & Dz & Ez). rewrite TY in Ez.
  rewrite Ts in Ey. apply (f_equal fst) in Ey. cbn in Ey. assert (Y0 : y = 0%R) by lra. assert (Z0 : z = 0%R) by lra. rewrite Y0 in Oy. rewrite Z0 in Dz. clear Ey Ez Y0 Z0.
  pose proof (gram_zero d _ Dz) as XEY. destruct SQ as (HQ & PQ & QQ). assert (Hq' : eqm d d (adj q) q) by exact HQ.
  assert (QG : forall i j, i < d -> j < d -> mm d q (msub eye G) i j = 0).
  { apply gram_zero. rewrite adjm, Hq'. rewrite assoc, <- (assoc d q q), QQ. rewrite <- assoc. exact Oy. }
  assert (QG' : eqm d d (mm d q G) q).
  { intros i j Hi Hj. specialize (QG i j Hi Hj). pose proof (msub_r d eye G q i j Hi Hj) as E. rewrite E in QG. unfold msub in QG. rewrite (eyer d q i j Hi Hj) in QG.
    transitivity (q i j - (q i j - mm d q G i j)); [ring|]. rewrite QG. ring. }
  assert (EXY : eqm d d X Y). { intros i j Hi Hj. specialize (XEY i j Hi Hj). unfold msub in XEY. transitivity (X i j - Y i j + Y i j); [ring|]. rewrite XEY. ring. }
  rewrite <- XX, EXY, YY, QG'. rewrite QQ. reflexivity.
Qed.
Theorem fidelity_zero d rho sigma r s : psd d sigma -> square_root d rho r -> square_root d (mm d (mm d r sigma) r) s ->
  tr d s = 0 -> eqm d d (mm d rho sigma) (fun _ _ => 0).
Proof.
  intros Ps (HR & PR & RR) (HS & PS & SS) T0. destruct (square_root_exists d sigma Ps) as (q & HQ & PQ & QQ).
  assert (Hr' : eqm d d (adj r) r) by exact HR. assert (Hq' : eqm d d (adj q) q) by exact HQ.
  destruct (square_root_exists d s PS) as (h & HH & PH & HHs). assert (Hh' : eqm d d (adj h) h) by exact HH.
  assert (H0 : eqm d d h (fun _ _ => 0)). { intros i j Hi Hj. apply (gram_zero d h); [|exact Hi|exact Hj]. rewrite Hh', HHs. exact T0. }
  assert (QR : eqm d d (mm d q r) (fun _ _ => 0)).
  { intros i j Hi Hj. apply (gram_zero d (mm d q r)); [|exact Hi|exact Hj]. rewrite adjm, Hr', Hq'. rewrite assoc, <- (assoc d q q), QQ, <- assoc, <- SS, <- HHs, H0.
    unfold tr, mm. apply bsum_zero. intros k Hk. apply bsum_zero. intros l Hl. rewrite bsum_zero; [ring|]. intros; ring. }
  assert (RQ : eqm d d (mm d r q) (fun _ _ => 0)).
  { intros i j Hi Hj. transitivity (adj (mm d q r) i j). { symmetry. rewrite (adjm d q r i j Hi Hj). apply mm_ext; [intros k Hk; apply Hr'; assumption|intros k Hk; apply Hq'; assumption]. } unfold adj. rewrite QR by assumption. apply sconj_0. }
  rewrite <- RR, <- QQ, assoc, <- (assoc d r q q), RQ. intros i j _ _. unfold mm. apply bsum_zero. intros k Hk. rewrite bsum_zero; [ring|]. intros; ring.
Qed.
Theorem fidelity_orthogonal d rho sigma r s : psd d rho -> psd d sigma -> square_root d rho r -> square_root d (mm d (mm d r sigma) r) s ->
  eqm d d (mm d rho sigma) (fun _ _ => 0) -> tr d s = 0.
Proof.
  intros Pr Ps (HR & PR & RR) (HS & PS & SS) Z. assert (Hr' : eqm d d (adj r) r) by exact HR.
  assert (N0 : eqm d d (mm d r sigma) (fun _ _ => 0)).
  { intros i j Hi Hj. apply (gram_zero d (mm d r sigma)); [|exact Hi|exact Hj]. rewrite adjm, Hr', assoc, <- (assoc d r r), RR, Z.
    unfold tr, mm. apply bsum_zero. intros k Hk. apply bsum_zero. intros l Hl. ring. }
  assert (S0 : eqm d d s (fun _ _ => 0)).
  { apply (square_root_unique d (mm d (mm d r sigma) r)); [split; [exact HS|split; [exact PS|exact SS]]|]. split; [|split].
    - intros i j Hi Hj. unfold adj. apply sconj_0.
    - intros v. exists 0%R. split; [lra|]. change ((0%R, 0%R) : CC) with (0 : CC). apply bsum_zero. intros k Hk. apply bsum_zero. intros l Hl. ring.
    - rewrite N0. intros i j _ _. unfold mm. rewrite !bsum_zero; [reflexivity| |]; intros; ring. }
  rewrite S0. unfold tr. apply bsum_zero. reflexivity.
Qed.
