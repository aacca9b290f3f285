(** Lemmas about Kraus lists and the array model. *)
From Verif Require Import Py Scalar PauliModel PauliSpec KrausModel KrausSpec.
Open Scope nat_scope.

Section L.
Context {K : StarRing}.
Add Ring Kr1 : (s_rt K).
Open Scope K_scope.

Lemma ksum_nil : ksum ([] : list K) = 0. Proof. reflexivity. Qed.
Lemma ksum_cons (a : K) l : ksum (a :: l) = a + ksum l. Proof. reflexivity. Qed.
Lemma ksum_app (l m : list K) : ksum (l ++ m) = ksum l + ksum m.
Proof. induction l as [|a l IH]; cbn [map app flat_map]; rewrite ?ksum_cons, ?ksum_nil; [ring|]. rewrite IH. ring. Qed.
Lemma ksum_seq n (f : nat -> K) : ksum (map f (seq 0 n)) = bsum n f.
Proof. induction n as [|n IH]; [reflexivity|]. rewrite seq_S, map_app, ksum_app, IH. cbn [map bsum Nat.add]. rewrite ksum_cons, ksum_nil. ring. Qed.
Lemma ksum_ext {A} (f g : A -> K) l : (forall x, In x l -> f x = g x) -> ksum (map f l) = ksum (map g l).
Proof. intros H. f_equal. apply map_ext_in, H. Qed.
Lemma ksum_mul_l {A} (a : K) (f : A -> K) l : ksum (map (fun x => a * f x) l) = a * ksum (map f l).
Proof. induction l as [|x l IH]; cbn [map app flat_map]; rewrite ?ksum_cons, ?ksum_nil; [ring|]. rewrite IH. ring. Qed.
Lemma ksum_mul_r {A} (a : K) (f : A -> K) l : ksum (map (fun x => f x * a) l) = ksum (map f l) * a.
Proof. induction l as [|x l IH]; cbn [map app flat_map]; rewrite ?ksum_cons, ?ksum_nil; [ring|]. rewrite IH. ring. Qed.
Lemma ksum_add {A} (f g : A -> K) l : ksum (map (fun x => f x + g x) l) = ksum (map f l) + ksum (map g l).
Proof. induction l as [|x l IH]; cbn [map app flat_map]; rewrite ?ksum_cons, ?ksum_nil; [ring|]. rewrite IH. ring. Qed.
Lemma ksum_0 {A} (l : list A) : ksum (map (fun _ => 0 : K) l) = 0.
Proof. induction l as [|x l IH]; cbn [map app flat_map]; rewrite ?ksum_cons, ?ksum_nil; [ring|]. rewrite IH. ring. Qed.
Lemma ksum_conj {A} (f : A -> K) l : (ksum (map f l))^* = ksum (map (fun x => (f x)^*) l).
Proof. induction l as [|x l IH]; cbn [map app flat_map]; rewrite ?ksum_cons, ?ksum_nil; [apply sconj_0|]. rewrite sconj_add, IH. reflexivity. Qed.
Lemma ksum_bsum {A} n (f : A -> nat -> K) l : ksum (map (fun x => bsum n (f x)) l) = bsum n (fun i => ksum (map (fun x => f x i) l)).
Proof.
  induction l as [|x l IH]; cbn [map app flat_map]; rewrite ?ksum_cons, ?ksum_nil; [symmetry; apply bsum_0|]. rewrite IH, <- bsum_add. reflexivity.
Qed.
Lemma ksum_flat {A B} (f : B -> K) (g : A -> list B) l : ksum (map f (flat_map g l)) = ksum (map (fun x => ksum (map f (g x))) l).
Proof. induction l as [|x l IH]; cbn [map app flat_map]; rewrite ?ksum_cons, ?ksum_nil; [reflexivity|]. rewrite map_app, ksum_app, IH. reflexivity. Qed.
Lemma ksum_prod {A B} (f : A -> K) (g : B -> K) l m :
  ksum (map (fun x => ksum (map (fun y => f x * g y) m)) l) = ksum (map f l) * ksum (map g m).
Proof. rewrite <- ksum_mul_r. apply ksum_ext. intros x _. apply ksum_mul_l. Qed.

(** bsum over a product range *)
Lemma bsum_prod n m (f : nat -> K) : bsum (n * m) f = bsum n (fun b => bsum m (fun i => f (b * m + i)%nat)).
Proof. apply bsum_blocks. Qed.
Lemma divmod_block b m i : (i < m)%nat -> ((b * m + i) / m = b /\ (b * m + i) mod m = i)%nat.
Proof.
  intros H. rewrite (Nat.add_comm (b * m) i). rewrite Nat.div_add, Nat.mod_add by lia.
  rewrite Nat.div_small, Nat.mod_small by lia. lia.
Qed.
Lemma bsum_kron n m (f g : nat -> K) : bsum (n * m) (fun i => f (i / m)%nat * g (i mod m)%nat) = bsum n f * bsum m g.
Proof.
  rewrite bsum_prod, <- bsum_mul_r. apply bsum_ext. intros b _. rewrite <- bsum_mul_l. apply bsum_ext. intros i Hi.
  destruct (divmod_block b m i Hi) as [-> ->]. reflexivity.
Qed.
Lemma div_lt_mul i a b : (i < a * b -> i / b < a)%nat.
Proof. intros H. apply Nat.div_lt_upper_bound; lia. Qed.
Lemma mod_lt_mul i a b : (i < a * b -> i mod b < b)%nat.
Proof. intros H. apply Nat.mod_upper_bound. lia. Qed.

(** ** lists of slices *)
Lemma slices_len (t : ten3 K) : length (slices t) = t0 t.
Proof. unfold slices. rewrite map_length, seq_length. reflexivity. Qed.
Lemma ksum_slices (f : marr K -> K) t : ksum (map f (slices t)) = bsum (t0 t) (fun i => f (slice0 t i)).
Proof. unfold slices. rewrite map_map. apply ksum_seq. Qed.
Lemma map_seq_add {A} (f : nat -> A) a m : map f (seq a m) = map (fun i => f (a + i)%nat) (seq 0 m).
Proof.
  revert a f. induction m as [|m IH]; intros a f; [reflexivity|]. cbn [seq map]. rewrite Nat.add_0_r. f_equal.
  rewrite (IH (S a)), (IH 1%nat). apply map_ext. intros i. f_equal. lia.
Qed.
Lemma seq_blocks {A} (f : nat -> A) n m : map f (seq 0 (n * m)) = flat_map (fun b => map (fun i => f (b * m + i)%nat) (seq 0 m)) (seq 0 n).
Proof.
  induction n as [|n IH]; [reflexivity|]. rewrite seq_S, flat_map_app, <- IH. cbn [flat_map]. rewrite app_nil_r.
  replace (S n * m)%nat with (n * m + m)%nat by lia. rewrite seq_app, map_app. f_equal. cbn [Nat.add]. apply map_seq_add.
Qed.

Lemma same_mat_refl (A : marr K) : same_mat A A.
Proof. repeat split; auto using eqm_refl. Qed.
Lemma same_mat_sym (A B : marr K) : same_mat A B -> same_mat B A.
Proof. intros (E1 & E2 & E). repeat split; [auto..|]. rewrite <- E1, <- E2. apply eqm_sym, E. Qed.
Lemma same_mat_trans (A B C : marr K) : same_mat A B -> same_mat B C -> same_mat A C.
Proof.
  intros (E1 & E2 & E) (F1 & F2 & F). repeat split; [congruence..|]. eapply eqm_trans; [exact E|]. rewrite E1, E2. exact F.
Qed.
Lemma same_ops_refl (l : list (marr K)) : same_ops l l.
Proof. induction l; constructor; auto using same_mat_refl. Qed.
Lemma same_ops_sym (l m : list (marr K)) : same_ops l m -> same_ops m l.
Proof. induction 1; constructor; auto using same_mat_sym. Qed.
Lemma same_ops_trans (l m p : list (marr K)) : same_ops l m -> same_ops m p -> same_ops l p.
Proof.
  intros H. revert p. induction H; intros p H2; inversion H2; subst; constructor; eauto using same_mat_trans. apply IHForall2. assumption.
Qed.
Lemma same_ops_app (l l' m m' : list (marr K)) : same_ops l l' -> same_ops m m' -> same_ops (l ++ m) (l' ++ m').
Proof. apply Forall2_app. Qed.

Lemma tens_same (A A' B B' : marr K) : same_mat A A' -> same_mat B B' -> same_mat (tens A B) (tens A' B').
Proof.
  intros (E1 & E2 & E) (F1 & F2 & F). unfold tens. repeat split; cbn [mr mc]; [congruence..|].
  intros i j Hi Hj. cbn [me]. rewrite <- F1, <- F2. f_equal.
  - apply E; [eapply div_lt_mul|eapply div_lt_mul]; eassumption.
  - apply F; eapply mod_lt_mul; eassumption.
Qed.
Lemma tens_ops_same (l l' m m' : list (marr K)) : same_ops l l' -> same_ops m m' -> same_ops (tens_ops l m) (tens_ops l' m').
Proof.
  intros H M. induction H as [|A A' l l' E H IH]; [constructor|]. cbn. apply same_ops_app; [|exact IH].
  clear IH H. induction M; constructor; auto using tens_same.
Qed.
Lemma slices_kron (a b : ten3 K) : same_ops (slices (np_kron3 a b)) (tens_ops (slices a) (slices b)).
Proof.
  unfold slices at 1. cbn [t0 np_kron3]. rewrite seq_blocks. unfold tens_ops, slices. 
  rewrite flat_map_concat_map, flat_map_concat_map, map_map.
  induction (seq 0 (t0 a)) as [|x l IH]; [constructor|]. cbn [map concat]. apply same_ops_app; [|exact IH]. clear IH.
  rewrite map_map. assert (H : forall y, In y (seq 0 (t0 b)) -> (y < t0 b)%nat) by (intros y Hy; apply in_seq in Hy; lia).
  induction (seq 0 (t0 b)) as [|y m IHm]; [constructor|]. cbn [map]. constructor; [|apply IHm; intros; apply H; right; assumption].
  destruct (divmod_block x (t0 b) y (H y (or_introl eq_refl))) as [E1 E2].
  unfold slice0, tens, np_kron3. cbn [t1 t2 te mr mc me]. repeat split. intros i j Hi Hj. cbn [me]. rewrite E1, E2. reflexivity.
Qed.

(** [power3] is what iterating the code's tensor step gives *)
Fixpoint power3 (t : ten3 K) (n : nat) : ten3 K :=
  match n with O => t | S O => t | S m => np_kron3 t (power3 t m) end.
Lemma power3_S t n : (1 <= n)%nat -> power3 t (S n) = np_kron3 t (power3 t n).
Proof. destruct n; [lia|reflexivity]. Qed.
Lemma tens_one_r (A : marr K) : same_mat A (tens A one_by_one).
Proof.
  unfold tens. repeat split; cbn [mr mc one_by_one]; try lia. intros i j Hi Hj. cbn [me]. unfold one_by_one. cbn [mr mc me].
  rewrite !Nat.div_1_r. ring.
Qed.
Lemma power_ops_1 (l : list (marr K)) : same_ops l (power_ops l 1).
Proof. cbn [power_ops]. unfold tens_ops. induction l as [|A l IH]; [constructor|]. cbn. constructor; [apply tens_one_r|exact IH]. Qed.
Lemma slices_power t n : (1 <= n)%nat -> same_ops (slices (power3 t n)) (power_ops (slices t) n).
Proof.
  induction n as [|n IH]; [lia|]. intros _. destruct n as [|n]; [apply power_ops_1|].
  rewrite power3_S by lia. eapply same_ops_trans; [apply slices_kron|]. cbn [power_ops]. apply tens_ops_same; [apply same_ops_refl|apply IH; lia].
Qed.
Lemma power3_dims t n : (1 <= n)%nat -> t0 (power3 t n) = (t0 t ^ n)%nat /\ t1 (power3 t n) = (t1 t ^ n)%nat /\ t2 (power3 t n) = (t2 t ^ n)%nat.
Proof.
  induction n as [|n IH]; [lia|]. intros _. destruct n as [|n]; [cbn; lia|]. destruct (IH ltac:(lia)) as (E0 & E1 & E2).
  rewrite power3_S by lia. cbn [np_kron3 t0 t1 t2]. rewrite E0, E1, E2. repeat split; reflexivity.
Qed.

(** fits and shapes *)
Lemma fits_slices (t : ten3 K) : fits (t1 t) (t2 t) (slices t).
Proof. unfold fits, slices. apply Forall_map, Forall_forall. intros i _. split; reflexivity. Qed.
Lemma fits_tens r c r' c' (l m : list (marr K)) : fits r c l -> fits r' c' m -> fits (r * r') (c * c') (tens_ops l m).
Proof.
  intros H M. unfold fits in *. rewrite Forall_forall in *. intros X HX. unfold tens_ops in HX. apply in_flat_map in HX.
  destruct HX as (A & HA & HX). apply in_map_iff in HX. destruct HX as (B & <- & HB). destruct (H A HA), (M B HB). cbn. split; congruence.
Qed.
Lemma fits_power r c (l : list (marr K)) n : fits r c l -> fits (r ^ n) (c ^ n) (power_ops l n).
Proof. intros H. induction n as [|n IH]; cbn; [repeat constructor|]. apply fits_tens; assumption. Qed.
Lemma same_ops_fits r c (l m : list (marr K)) : same_ops l m -> fits r c l -> fits r c m.
Proof.
  intros H. induction H as [|A B l m (E1 & E2 & _) H IH]; intros F; [constructor|]. inversion F as [|? ? [F1 F2] F3]; subst.
  constructor; [split; congruence|apply IH, F3].
Qed.

(** congruence *)
Lemma channel_map_same r c (l m : list (marr K)) rho rho' : fits r c l -> same_ops l m -> eqm c c rho rho' ->
  eqm r r (channel_map l rho) (channel_map m rho').
Proof.
  intros F H E i j Hi Hj. unfold channel_map. revert F. induction H as [|A B l m (E1 & E2 & EE) H IH]; intros F; [reflexivity|].
  inversion F as [|? ? [F1 F2] F3]; subst. cbn [map]. rewrite !ksum_cons, (IH F3). f_equal. rewrite <- E2. unfold mm.
  apply bsum_ext. intros k Hk. unfold adj. rewrite EE by assumption. f_equal. apply bsum_ext. intros x Hx. rewrite EE by assumption. f_equal. apply E; assumption.
Qed.
Lemma adjoint_map_same r c (l m : list (marr K)) X X' : fits r c l -> same_ops l m -> eqm r r X X' ->
  eqm c c (adjoint_map l X) (adjoint_map m X').
Proof.
  intros F H E i j Hi Hj. unfold adjoint_map. revert F. induction H as [|A B l m (E1 & E2 & EE) H IH]; intros F; [reflexivity|].
  inversion F as [|? ? [F1 F2] F3]; subst. cbn [map]. rewrite !ksum_cons, (IH F3). f_equal. rewrite <- E1. unfold mm.
  apply bsum_ext. intros k Hk. rewrite EE by assumption. f_equal. apply bsum_ext. intros x Hx. unfold adj. rewrite EE by assumption. f_equal. apply E; assumption.
Qed.
Lemma tp_same r c (l m : list (marr K)) : fits r c l -> same_ops l m -> trace_preserving c l -> trace_preserving c m.
Proof.
  intros F H T i j Hi Hj. rewrite <- (T i j Hi Hj). clear T. revert F. induction H as [|A B l m (E1 & E2 & EE) H IH]; intros F; [reflexivity|].
  inversion F as [|? ? [F1 F2] F3]; subst. cbn [map]. rewrite !ksum_cons, (IH F3). f_equal. rewrite <- E1. unfold mm.
  apply bsum_ext. intros k Hk. unfold adj. rewrite EE by assumption. rewrite (EE k j) by assumption. reflexivity.
Qed.
End L.
