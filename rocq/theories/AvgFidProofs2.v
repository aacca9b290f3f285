(** Proofs about the matrices the programme ranges over. *)
From Verif Require Import Py Scalar CodesModel PauliModel PauliSpec EncoderProofs KrausModel KrausSpec KrausProofs KrausProofs2 Spectral SpectralProofs ChoiModel ChoiSpec ChoiProofs ChoiProofs2 ChannelModel FindModel AvgFidModel AvgFidSpec AvgFidProofs.
From Coq Require Import Reals Lra.
From Coq Require String.
Import String.StringSyntax.
Delimit Scope string_scope with string.
Open Scope nat_scope.
Open Scope K_scope.
Add Ring CCring25 : (s_rt CC).

(** Choi matrices are sums of v v^dagger *)
Lemma choi_rows (ops : list (marr CC)) O D p q : fits O D ops -> (p < D * O)%nat -> (q < D * O)%nat ->
  choi_matrix ops O p q = ksum (map (fun A => me A (p mod O)%nat (p / O)%nat * (me A (q mod O)%nat (q / O)%nat)^* ) ops).
Proof.
  intros F Hp Hq. assert (HO : O <> 0%nat) by nia.
  rewrite (Nat.div_mod p O HO) at 1. rewrite (Nat.div_mod q O HO) at 1. rewrite (Nat.mul_comm O (p / O)), (Nat.mul_comm O (q / O)).
  apply (choi_entry ops O D); try assumption; try (apply Nat.mod_upper_bound; assumption); apply Nat.div_lt_upper_bound; lia.
Qed.
Lemma choi_is_hermitian (ops : list (marr CC)) O D : fits O D ops -> hermitian (D * O) (choi_matrix ops O).
Proof.
  intros F p q Hp Hq. unfold adj. rewrite !(choi_rows ops O D) by assumption. rewrite ksum_conj. f_equal. apply map_ext. intros A.
  rewrite sconj_mul, sconj_conj. ring.
Qed.
Lemma choi_is_psd (ops : list (marr CC)) O D : fits O D ops -> psd (D * O) (choi_matrix ops O).
Proof.
  intros F. eapply psd_ext.
  { intros p q Hp Hq. symmetry. apply (choi_rows ops O D p q F Hp Hq). }
  rewrite psd_quad. intros v. rewrite (quad_ksum (D * O) (fun (A : marr CC) p q => me A (p mod O)%nat (p / O)%nat * (me A (q mod O)%nat (q / O)%nat)^* ) ops v).
  apply nonneg_ksum. intros A _. unfold quad.
  set (z := bsum (D * O) (fun i => (v i)^* * me A (i mod O)%nat (i / O)%nat)).
  replace (bsum _ _) with (z * z^* ).
  { rewrite Cmod_sq_rc. exists (Cmod z ^ 2)%R. split; [apply pow2_ge_0|reflexivity]. }
  unfold z. rewrite bsum_conj, <- bsum_mul_r. apply bsum_ext; intros i _. rewrite <- bsum_mul_l. apply bsum_ext; intros j _.
  rewrite sconj_mul, sconj_conj. ring.
Qed.
(** the partial trace over the output is the gram matrix, transposed *)
Lemma choi_trace_second (ops : list (marr CC)) O D i j : fits O D ops -> (i < D)%nat -> (j < D)%nat ->
  trace_second O (choi_matrix ops O) i j = ksum (map (fun A : marr CC => mm (mr A) (adj (me A)) (me A) j i) ops).
Proof.
  intros F Hi Hj. unfold trace_second. rewrite (bsum_ext O _ (fun t => ksum (map (fun A => me A t i * (me A t j)^* ) ops))) by (intros t Ht; apply (choi_entry ops O D); assumption).
  rewrite bsum_ksum_map. f_equal. apply map_ext_in. intros A HA. unfold fits in F. rewrite Forall_forall in F. destruct (F A HA) as [-> _].
  unfold mm, adj. apply bsum_ext. intros; ring.
Qed.
Lemma eye_sym i j : eye i j = (eye j i : CC).
Proof. unfold eye. rewrite Nat.eqb_sym. reflexivity. Qed.
Lemma choi_tp (ops : list (marr CC)) O D : fits O D ops -> (eqm D D (trace_second O (choi_matrix ops O)) eye <-> trace_preserving D ops).
Proof.
  intros F. split; intros H i j Hi Hj.
  - rewrite <- (choi_trace_second ops O D j i) by assumption. rewrite H by assumption. apply eye_sym.
  - rewrite (choi_trace_second ops O D) by assumption. rewrite (H j i Hj Hi). apply eye_sym.
Qed.
Lemma bsum_one_const n : bsum n (fun _ => 1) = ((INR n, 0%R) : CC).
Proof. induction n as [|n IH]; [reflexivity|]. cbn [bsum]; rewrite IH, S_INR. apply CC_eq; cbn; ring. Qed.
Lemma trace_of_second a b (X : array CC) : eqm a a (trace_second b X) eye -> tr (a * b) X = (INR a, 0%R).
Proof.
  intros H. unfold tr. rewrite bsum_blocks, <- bsum_one_const. apply bsum_ext; intros i Hi.
  pose proof (H i i Hi Hi) as E. unfold trace_second in E. rewrite E. unfold eye. rewrite Nat.eqb_refl. reflexivity.
Qed.
Lemma choi_trace (ops : list (marr CC)) O D : fits O D ops -> trace_preserving D ops -> tr (D * O) (choi_matrix ops O) = (INR D, 0%R).
Proof. intros F T. apply trace_of_second. apply (choi_tp ops O D F). exact T. Qed.

(** a positive matrix is the Choi matrix of some operators *)
Lemma psd_is_choi O D (X : array CC) : (0 < O)%nat -> psd (D * O) X ->
  exists ops, fits O D ops /\ eqm (D * O) (D * O) (choi_matrix ops O) X.
Proof.
  intros HO P. destruct (spectral (D * O) X (psd_hermitian _ _ P)) as (V & e & ED). pose proof (psd_eig _ _ _ _ ED P) as Pe.
  exists (map (fun t => MA O D (fun a i => V (i * O + a)%nat t * rc (sqrt (e t)))) (seq 0 (D * O))).
  assert (F : fits O D (map (fun t => MA O D (fun a i => V (i * O + a)%nat t * rc (sqrt (e t)))) (seq 0 (D * O)))).
  { unfold fits. apply Forall_map, Forall_forall. intros t _. split; reflexivity. }
  split; [exact F|]. intros p q Hp Hq. rewrite (choi_rows _ O D) by assumption. rewrite map_map. cbn [me].
  rewrite (entry_form _ _ _ _ ED) by assumption. rewrite <- ksum_seq. f_equal. apply map_ext_in. intros t Ht. apply in_seq in Ht.
  assert (E : forall x, (x / O * O + x mod O = x)%nat) by (intros x; rewrite Nat.mul_comm; symmetry; apply Nat.div_mod; lia). rewrite !E.
  rewrite sconj_mul. unfold rc. rewrite conj_rc. specialize (Pe t ltac:(lia)).
  transitivity (V p t * (V q t)^* * (((sqrt (e t), 0%R) : CC) * ((sqrt (e t), 0%R) : CC))); [ring|].
  transitivity (V p t * (V q t)^* * ((e t, 0%R) : CC)); [|ring]. f_equal. pose proof (sqrt_sqrt _ Pe) as Q. apply CC_eq; cbn; [rewrite Q|]; ring.
Qed.
