(** The two design: commands sent, inverse, unitarity. *)
From Verif Require Import Py Scalar PauliModel PauliSpec EncoderProofs CircuitModel CircuitSpec CircuitProofs CircuitProofs2 OptimModel DeviceModel DeviceSpec.
From Coq Require Import Reals Lra Permutation.
Open Scope nat_scope.

(** ** qubits *)
Lemma position_in q l : In q l -> exists p, position q l = Ok p /\ p < length l /\ nth p l 0 = q.
Proof.
  induction l as [|x l IH]; intros H; [destruct H|]. cbn [position]. destruct (Nat.eqb_spec x q) as [->|N].
  - exists 0. repeat split. cbn. lia.
  - destruct H as [H|H]; [contradiction|]. destruct (IH H) as (p & -> & L & E). exists (S p). cbn [bind length nth]. repeat split; [lia|exact E].
Qed.
Definition qpos (l : list nat) (q : nat) : nat := match position q l with Ok p => p | Err _ => 0 end.
Lemma pos_ok l q : In q l -> position q l = Ok (qpos l q) /\ qpos l q < length l /\ nth (qpos l q) l 0 = q.
Proof. intros H. unfold qpos. destruct (position_in q l H) as (p & E & R1 & R2). rewrite E. auto. Qed.
Lemma pos_inj l q q' : In q l -> In q' l -> qpos l q = qpos l q' -> q = q'.
Proof. intros H H' E. destruct (pos_ok l q H) as (_ & _ & <-), (pos_ok l q' H') as (_ & _ & <-). rewrite E. reflexivity. Qed.

(** ** commands as operators *)
Definition gact (ids : list nat) (c : command) (psi : @state CC) : @state CC :=
  match c with
  | PhaseGate cs a t => apply_phase (map (qpos ids) cs) a (qpos ids t) psi
  | Hadamard t => apply_gate hh ii [] GH (qpos ids t) psi
  end.
Definition gacts (ids : list nat) (l : list command) (psi : @state CC) : @state CC := fold_left (fun p c => gact ids c p) l psi.
Definition on_qubits (ids : list nat) (c : command) : Prop :=
  match c with PhaseGate cs _ t => Forall (fun q => In q ids) cs /\ In t ids | Hadamard t => In t ids end.
Lemma set_wave_eta w : set_wave w (w_wave w) = w. Proof. destruct w. reflexivity. Qed.
Lemma execute_ok w c : on_qubits (w_qubits w) c -> execute w c = Ok (set_wave w (gact (w_qubits w) c (w_wave w))).
Proof.
  destruct c as [cs a t|t]; cbn [on_qubits execute gact].
  - intros [F T]. rewrite (mapM_map _ (qpos (w_qubits w))); [|intros q Hq; rewrite Forall_forall in F; apply (proj1 (pos_ok _ _ (F q Hq)))]. cbn [bind].
    rewrite (proj1 (pos_ok _ _ T)). reflexivity.
  - intros T. rewrite (proj1 (pos_ok _ _ T)). reflexivity.
Qed.
Lemma execute_all_ok l : forall w, Forall (on_qubits (w_qubits w)) l -> execute_all l w = Ok (set_wave w (gacts (w_qubits w) l (w_wave w))).
Proof.
  induction l as [|c l IH]; intros w F; cbn [execute_all foldM].
  - cbn [gacts fold_left]. rewrite set_wave_eta. reflexivity.
  - inversion F as [|? ? F1 F2]; subst. rewrite execute_ok by exact F1. cbn [bind]. fold (execute_all l). rewrite IH by exact F2. reflexivity.
Qed.
Lemma gacts_app ids l1 l2 psi : gacts ids (l1 ++ l2) psi = gacts ids l2 (gacts ids l1 psi).
Proof. unfold gacts. apply fold_left_app. Qed.

(** ** operators respect equality of states and inner products *)
Lemma cexp_0 : cexp 0 = s1. Proof. unfold cexp. rewrite cos_0, sin_0. reflexivity. Qed.
Lemma cexp_add a b : smul (cexp a) (cexp b) = cexp (a + b).
Proof. apply CC_eq; cbn; [rewrite cos_plus; ring|rewrite sin_plus; ring]. Qed.
Lemma cexp_conj a : sconj (cexp a) = cexp (- a).
Proof. apply CC_eq; cbn; [rewrite cos_neg; reflexivity|rewrite sin_neg; reflexivity]. Qed.
Lemma cexp_unit a : smul (sconj (cexp a)) (cexp a) = s1.
Proof. rewrite cexp_conj, cexp_add. replace (- a + a)%R with 0%R by ring. apply cexp_0. Qed.
Add Ring CCring19 : (s_rt CC).
Lemma hh_ok : sadd (smul hh hh) (smul hh hh) = s1.
Proof.
  assert (E : (/ sqrt 2 * / sqrt 2 = / 2)%R). { rewrite <- Rinv_mult. rewrite sqrt_sqrt; lra. }
  unfold hh. apply CC_eq; cbn; [rewrite Rmult_0_l, E; lra|ring].
Qed.
Lemma hh_conj : sconj hh = hh. Proof. unfold hh. apply CC_eq; cbn; ring. Qed.
Lemma ii_sq : smul ii ii = sopp s1. Proof. unfold ii. apply CC_eq; cbn; ring. Qed.
Lemma ii_conj : sconj ii = sopp ii. Proof. unfold ii. apply CC_eq; cbn; ring. Qed.

Lemma gact_eqs n ids c psi phi : eqs n psi phi -> eqs n (gact ids c psi) (gact ids c phi).
Proof.
  intros E. destruct c as [cs a t|t]; cbn [gact].
  - intros y Hy. unfold apply_phase. rewrite (E y Hy). reflexivity.
  - apply apply_gate_eqs, E.
Qed.
Lemma gacts_eqs n ids l : forall psi phi, eqs n psi phi -> eqs n (gacts ids l psi) (gacts ids l phi).
Proof. induction l as [|c l IH]; intros psi phi E; [exact E|]. cbn [gacts fold_left]. apply IH, gact_eqs, E. Qed.
Lemma gact_scale ids c z psi y : gact ids c (sscale z psi) y = sscale z (gact ids c psi) y.
Proof.
  destruct c as [cs a t|t]; cbn [gact].
  - unfold apply_phase, sscale. destruct (_ && _)%bool; ring.
  - unfold apply_gate, sscale. cbn [forallb]. ring.
Qed.
Lemma gacts_scale n ids l : forall z psi, eqs n (gacts ids l (sscale z psi)) (sscale z (gacts ids l psi)).
Proof.
  induction l as [|c l IH]; intros z psi; [apply eqs_refl|]. cbn [gacts fold_left]. eapply eqs_trans; [|apply IH]. apply gacts_eqs. intros y _. apply gact_scale.
Qed.
Lemma gact_inner ids c psi phi : on_qubits ids c -> inner (length ids) (gact ids c psi) (gact ids c phi) = inner (length ids) psi phi.
Proof.
  destruct c as [cs a t|t]; cbn [on_qubits gact]; intros H.
  - apply isum_ext. intros y Hy. unfold apply_phase. destruct (_ && _)%bool; [|reflexivity]. rewrite sconj_mul.
    transitivity (smul (smul (sconj (cexp a)) (cexp a)) (smul (sconj (psi y)) (phi y))); [ring|]. rewrite cexp_unit. ring.
  - apply (inner_gate hh ii hh_ok hh_conj ii_sq ii_conj); [apply (pos_ok ids t H)|auto].
Qed.
Lemma gacts_inner ids l : Forall (on_qubits ids) l -> forall psi phi, inner (length ids) (gacts ids l psi) (gacts ids l phi) = inner (length ids) psi phi.
Proof.
  induction 1 as [|c l H F IH]; intros psi phi; [reflexivity|]. cbn [gacts fold_left]. fold (gacts ids l). unfold gacts in IH. rewrite IH. apply gact_inner, H.
Qed.

(** ** cancelling commands *)
Definition cancels (ids : list nat) (c' c : command) : Prop := forall psi, eqs (length ids) (gact ids c' (gact ids c psi)) psi.
Lemma phase_cancels ids cs a b t : cexp (b + a) = s1 -> cancels ids (PhaseGate cs b t) (PhaseGate cs a t).
Proof.
  intros E psi y _. cbn [gact]. unfold apply_phase. destruct (_ && _)%bool; [|reflexivity]. transitivity (smul (smul (cexp b) (cexp a)) (psi y)); [ring|]. rewrite cexp_add, E. ring.
Qed.
Lemma gate_h_twice p psi y : p < length y -> apply_gate hh ii [] GH p (apply_gate hh ii [] GH p psi) y = psi y.
Proof.
  intros Hp. unfold apply_gate. cbn [forallb]. rewrite !getb_setb by exact Hp. rewrite !Nat.eqb_refl, !setb_setb.
  assert (E : psi (setb y p (getb y p)) = psi y) by (rewrite setb_same; reflexivity).
  assert (Q : smul (sadd (smul hh hh) (smul hh hh)) (psi y) = psi y) by (rewrite hh_ok; ring).
  destruct (getb y p); cbn [gate_entry]; rewrite <- Q; rewrite <- E; ring.
Qed.
Lemma setb_comm y p q a b : p <> q -> setb (setb y p a) q b = setb (setb y q b) p a.
Proof.
  intros N. apply bits_eq; [rewrite !setb_length; reflexivity|]. rewrite !setb_length. intros i Hi. rewrite !getb_setb by (rewrite ?setb_length; exact Hi).
  destruct (Nat.eqb_spec i q), (Nat.eqb_spec i p); congruence.
Qed.
Lemma gate_h_comm p q psi y : p <> q -> p < length y -> q < length y ->
  apply_gate hh ii [] GH p (apply_gate hh ii [] GH q psi) y = apply_gate hh ii [] GH q (apply_gate hh ii [] GH p psi) y.
Proof.
  intros N Hp Hq. unfold apply_gate. cbn [forallb]. rewrite !getb_setb by assumption. rewrite (proj2 (Nat.eqb_neq p q) N), (proj2 (Nat.eqb_neq q p)) by auto.
  rewrite !(setb_comm y p q) by exact N. ring.
Qed.
Lemma h_past ids q : In q ids -> forall l psi, ~ In q l -> incl l ids -> eqs (length ids) (gacts ids (map Hadamard l) (gact ids (Hadamard q) psi)) (gact ids (Hadamard q) (gacts ids (map Hadamard l) psi)).
Proof.
  intros Hq. induction l as [|t l IH]; intros psi N I; [apply eqs_refl|]. cbn [map gacts fold_left]. fold (gacts ids (map Hadamard l) (gact ids (Hadamard t) (gact ids (Hadamard q) psi))).
  fold (gacts ids (map Hadamard l) (gact ids (Hadamard t) psi)).
  eapply eqs_trans; [|apply IH; [intros X; apply N; right; exact X|intros x Hx; apply I; right; exact Hx]]. apply gacts_eqs. intros y Hy. cbn [gact].
  apply gate_h_comm; [|rewrite Hy; apply (pos_ok ids t), I; left; reflexivity|rewrite Hy; apply (pos_ok ids q Hq)].
  intros E. apply N. left. apply (pos_inj ids); [apply I; left; reflexivity|exact Hq|exact E].
Qed.
Lemma h_block ids l : NoDup l -> incl l ids -> forall psi, eqs (length ids) (gacts ids (map Hadamard l) (gacts ids (map Hadamard l) psi)) psi.
Proof.
  induction 1 as [|q l N D IH]; intros I psi; [apply eqs_refl|]. cbn [map gacts fold_left].
  fold (gacts ids (map Hadamard l) (gact ids (Hadamard q) psi)).
  fold (gacts ids (map Hadamard l) (gact ids (Hadamard q) (gacts ids (map Hadamard l) (gact ids (Hadamard q) psi)))).
  assert (Hq : In q ids) by (apply I; left; reflexivity). assert (Il : incl l ids) by (intros x Hx; apply I; right; exact Hx).
  eapply eqs_trans; [apply h_past; assumption|]. eapply eqs_trans; [apply gact_eqs, IH, Il|]. intros y Hy. cbn [gact]. apply gate_h_twice. rewrite Hy. apply (pos_ok ids q Hq).
Qed.
(** undoing a list of commands in reverse order *)
Lemma cancel_list ids l l' : Forall2 (cancels ids) l' l -> forall psi, eqs (length ids) (gacts ids (rev l') (gacts ids l psi)) psi.
Proof.
  induction 1 as [|c' c l' l C F IH]; intros psi; [apply eqs_refl|]. cbn [rev]. rewrite gacts_app. cbn [gacts fold_left]. fold (gacts ids l (gact ids c psi)). fold (gacts ids (rev l') (gacts ids l (gact ids c psi))).
  eapply eqs_trans; [apply gact_eqs, IH|]. apply C.
Qed.
