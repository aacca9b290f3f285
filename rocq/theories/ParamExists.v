(** The contracts asked of numpy.linalg.eigh (increasing eigenvalues) and
    numpy.linalg.cholesky are satisfiable. *)
From Verif Require Import Py Scalar PauliModel PauliSpec KrausSpec EncoderProofs EighExists Spectral SpectralProofs ParamModel ParamSpec ParamProofs5.
From Coq Require Import Reals Lra IndefiniteDescription Classical Permutation Sorted.
Open Scope nat_scope.

Section Sort.
Variable e : nat -> R.
Let le_e (a b : nat) : Prop := (e a <= e b)%R.
Lemma insert_sorted a : forall l, StronglySorted le_e l -> exists l', Permutation (a :: l) l' /\ StronglySorted le_e l'.
Proof.
  induction l as [|b l IH]; intros S.
  - exists [a]. split; [reflexivity|]. constructor; constructor.
  - apply StronglySorted_inv in S. destruct S as [S F]. destruct (Rle_lt_dec (e a) (e b)) as [L|L].
    + exists (a :: b :: l). split; [reflexivity|]. constructor; [constructor; assumption|]. constructor; [exact L|]. eapply Forall_impl; [|exact F]. unfold le_e. intros; lra.
    + destruct (IH S) as (l' & P & S'). exists (b :: l'). split; [rewrite perm_swap; constructor; exact P|]. constructor; [exact S'|].
      apply (Permutation_Forall P). constructor; [unfold le_e; lra|exact F].
Qed.
Lemma sort_exists : forall l, exists l', Permutation l l' /\ StronglySorted le_e l'.
Proof.
  induction l as [|a l (l' & P & S)]; [exists []; split; [reflexivity|constructor]|]. destruct (insert_sorted a l' S) as (m & Pm & Sm). exists m. split; [rewrite <- Pm; constructor; exact P|exact Sm].
Qed.
Lemma sorted_nth l : StronglySorted le_e l -> forall s t d, s <= t -> t < length l -> (e (nth s l d) <= e (nth t l d))%R.
Proof.
  induction 1 as [|a l S IH F]; intros s t d Hst Ht; [cbn in Ht; lia|]. destruct s as [|s], t as [|t]; cbn [nth]; try lra; try lia.
  - rewrite Forall_forall in F. apply F. apply nth_In. cbn in Ht. lia.
  - apply IH; cbn in Ht; lia.
Qed.
End Sort.

Theorem sorted_spectral d A : hermitian d A -> exists e V, eigen_decomposition d A e V /\ forall s t, s <= t -> t < d -> (e s <= e t)%R.
Proof.
  intros H. destruct (spectral d A H) as (V & e & [[U1 U2] E]). destruct (sort_exists e (seq 0 d)) as (l & P & S).
  assert (Ll : length l = d) by (rewrite <- (Permutation_length P); apply seq_length).
  assert (ND : NoDup l) by (apply (Permutation_NoDup P), seq_NoDup).
  set (p := fun t => nth t l 0).
  assert (Pb : forall t, t < d -> p t < d). { intros t Ht. assert (I : In (p t) (seq 0 d)) by (apply (Permutation_in _ (Permutation_sym P)), nth_In; lia). apply in_seq in I. lia. }
  assert (Q : exists q, forall i, i < d -> p i < d /\ q i < d /\ p (q i) = i /\ q (p i) = i).
  { destruct (functional_choice (fun i t => i < d -> t < d /\ p t = i)) as (q & Hq).
    - intros i. destruct (Nat.lt_ge_cases i d) as [Hi|]; [|exists 0; intros; lia]. assert (I : In i l) by (apply (Permutation_in _ P), in_seq; lia). destruct (In_nth l i 0 I) as (t & Ht & Et). exists t. intros _. split; [lia|exact Et].
    - exists q. intros i Hi. destruct (Hq i Hi) as [A1 A2]. specialize (Pb i Hi). split; [exact Pb|]. split; [exact A1|]. split; [exact A2|]. destruct (Hq (p i) Pb) as [B1 B2].
      apply (proj1 (NoDup_nth l 0) ND); [lia|lia|exact B2]. }
  destruct Q as (q & Hq). exists (fun t => e (p t)), (fun i t => V i (p t)). split; [split; [split|]|].
  - intros s t Hs Ht. destruct (Hq s Hs) as (A1 & _ & _ & A2), (Hq t Ht) as (B1 & _ & _ & B2).
    transitivity (mm d (adj V) V (p s) (p t)); [reflexivity|]. rewrite (U1 _ _ A1 B1). unfold eye. destruct (Nat.eqb_spec (p s) (p t)) as [E1|N1], (Nat.eqb_spec s t) as [E2|N2]; try reflexivity; [exfalso; apply N2; congruence|exfalso; apply N1; congruence].
  - intros i j Hi Hj. rewrite <- (U2 i j Hi Hj). unfold mm, adj. apply (bsum_perm d p q (fun t => smul (V i t) (sconj (V j t)))). exact Hq.
  - intros i t Hi Ht. apply (E i (p t) Hi). apply Pb, Ht.
  - intros s t Hst Ht. apply (sorted_nth e l S); lia.
Qed.
Theorem sorted_eigh_exists : exists eigh, sorted_eigh eigh.
Proof.
  destruct (functional_choice (fun (A : marr CC) (r : (nat -> R) * marr CC) => forall d, mr A = d -> mc A = d -> hermitian d (me A) ->
     mr (snd r) = d /\ mc (snd r) = d /\ eigen_decomposition d (me A) (fst r) (me (snd r)) /\ forall s t, s <= t -> t < d -> (fst r s <= fst r t)%R)) as (f & Hf).
  - intros A. destruct (classic (hermitian (mr A) (me A))) as [H|N].
    + destruct (sorted_spectral (mr A) (me A) H) as (e & V & ED & S). exists (e, MA (mr A) (mr A) V). intros d D1 D2 _. subst d. repeat split; try apply ED. exact S.
    + exists ((fun _ => 0%R), MA 0 0 (fun _ _ => s0)). intros d D1 D2 H. exfalso. apply N. subst d. auto.
  - exists f. intros d A. apply Hf.
Qed.
Theorem cholesky_contract_exists : exists cholesky, cholesky_contract cholesky.
Proof.
  destruct (functional_choice (fun (A : marr CC) (r : res (marr CC)) => forall d, mr A = d -> mc A = d -> positive_definite d (me A) ->
     exists L, r = Ok L /\ mr L = d /\ mc L = d /\ cholesky_factor d (me A) (me L))) as (f & Hf).
  - intros A. destruct (classic (positive_definite (mr A) (me A))) as [H|N].
    + destruct (cholesky_exists (mr A) (me A) H) as (L & FL). exists (Ok (MA (mr A) (mr A) L)). intros d D1 D2 _. subst d. eexists. split; [reflexivity|]. cbn [mr mc me]. auto.
    + exists (Err LinAlgError). intros d D1 D2 H. exfalso. apply N. subst d. auto.
  - exists f. intros d A. apply Hf.
Qed.
