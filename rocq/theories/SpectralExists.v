(** The contracts asked of eigh, eigvalsh and sqrtm are satisfiable (by the axiom of
    choice of the standard library, since they are stated for functions). *)
From Verif Require Import Py Scalar PauliModel PauliSpec KrausSpec EncoderProofs EighExists Spectral SpectralProofs ChoiSpec.
From Coq Require Import Reals Lra IndefiniteDescription Classical.
Open Scope nat_scope.

Theorem eigvalsh_exists : exists eigvalsh, eigvalsh_ok eigvalsh.
Proof.
  destruct (functional_choice (fun (A : marr CC) (l : list R) => forall d, is_square d A -> hermitian d (me A) -> spectrum d (me A) l)) as (f & Hf).
  - intros A. destruct (classic (mr A = mc A /\ hermitian (mr A) (me A))) as [[E H]|N].
    + destruct (spectral (mr A) (me A) H) as (V & e & ED). exists (map e (seq 0 (mr A))). intros d [D1 D2] _. subst d. split; [rewrite map_length; apply seq_length|].
      exists V. destruct ED as [U W]. split; [exact U|]. intros i t Hi Ht. rewrite W by assumption. f_equal. f_equal.
      rewrite (nth_indep _ 0%R (e 0)) by (rewrite map_length, seq_length; exact Ht). rewrite map_nth, seq_nth by exact Ht. reflexivity.
    + exists []. intros d [D1 D2] H. exfalso. apply N. subst d. auto.
  - exists f. intros d A S H. apply Hf; assumption.
Qed.
Theorem eigh_exists : exists eigh, eigh_all_ok eigh.
Proof.
  destruct (functional_choice (fun (A : marr CC) (r : (nat -> R) * marr CC) => forall d, is_square d A -> hermitian d (me A) -> is_square d (snd r) /\ eigen_decomposition d (me A) (fst r) (me (snd r)))) as (f & Hf).
  - intros A. destruct (classic (mr A = mc A /\ hermitian (mr A) (me A))) as [[E H]|N].
    + destruct (spectral (mr A) (me A) H) as (V & e & ED). exists (e, MA (mr A) (mr A) V). intros d [D1 D2] _. subst d. split; [split; reflexivity|exact ED].
    + exists ((fun _ => 0%R), MA 0 0 (fun _ _ => s0)). intros d [D1 D2] H. exfalso. apply N. subst d. auto.
  - exists f. intros d A S H. apply Hf; assumption.
Qed.
Theorem sqrtm_exists : exists sqrtm, sqrtm_ok sqrtm.
Proof.
  destruct (functional_choice (fun (A S : marr CC) => forall d, is_square d A -> hermitian d (me A) -> psd d (me A) -> is_square d S /\ square_root d (me A) (me S))) as (f & Hf).
  - intros A. destruct (classic (mr A = mc A /\ psd (mr A) (me A))) as [[E H]|N].
    + destruct (square_root_exists (mr A) (me A) H) as (S & HS). exists (MA (mr A) (mr A) S). intros d [D1 D2] _ _. subst d. split; [split; reflexivity|exact HS].
    + exists A. intros d [D1 D2] _ H. exfalso. apply N. subst d. auto.
  - exists f. intros d A S H P. apply Hf; assumption.
Qed.
