(** Results of Python calls: a value or the class of the exception raised. *)
From Coq Require Export List Arith ZArith Lia Bool.
From Coq Require Import Ascii.
Export ListNotations.

(** Exception classes that the modelled code can raise.  [Unmodelled] marks the
    few inputs on which the model does not follow the code (see DESIGN.md); no
    property theorem concludes anything from it. *)
Inductive exn : Set :=
| AssertionError | TypeError | ValueError | IndexError | RuntimeError
| AttributeError | NameError | UnboundLocalError | ZeroDivisionError
| LinAlgError | Unmodelled.

Inductive res (A : Type) : Type :=
| Ok (a : A)
| Err (e : exn).
Arguments Ok {A} a.
Arguments Err {A} e.

Definition bind {A B} (x : res A) (f : A -> res B) : res B :=
  match x with Ok a => f a | Err e => Err e end.
Notation "'do' x <- e ; f" := (bind e (fun x => f))
  (at level 60, x pattern, e at level 59, f at level 60, right associativity).

(** Python [assert b]. *)
Definition assert_ (b : bool) : res unit := if b then Ok tt else Err AssertionError.
(** [if not b: raise e]. *)
Definition guard (b : bool) (e : exn) : res unit := if b then Ok tt else Err e.

(** List comprehension whose body can raise: stops at the first exception. *)
Fixpoint mapM {A B} (f : A -> res B) (l : list A) : res (list B) :=
  match l with
  | [] => Ok []
  | x :: r => do y <- f x; do ys <- mapM f r; Ok (y :: ys)
  end.

(** A [for] loop threading a state, stopping at the first exception. *)
Fixpoint foldM {S A} (f : S -> A -> res S) (l : list A) (s : S) : res S :=
  match l with
  | [] => Ok s
  | x :: r => do s' <- f s x; foldM f r s'
  end.

Lemma bind_ok {A B} (x : res A) (f : A -> res B) b :
  bind x f = Ok b <-> exists a, x = Ok a /\ f a = Ok b.
Proof.
  destruct x as [a|e]; simpl; split.
  - intros H; exists a; auto.
  - intros (a' & E & H); inversion E; subst; exact H.
  - discriminate.
  - intros (a' & E & H); discriminate.
Qed.

Lemma mapM_ok {A B} (f : A -> res B) l ys :
  mapM f l = Ok ys <-> Forall2 (fun x y => f x = Ok y) l ys.
Proof.
  revert ys; induction l as [|x r IH]; intros ys; simpl.
  - split; intros H; inversion H; subst; constructor.
  - split.
    + intros H; apply bind_ok in H; destruct H as (y & Hy & H).
      apply bind_ok in H; destruct H as (ys' & Hys & H).
      inversion H; subst; constructor; [exact Hy|apply IH; exact Hys].
    + intros H; inversion H as [|x' y r' ys' Hy Hr]; subst.
      rewrite Hy; simpl. apply IH in Hr; rewrite Hr; reflexivity.
Qed.

Lemma mapM_map {A B} (f : A -> res B) (g : A -> B) l :
  (forall x, In x l -> f x = Ok (g x)) -> mapM f l = Ok (map g l).
Proof.
  induction l as [|x r IH]; intros H; simpl; [reflexivity|].
  rewrite H by (left; reflexivity); simpl.
  rewrite IH by (intros y Hy; apply H; right; exact Hy); reflexivity.
Qed.

Lemma foldM_app {S A} (f : S -> A -> res S) l1 l2 s :
  foldM f (l1 ++ l2) s = (do s' <- foldM f l1 s; foldM f l2 s').
Proof.
  revert s. induction l1 as [|x l1 IH]; intros s; [reflexivity|]. cbn [foldM app].
  destruct (f s x) as [s'|e]; [apply IH|reflexivity].
Qed.
