(** Vocabulary for what a caller does to arrays after handing them over (C151, C152). *)
From Verif Require Import Py ZMat CodesModel Scalar PauliModel KrausModel KrausSpec SetterModel SetterSpec SharedModel.
Open Scope nat_scope.
Section S.
Context {K : StarRing}.
(** x[...] = t for the array at address a; o.update_kraus_operators(n) *)
Inductive action := WriteTo (a : nat) (t : ten3 K) | UpdateTo (n : nat).
Definition act (s : heap (ten3 K) * kraus_object K) (e : action) : heap (ten3 K) * kraus_object K :=
  match e with WriteTo a t => (write (fst s) a t, snd s) | UpdateTo n => update (fst s) (snd s) n end.
(** what the object looks like after these actions *)
Definition after_actions (s : heap (ten3 K) * kraus_object K) (l : list action) : kraus K :=
  let '(h, o) := fold_left act l s in seen h o.
(** only arrays that existed before are written to *)
Definition writes_below (m : nat) (e : action) : Prop := match e with WriteTo a _ => a < m | UpdateTo _ => True end.
(** the updates alone *)
Fixpoint updates (l : list action) : list (edit K) := match l with [] => [] | UpdateTo n :: l => Update n :: updates l | WriteTo _ _ :: l => updates l end.
(** Writing to the shared array at address a is assigning to kraus_ops, and to nth_kraus_ops too while n = 1 after a larger n.
    [cur]: the current n; [low]: whether the last change of n was down to 1. *)
Fixpoint as_assignments (a cur : nat) (low : bool) (l : list action) : list (edit K) :=
  match l with
  | [] => []
  | UpdateTo n :: l => Update n :: as_assignments a n (if Nat.eqb n cur then low else Nat.ltb n cur && Nat.eqb n 1) l
  | WriteTo b t :: l => (if Nat.eqb b a then AssignOne t :: (if low then [AssignCurrent t] else []) else []) ++ as_assignments a cur low l
  end.
End S.
Arguments action : clear implicits.
(** the code after these arrays were overwritten *)
Definition code_after (h : heap zmat) (o : code_object) (l : list (nat * zmat)) : code :=
  seen_code (fold_left (fun h w => write h (fst w) (snd w)) l h) o.
Definition contents_after (h : heap zmat) (l : list (nat * zmat)) (a : nat) : zmat := cells (fold_left (fun h w => write h (fst w) (snd w)) l h) a.
(** every n asked for is at least 1 *)
Definition sensible {K : StarRing} (e : action K) : Prop := match e with UpdateTo n => 1 <= n | WriteTo _ _ => True end.
