(** Specification vocabulary for assignments to a Kraus object: histories of the calls a
    user makes on it. *)
From Verif Require Import Py Scalar PauliModel PauliSpec KrausModel KrausSpec ChannelModel ChannelSpec SetterModel.
Open Scope nat_scope.
Section S.
Context {K : StarRing}.
(** o.update_kraus_operators(n), o.kraus_ops = t, o.nth_kraus_ops = t *)
Inductive edit := Update (n : nat) | AssignOne (t : ten3 K) | AssignCurrent (t : ten3 K).
Definition edited (o : kraus K) (l : list edit) : kraus K :=
  fold_left (fun o e => match e with
                        | Update n => fst (update_kraus_operators o n)
                        | AssignOne t => assign_kraus_ops o t
                        | AssignCurrent t => assign_nth_kraus_ops o t
                        end) l o.
(** every n asked for is at least 1 *)
Definition uses (e : edit) : Prop := match e with Update n => 1 <= n | _ => True end.
(** the object is the channel with these operators, each r x c: they are its current
    operators, its exchange tensor and its answers to channel are theirs *)
Definition behaves_as (o : kraus K) (ops : list (marr K)) (r c : nat) : Prop :=
  same_ops (slices (nth_ops o)) ops /\ exchange_tensor ops (nth_exch o) c /\
  forall rho, is_square c rho -> exists out, channel o rho false = Ok out /\ is_square r out /\ eqm r r (me out) (channel_map ops (me rho)).
End S.
Arguments edit : clear implicits.
(** some number in the list is smaller than the one before it *)
Definition goes_down (l : list nat) : Prop := exists p x y s, l = p ++ x :: y :: s /\ y < x.
(** no number in the list is smaller than the one before it *)
Fixpoint climbs (from : nat) (l : list nat) : Prop := match l with [] => True | n :: r => from <= n /\ climbs n r end.
