(** The law of the fidelity estimate over many trials (C147). *)
From Verif Require Import Py Scalar OptimModel DeviceModel TwirlSpec.
From Coq Require Import Reals.
Open Scope R_scope.

Definition sum_of (l : list R) : R := fold_right Rplus 0 l.
(** N estimates with one trial each, one after the other *)
Fixpoint one_by_one (step : adaptor -> world -> res (adaptor * world * R)) (N : nat) (a : adaptor) (w : world) : res (adaptor * world * list R) :=
  match N with
  | O => Ok (a, w, [])
  | S N => do (a1, w1, r) <- step a w; do (a2, w2, l) <- one_by_one step N a1 w1; Ok (a2, w2, r :: l)
  end.
(** v is the expected value of f (the N values returned) when the steps are taken one after the other, each with new
    random numbers (mean h is the expected value of h over these) and new measurement outcomes.  A step returns 1 with a probability p that
    depends on its random numbers, and otherwise 0.  By the law of total expectation v is the mean over these of the
    expected value for the rest, which may not depend on which outcomes led to a 0. *)
Fixpoint has_mean (step : adaptor -> world -> res (adaptor * world * R)) (mean : (list nat -> R) -> R) (N : nat) (a : adaptor) (w : world) (f : list R -> R) (v : R) : Prop :=
  match N with
  | O => v = f []
  | S N => exists p v1 v0 : list nat -> R, succeeds (step a) w p /\
      (forall draws, p draws <> 1 -> exists outcomes a' w', step a (with_luck w draws outcomes) = Ok (a', w', 0)) /\
      (forall draws outcomes a' w' r, step a (with_luck w draws outcomes) = Ok (a', w', r) ->
         has_mean step mean N a' w' (fun l => f (r :: l)) (if Req_EM_T r 1 then v1 draws else v0 draws)) /\
      v = mean (fun d => p d * v1 d + (1 - p d) * v0 d)
  end.
(** the expected value of f (N independent coin flips), each 1 with probability mu and 0 otherwise *)
Fixpoint coins (N : nat) (mu : R) (f : list R -> R) : R :=
  match N with
  | O => f []
  | S N => mu * coins N mu (fun l => f (1 :: l)) + (1 - mu) * coins N mu (fun l => f (0 :: l))
  end.
