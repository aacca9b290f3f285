(** Vocabulary for statements about the sampler and the optimisation. *)
From Verif Require Import Py Scalar PauliModel KrausSpec ChannelModel OptimModel.
From Coq Require Import Reals Sorted.
From Coq Require String.
Import String.StringSyntax.
Delimit Scope string_scope with string.
Open Scope nat_scope.

(** sum over all entries of |A_ij - B_ij| *)
Definition entry_dist (r c : nat) (A B : array CC) : R :=
  reals_sum (map (fun i => reals_sum (map (fun j => Cmod (ssub (A i j) (B i j))) (seq 0 c))) (seq 0 r)).

(** A sample of the Lipschitz sampler: the number of the draw, the vector, its density
    matrix and the value of the objective there. *)
Record sample := Sample { s_draw : nat; s_vec : list R; s_rho : marr CC; s_val : R }.
(** it was obtained by that draw; the sampler maximises minus f *)
Definition drawn (f : list R -> res R) (p : paramet) (nsize rank : nat) (x : sample) : Prop :=
  p_random p (s_draw x) nsize rank = Ok (s_vec x) /\ p_rho p (s_vec x) nsize rank = Ok (s_rho x) /\ f (s_vec x) = Ok (- s_val x)%R.
(** rho may be better than everything seen if the objective changes by at most the
    distance: no value seen exceeds an upper bound at rho *)
Definition could_be_best (seen : list sample) (rho : marr CC) : Prop :=
  forall x y, In x seen -> In y seen -> (s_val x <= s_val y + entry_dist (mr rho) (mc rho) (me rho) (me (s_rho y)))%R.
Definition before (k : nat) (l : list sample) : list sample := filter (fun x => Nat.ltb (s_draw x) k) l.

(** calling f does not change the channel object *)
Definition steady (f : objective) (c : chan CC) : Prop := forall v, fst (f c v) = c.

(** ** scipy *)
(** the object after calling the objective at each of the points *)
Definition called (f : objective) (c : chan CC) (points : list (list R)) : chan CC := fold_left (fun c v => fst (f c v)) points c.
(** a minimiser of f started with the object c: it calls f at some points, and reports as
    fun what f returned at x *)
Definition reports (f : objective) (c : chan CC) (m : chan CC * res run) : Prop :=
  (exists points, fst m = called f c points) /\
  (forall r, snd m = Ok r -> exists points, snd (f (called f c points) (r_x r)) = Ok (r_fun r)).
Definition scipy_ok (s : scipy) : Prop :=
  (forall f bounds maxiter x0 c, reports f c (slsqp s f bounds maxiter x0 c)) /\
  (forall f bounds maxiter init popsize c, reports f c (diffev s f bounds maxiter init popsize c)).

(** The run that a pass over the runs ends with, when a run is taken if its value and that
    of the run in hand add up to less than zero, the first if its value is below 10^10 *)
Inductive taken : list run -> run -> Prop :=
| taken_first before r after : Forall (fun r' => (10000000000 <= r_fun r')%R) before -> (r_fun r < 10000000000)%R ->
    Forall (fun r' => (0 <= r_fun r + r_fun r')%R) after -> taken (before ++ r :: after) r
| taken_next before r0 r after : taken before r0 -> (r_fun r0 + r_fun r < 0)%R ->
    Forall (fun r' => (0 <= r_fun r + r_fun r')%R) after -> taken (before ++ r :: after) r.
(** the run r is at least as good as all *)
Definition least (r : run) (l : list run) : Prop := In r l /\ forall r', In r' l -> (r_fun r <= r_fun r')%R.

(** ** The procedure *)
(** the starting points: the user's samples, followed by the ones of the Lipschitz sampler
    when lipschitz is not zero; it must find that many in 1000 draws *)
Definition starts (f : objective) (p : paramet) (nsize rank : nat) (a : options) (c : chan CC) (samples : list (list R)) : Prop :=
  (a_lipschitz a = PyInt 0 /\ samples = a_samples a) \/
  (exists m vecs evals, a_lipschitz a = PyInt m /\ (0 < m)%Z /\ snd (initial_guesses_lipschitz f nsize rank p c m 1000) = Ok (vecs, evals, true) /\
     Z.of_nat (length vecs) = m /\ samples = a_samples a ++ vecs).
(** the run of scipy whose fun, success and x are reported *)
Definition selected (s : scipy) (f : objective) (bounds : list (R * R)) (a : options) (samples : list (list R)) (c : chan CC) (r : run) : Prop :=
  (a_optimizer a = "diffev"%string /\
     snd (diffev s f bounds (a_maxiter a) (match samples with [] => LatinHypercube | _ => Population samples end)
            (match samples with [] => 50 | _ => length samples end) c) = Ok r) \/
  (a_optimizer a = "slsqp"%string /\ exists x0, In x0 samples /\ snd (slsqp s f bounds (a_maxiter a) x0 c) = Ok r).

(** the options accepted before anything is computed *)
Definition accepted (a : options) : Prop :=
  (exists z, a_use_pool a = PyInt z /\ (0 <= z)%Z) /\ (a_samples a <> [] -> a_samples_list a = true) /\
  (exists m, a_lipschitz a = PyInt m /\ (0 <= m)%Z /\ (a_optimizer a = "slsqp"%string -> a_samples a = [] -> (0 < m)%Z)).
