(** Model of PyQCodes/_optimize.py (the Lipschitz sampler), PyQCodes/chan/_coherent.py
    (the optimisation procedure) and the optimisation methods of AnalyticQChan
    (channel.py L572-721).  scipy's minimize and differential_evolution, the random
    draws, numpy.linalg.eigvalsh and scipy.linalg.sqrtm are arguments; floats are real
    numbers.  What the functions print is not modelled. *)
From Verif Require Import Py Scalar PauliModel KrausModel ChoiModel ChannelModel ParamModel.
From Coq Require Import Reals.
From Coq Require String.
Import String.StringSyntax.
Notation string := String.string.
Delimit Scope string_scope with string.
Open Scope nat_scope.

(** ** Parameterisations *)
(** The methods of a class or object implementing ParameterizationABC that the
    optimisation uses (param.py L53-73): bounds(nsize, rank), rho_from_vec(vec, nsize,
    rank) and random_vectors(nsize, rank).  The last one draws random numbers: its value
    is given for the first, second, ... call. *)
Record paramet := Paramet {
  p_bounds : nat -> nat -> res (list (R * R));
  p_rho : list R -> nat -> nat -> res (marr CC);
  p_random : nat -> nat -> nat -> res (list R) }.

(** The numbers drawn by numpy.random in the k-th call to random_vectors. *)
Record rng := Rng { r_normal : nat -> R -> R -> nat -> list R; r_uniform : nat -> R -> R -> nat -> list R }.
(** param.py L194-367 (dist="normal" by default) and L370-590 (dist="uniform",
    l_bnd=-1, u_bnd=1 by default) *)
Definition OverParam (g : rng) : paramet :=
  Paramet (fun nsize rank => Ok (over_bounds nsize rank)) (fun vec nsize rank => over_rho_from_vec vec nsize (Some rank))
          (fun k nsize rank => over_random_vectors (r_normal g k) (r_uniform g k) nsize rank "normal"%string).
Definition CholeskyParam (g : rng) : paramet :=
  Paramet (fun nsize rank => Ok (chol_bounds nsize rank (-1)%R 1%R)) (fun vec nsize rank => chol_rho_from_vec vec nsize (Some rank))
          (fun k nsize rank => chol_random_vectors (r_normal g k) (r_uniform g k) nsize rank "uniform"%string (-1)%R 1%R).

(** The param argument: a string, an object whose class derives from
    ParameterizationABC, a class deriving from it, or something else. *)
Inductive param_arg := PName (s : string) | PObject (p : paramet) | PClass (p : paramet) | POther.

(** _coherent.py L63-75.  isinstance(param, ParameterizationABC) is False for a class. *)
Definition get_paramet (g : rng) (a : param_arg) : res paramet :=
  match a with
  | PClass _ | POther => Err TypeError
  | PObject p => Ok p
  | PName s => if String.eqb s "overparam"%string then Ok (OverParam g)
               else if String.eqb s "cholesky"%string then Ok (CholeskyParam g)
               else Err TypeError
  end.

(** ** Objectives *)
(** A callable objective: the channel object may change when it is called. *)
Definition objective := chan CC -> list R -> chan CC * res R.

Section Objectives.
Variables (eigvalsh : marr CC -> list R) (sqrtm : marr CC -> marr CC).
(** _coherent.py L41-44 *)
Definition obj_coherent (nsize rank : nat) (p : paramet) (n : nat) : objective := fun c vec =>
  match p_rho p vec nsize rank with
  | Err e => (c, Err e)
  | Ok rho => let '(c', r) := coherent_information eigvalsh sqrtm c rho n false in (c', do x <- r; Ok (- x)%R)
  end.
(** _coherent.py L47-51 *)
Definition obj_fidelity (nsize : nat) (p : paramet) (n : nat) : objective := fun c vec =>
  match p_rho p vec nsize 1 with
  | Err e => (c, Err e)
  | Ok rho => fidelity_two_states sqrtm c rho n
  end.
(** _coherent.py L54-60, with the arguments (nsize, rank, param, channel, n) of L253 *)
Definition choose_objective (name : string) : res (nat -> nat -> paramet -> nat -> objective) :=
  if String.eqb name "coherent"%string then Ok obj_coherent
  else if String.eqb name "fidelity"%string then Ok (fun nsize _ p n => obj_fidelity nsize p n)
  else Err TypeError.
End Objectives.

(** ** The Lipschitz sampler *)
(** np.sum(np.abs(rho - sigma)); matrices of different shapes are not modelled *)
Definition l1_dist (rho sigma : marr CC) : res R :=
  if Nat.eqb (mr rho) (mr sigma) && Nat.eqb (mc rho) (mc sigma)
  then Ok (fold_right Rplus 0%R (flat_map (fun i => map (fun j => Cmod (ssub (me rho i j) (me sigma i j))) (seq 0 (mc rho))) (seq 0 (mr rho))))
  else Err Unmodelled.
(** np.min *)
Definition np_min (l : list R) : res R :=
  match l with [] => Err ValueError | x :: r => Ok (fold_left Rmin r x) end.
Definition Rleb (x y : R) : bool := if Rle_dec x y then true else false.
Definition Rltb (x y : R) : bool := if Rlt_dec x y then true else false.

(** The lists built by the loop (samples_vec, samples_rho, func_evals) and f_max. *)
Record lip := Lip { l_vecs : list (list R); l_rhos : list (marr CC); l_evals : list R; l_max : R }.

(** _optimize.py L84-94: the body of the while loop when the counter is k; the draw is
    the one of call k+1 *)
Definition lip_body (f : objective) (p : paramet) (nsize rank k : nat) (c : chan CC) (st : lip) : chan CC * res lip :=
  match (do vec <- p_random p (S k) nsize rank;
         do rho <- p_rho p vec nsize rank;
         do bounds <- mapM (fun q => do d <- l1_dist rho (snd q); Ok (fst q + d)%R) (combine (l_evals st) (l_rhos st));
         do m <- np_min bounds; Ok (vec, rho, m)) with
  | Err e => (c, Err e)
  | Ok (vec, rho, m) =>
      if Rleb (l_max st) m
      then let '(c', r) := f c vec in
           (c', do v <- r;
                let evals := l_evals st ++ [(- v)%R] in
                do fm <- np_max evals;
                Ok (Lip (l_vecs st ++ [vec]) (l_rhos st ++ [rho]) evals fm))
      else (c, Ok st)
  end.
(** _optimize.py L83-94: the while loop; [tries] is numb_tries - counter (0 when
    negative), so the first condition is that it is not 0 *)
Fixpoint lip_loop (f : objective) (p : paramet) (nsize rank : nat) (numb_samples : Z) (tries k : nat) (c : chan CC) (st : lip) : chan CC * res lip :=
  match tries with
  | O => (c, Ok st)
  | S t =>
      if (Z.of_nat (length (l_vecs st)) <? numb_samples)%Z
      then match lip_body f p nsize rank k c st with
           | (c', Ok st') => lip_loop f p nsize rank numb_samples t (S k) c' st'
           | (c', Err e) => (c', Err e)
           end
      else (c, Ok st)
  end.
(** _optimize.py L49-98 *)
Definition initial_guesses_lipschitz (f : objective) (nsize rank : nat) (p : paramet) (c : chan CC) (numb_samples numb_tries : Z)
  : chan CC * res (list (list R) * list R * bool) :=
  match (do vec <- p_random p 0 nsize rank; do rho <- p_rho p vec nsize rank; Ok (vec, rho)) with
  | Err e => (c, Err e)
  | Ok (vec, rho) =>
      let '(c1, r) := f c vec in
      match r with
      | Err e => (c1, Err e)
      | Ok v =>
          let '(c2, s) := lip_loop f p nsize rank numb_samples (Z.to_nat numb_tries) 0 c1 (Lip [vec] [rho] [(- v)%R] (- v)%R) in
          (c2, do st <- s; Ok (l_vecs st, l_evals st, (Z.of_nat (length (l_vecs st)) =? numb_samples)%Z))
      end
  end.

(** ** The optimisers *)
(** scipy's OptimizeResult: the fields fun, x and success *)
Record run := Run { r_fun : R; r_x : list R; r_success : bool }.
(** The init argument of differential_evolution *)
Inductive init_arg := LatinHypercube | Population (l : list (list R)).
(** minimize(f, x0, method="slsqp", bounds, maxiter) and differential_evolution(f,
    bounds, init, popsize, maxiter); both may raise.  The remaining options are constants. *)
Record scipy := Scipy {
  slsqp : objective -> list (R * R) -> Z -> list R -> chan CC -> chan CC * res run;
  diffev : objective -> list (R * R) -> Z -> init_arg -> nat -> chan CC -> chan CC * res run }.

(** What the dictionary has under optimal_val. *)
Inductive pyval := Float (x : R) | Result (r : run).
(** (optimal_val, success, optimal_x_val); x is None when no run was selected *)
Definition picked := (pyval * bool * option (list R))%type.

Definition start_val : R := (-10000000000)%R.

(** _coherent.py L94-98: the loop choosing among the results of the pool *)
Definition pool_step (st : R * bool * option (list R)) (r : run) : R * bool * option (list R) :=
  let '(maxima, success, x) := st in
  if Rltb maxima (- r_fun r)%R then (r_fun r, r_success r, Some (r_x r)) else st.
Definition pool_choose (results : list run) : R * bool * option (list R) :=
  fold_left pool_step results (start_val, false, None).
(** _coherent.py L84-99.  Every worker has its own copy of the channel object.  If some
    runs raise, the pool re-raises one of the exceptions; here, the first. *)
Definition use_multi_processes (s : scipy) (f : objective) (bounds : list (R * R)) (maxiter : Z) (samples : list (list R)) (c : chan CC) : res picked :=
  do results <- mapM (fun x0 => snd (slsqp s f bounds maxiter x0 c)) samples;
  let '(m, success, x) := pool_choose results in Ok (Float m, success, x).

(** _coherent.py L134-141.  optimal_val starts as a number and becomes an OptimizeResult,
    with which a number cannot be compared.  The variables success and optimal_x_val are
    unbound until a run is selected. *)
Definition serial_step (r : run) (st : option run) : res (option run) :=
  match st with
  | Some _ => Err TypeError
  | None => Ok (if Rltb start_val (r_fun r) then Some r else None)
  end.
Fixpoint serial_loop (s : scipy) (f : objective) (bounds : list (R * R)) (maxiter : Z) (samples : list (list R)) (c : chan CC) (st : option run)
  : chan CC * res (option run) :=
  match samples with
  | [] => (c, Ok st)
  | x0 :: rest =>
      match slsqp s f bounds maxiter x0 c with
      | (c', Err e) => (c', Err e)
      | (c', Ok r) => match serial_step r st with
                      | Err e => (c', Err e)
                      | Ok st' => serial_loop s f bounds maxiter rest c' st'
                      end
      end
  end.
Definition optimize_samples_slsqp (s : scipy) (f : objective) (bounds : list (R * R)) (maxiter : Z) (samples : list (list R)) (c : chan CC) : chan CC * res picked :=
  let '(c', r) := serial_loop s f bounds maxiter samples c None in
  (c', do st <- r;
       match st with Some o => Ok (Result o, r_success o, Some (r_x o)) | None => Err UnboundLocalError end).

(** _coherent.py L175-182 *)
Definition optimize_differential_evol (s : scipy) (f : objective) (bounds : list (R * R)) (init : init_arg) (popsize : nat) (maxiter : Z) (c : chan CC)
  : chan CC * res picked :=
  let '(c', r) := diffev s f bounds maxiter init popsize c in
  (c', do o <- r; Ok (Float (r_fun o), r_success o, Some (r_x o))).

(** ** The procedure *)
(** A number passed as use_pool or lipschitz (booleans are integers). *)
Inductive num := PyInt (z : Z) | PyFloat (x : R).
Definition num_nonneg (x : num) : bool := match x with PyInt z => (0 <=? z)%Z | PyFloat x => Rleb 0 x end.
Definition num_positive (x : num) : bool := match x with PyInt z => (0 <? z)%Z | PyFloat x => Rltb 0 x end.
Definition is_int (x : num) : bool := match x with PyInt _ => true | PyFloat _ => false end.
Definition as_int (x : num) : Z := match x with PyInt z => z | PyFloat _ => 0%Z end.

Record output := Output {
  o_rho : marr CC; o_val : pyval; o_method : string; o_lipschitz : bool; o_success : bool; o_objective : string }.

(** The keyword arguments of optimize_procedure other than channel, n, rank, objective.
    samples: the vectors, and whether they come in a list (or else in a tuple). *)
Record options := Options {
  a_optimizer : string; a_param : param_arg; a_lipschitz : num; a_use_pool : num; a_maxiter : Z; a_samples : list (list R); a_samples_list : bool }.

Section Procedure.
Variables (eigvalsh : marr CC -> list R) (sqrtm : marr CC -> marr CC) (s : scipy) (g : rng).

(** _coherent.py L239-249: the checks *)
Definition procedure_checks (objective : string) (a : options) : res (paramet * (nat -> nat -> paramet -> nat -> OptimModel.objective)) :=
  do p <- get_paramet g (a_param a);
  do f <- choose_objective eigvalsh sqrtm objective;
  do _ <- assert_ (is_int (a_use_pool a));
  do _ <- assert_ (num_nonneg (a_use_pool a));
  do _ <- assert_ (match a_samples a with [] => true | _ => a_samples_list a end);
  do _ <- assert_ (num_nonneg (a_lipschitz a));
  do _ <- assert_ (is_int (a_lipschitz a));
  do _ <- (if match a_samples a with [] => String.eqb (a_optimizer a) "slsqp"%string | _ => false end
           then assert_ (num_positive (a_lipschitz a)) else Ok tt);
  Ok (p, f).
(** _coherent.py L256-264: the samples used *)
Definition procedure_samples (f : OptimModel.objective) (p : paramet) (nsize rank : nat) (a : options) (c : chan CC) : chan CC * res (list (list R) * bool) :=
  let lipschitz := as_int (a_lipschitz a) in
  if (lipschitz =? 0)%Z then (c, Ok (a_samples a, false))
  else let '(c', r) := initial_guesses_lipschitz f nsize rank p c lipschitz 1000 in
       (c', do (vecs, _, success) <- r; do _ <- assert_ success; Ok (a_samples a ++ vecs, true)).
(** _coherent.py L266-294: running the optimiser *)
Definition procedure_run (f : OptimModel.objective) (bounds : list (R * R)) (a : options) (samples : list (list R)) (c : chan CC) : chan CC * res picked :=
  let lipschitz := as_int (a_lipschitz a) in
  if String.eqb (a_optimizer a) "diffev"%string then
    let '(init, popsize) := match samples with
                            | [] => if (lipschitz =? 0)%Z then (LatinHypercube, 50) else (Population [], 0)
                            | _ => (Population samples, length samples)
                            end in
    optimize_differential_evol s f bounds init popsize (a_maxiter a) c
  else if String.eqb (a_optimizer a) "slsqp"%string then
    if (lipschitz =? 0)%Z then (c, Err AssertionError)
    else if (as_int (a_use_pool a) =? 0)%Z then optimize_samples_slsqp s f bounds (a_maxiter a) samples c
    else (c, use_multi_processes s f bounds (a_maxiter a) samples c)
  else (c, Err TypeError).
(** _coherent.py L296-304: the dictionary returned.  rho_from_vec(None, ...) raises
    TypeError in len(None). *)
Definition procedure_output (objective : string) (p : paramet) (nsize rank : nat) (a : options) (use_lipschitz : bool) (o : picked) : res output :=
  let '(val, success, x) := o in
  do val <- (if String.eqb objective "coherent"%string
             then match val with Float v => Ok (Float (v * -1)%R) | Result _ => Err TypeError end
             else Ok val);
  match x with
  | None => Err TypeError
  | Some x => do rho <- p_rho p x nsize rank; Ok (Output rho val (a_optimizer a) use_lipschitz success objective)
  end.
(** _coherent.py L185-304 *)
Definition optimize_procedure (c : chan CC) (n rank : nat) (objective : string) (a : options) : chan CC * res output :=
  match procedure_checks objective a with
  | Err e => (c, Err e)
  | Ok (p, objective_func) =>
      let nsize := input_dimension c in
      match p_bounds p nsize rank with
      | Err e => (c, Err e)
      | Ok bounds =>
          let f := objective_func nsize rank p n in
          match procedure_samples f p nsize rank a c with
          | (c1, Err e) => (c1, Err e)
          | (c1, Ok (samples, use_lipschitz)) =>
              let '(c2, r) := procedure_run f bounds a samples c1 in
              (c2, do o <- r; procedure_output objective p nsize rank a use_lipschitz o)
          end
      end
  end.

(** channel.py L572-657: optimize_coherent.  Dividing an OptimizeResult would raise. *)
Definition optimize_coherent (c : chan CC) (n rank : nat) (a : options) (regularized : bool) : chan CC * res output :=
  match update_channel_tensored c n with
  | (c1, Err e) => (c1, Err e)
  | (c1, Ok _) =>
      let '(c2, r) := optimize_procedure c1 n rank "coherent"%string a in
      (c2, do o <- r;
           if regularized then
             match o_val o with
             | Float v => if Nat.eqb n 0 then Err Unmodelled
                          else Ok (Output (o_rho o) (Float (v / INR n)%R) (o_method o) (o_lipschitz o) (o_success o) (o_objective o))
             | Result _ => Err TypeError
             end
           else Ok o)
  end.
(** channel.py L659-721: optimize_fidelity *)
Definition optimize_fidelity (c : chan CC) (n : nat) (a : options) : chan CC * res output :=
  match update_channel_tensored c n with
  | (c1, Err e) => (c1, Err e)
  | (c1, Ok _) => optimize_procedure c1 n 1 "fidelity"%string a
  end.
End Procedure.

(** _optimize.py L38-42: the callback (it also prints) *)
Definition positive_coherent_info_callback (func_val : R) : bool := Rltb func_val (- / 100000000)%R.
