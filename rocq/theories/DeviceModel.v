(** Model of PyQCodes/device_adaptor.py and of the class QDeviceChannel of
    PyQCodes/find_codes.py.  The ProjectQ engine is a simulator: a list of allocated
    qubits and an amplitude for each string of their bits.  Gates are exact; commands act
    when they are sent, so [eng.flush()] has no effect.  The values numpy.random draws and
    the outcomes of measurements are lists given in advance. *)
From Verif Require Import Py Scalar PauliModel CircuitModel CircuitSpec ChannelModel OptimModel.
From Coq Require Import Reals.
From Coq Require String.
Import String.StringSyntax.
Delimit Scope string_scope with string.
Open Scope nat_scope.

(** ** The engine *)
(** 1/sqrt(2), i and e^(i a) *)
Definition hh : CC := ((/ sqrt 2)%R, 0%R).
Definition ii : CC := (0%R, 1%R).
Definition cexp (a : R) : CC := (cos a, sin a).

(** Commands: R(angle) = diag(1, e^(i angle)) on a target under controls, and H. *)
Inductive command := PhaseGate (controls : list nat) (angle : R) (target : nat) | Hadamard (target : nat).

(** w_qubits: the qubits allocated; bit j of the wave function belongs to the j-th.
    w_next: the name of the next qubit.  w_prob: the probability of the outcomes of the
    measurements made so far. *)
Record world := World {
  w_qubits : list nat; w_next : nat; w_wave : @state CC; w_prob : R; w_outcomes : list bool; w_draws : list nat }.
Definition set_wave (w : world) (psi : @state CC) : world := World (w_qubits w) (w_next w) psi (w_prob w) (w_outcomes w) (w_draws w).
Definition set_draws (w : world) (l : list nat) : world := World (w_qubits w) (w_next w) (w_wave w) (w_prob w) (w_outcomes w) l.

Fixpoint position (q : nat) (l : list nat) : res nat :=
  match l with
  | [] => Err RuntimeError
  | x :: r => if Nat.eqb x q then Ok 0 else do p <- position q r; Ok (S p)
  end.
Definition apply_phase (controls : list nat) (a : R) (t : nat) (psi : @state CC) : @state CC :=
  fun y => if (forallb (getb y) controls && getb y t)%bool then smul (cexp a) (psi y) else psi y.
(** the simulator raises RuntimeError for a qubit that is not allocated *)
Definition execute (w : world) (c : command) : res world :=
  match c with
  | PhaseGate controls a t =>
      do cs <- mapM (fun q => position q (w_qubits w)) controls; do p <- position t (w_qubits w);
      Ok (set_wave w (apply_phase cs a p (w_wave w)))
  | Hadamard t => do p <- position t (w_qubits w); Ok (set_wave w (apply_gate hh ii [] GH p (w_wave w)))
  end.
Definition execute_all (l : list command) (w : world) : res world := foldM execute l w.

(** Measure | q: the outcome is the next one given, unless its probability is zero; the
    state is projected and normalised *)
Definition norm2 (n : nat) (psi : @state CC) : R := fst (inner n psi psi).
Definition outcome (n p : nat) (psi : @state CC) (b : bool) : bool :=
  if Req_EM_T (norm2 n (project p b psi)) 0 then negb b else b.
Definition measure (w : world) (q : nat) : res (world * bool) :=
  do p <- position q (w_qubits w);
  let b := outcome (length (w_qubits w)) p (w_wave w) (hd false (w_outcomes w)) in
  let psi := project p b (w_wave w) in
  let pr := norm2 (length (w_qubits w)) psi in
  Ok (World (w_qubits w) (w_next w) (sscale (((/ sqrt pr)%R, 0%R) : CC) psi) (w_prob w * pr)%R (tl (w_outcomes w)) (w_draws w), b).
(** All(Measure) | register, then [int(x) for x in register] *)
Fixpoint measure_all (w : world) (register : list nat) : res (world * list bool) :=
  match register with
  | [] => Ok (w, [])
  | q :: r => do (w1, b) <- measure w q; do (w2, l) <- measure_all w1 r; Ok (w2, b :: l)
  end.

(** eng.allocate_qureg(n) *)
Definition allocate (w : world) : world :=
  World (w_qubits w ++ [w_next w]) (S (w_next w)) (add_qubit (length (w_qubits w)) (w_wave w)) (w_prob w) (w_outcomes w) (w_draws w).
Fixpoint allocate_qureg (n : nat) (w : world) : world * list nat :=
  match n with
  | O => (w, [])
  | S m => let '(w', l) := allocate_qureg m (allocate w) in (w', w_next w :: l)
  end.

(** eng.flush(deallocate_qubits=True) deallocates all qubits.  The simulator raises
    RuntimeError for a qubit in superposition (here before any qubit is deallocated). *)
Fixpoint bit_lists (n : nat) : list (list bool) :=
  match n with O => [[]] | S m => map (cons false) (bit_lists m) ++ map (cons true) (bit_lists m) end.
Definition czero (z : CC) : bool := if Req_EM_T (Cmod z) 0 then true else false.
Definition is_classical (n p : nat) (psi : @state CC) : bool :=
  (forallb (fun y => getb y p || czero (psi y)) (bit_lists n) || forallb (fun y => negb (getb y p) || czero (psi y)) (bit_lists n))%bool.
Definition deallocate_all (w : world) : res world :=
  let n := length (w_qubits w) in
  do _ <- guard (forallb (fun p => is_classical n p (w_wave w)) (seq 0 n)) RuntimeError;
  Ok (World [] (w_next w) (fun _ => isum n (w_wave w)) (w_prob w) (w_outcomes w) (w_draws w)).
(** eng.backend.set_wavefunction([1, 0, ..., 0], register): the register must have all
    the qubits (in some order) *)
Definition set_wavefunction_zero (w : world) (register : list nat) : res world :=
  do _ <- guard (Nat.eqb (length register) (length (w_qubits w)) && forallb (fun q => existsb (Nat.eqb q) (w_qubits w)) register) RuntimeError;
  Ok (set_wave w (zero_ket (length register))).

(** ** ProjectQDeviceAdaptor *)
(** device_adaptor.py L83-101 *)
Record adaptor := Adaptor { a_register : list nat; a_numb : nat; a_real : bool }.
Definition adaptor_init (register : list nat) (real_device : bool) : adaptor := Adaptor register (length register) real_device.

(** L118-136.  On an exception the world is the one before the call. *)
Definition set_register_to_zero (a : adaptor) (cheat : bool) (w : world) : res (adaptor * world) :=
  if a_real a then Ok (a, w)
  else if cheat then do w' <- set_wavefunction_zero w (a_register a); Ok (a, w')
  else do w1 <- deallocate_all w;
       let '(w2, register) := allocate_qureg (a_numb a) w1 in
       Ok (Adaptor register (a_numb a) (a_real a), w2).

(** np.random.choice(l): the next draw, reduced modulo the length *)
Definition choice (l : list R) (draws : list nat) : R * list nat := (nth (hd 0 draws mod length l) l 0%R, tl draws).
(** np.random.choice(l, size=m) *)
Fixpoint choices (l : list R) (m : nat) (draws : list nat) : list R * list nat :=
  match m with
  | O => ([], draws)
  | S m => let '(x, d1) := choice l draws in let '(xs, d2) := choices l m d1 in (x :: xs, d2)
  end.
(** L161 *)
Definition phases3 : list R := [0; 2 * PI / 3; 4 * PI / 3]%R.
Definition phases2 : list R := [0; PI]%R.
(** L162-163: 2 * int(ceil(log2(1 / epsilon) / numb_qubits)) + 1.  With no qubits numpy
    divides by zero; that case is not modelled. *)
Definition ceiling (x : R) : Z := (- Int_part (- x))%Z.
Definition numb_times (numb_qubits : nat) (epsilon : R) : res Z :=
  if Nat.eqb numb_qubits 0 then Err Unmodelled
  else if Req_EM_T epsilon 0 then Err ZeroDivisionError
  else if Rltb epsilon 0 then Err ValueError
  else Ok (2 * ceiling (log2 (1 / epsilon) / INR numb_qubits) + 1)%Z.

(** What one iteration accumulates: the commands sent and the phases used. *)
(** L172-176: body of the loop over single qubits *)
Definition single_step (register : list nat) (random_phases : list R) (st : list command * list R) (i : nat) : res (list command * list R) :=
  let '(cmds, used) := st in
  do p <- py_get random_phases (Z.of_nat i);
  do q <- py_get register (Z.of_nat i);
  Ok (cmds ++ [PhaseGate [] p q], used ++ [p]).
(** L180-186: body of the inner loop over pairs *)
Definition pair_step (register : list nat) (i ctl : nat) (st : list command * list R * list nat) (j : nat) : res (list command * list R * list nat) :=
  let '(cmds, used, draws) := st in
  if Nat.eqb i j then Ok st
  else let '(p, draws) := choice phases2 draws in
       do q <- py_get register (Z.of_nat j);
       Ok (cmds ++ [PhaseGate [ctl] p q], used ++ [p], draws).
(** L178-186: body of the outer loop over pairs *)
Definition pairs_step (register : list nat) (n : nat) (st : list command * list R * list nat) (i : nat) : res (list command * list R * list nat) :=
  do ctl <- py_get register (Z.of_nat i);
  foldM (pair_step register i ctl) (seq 0 n) st.
(** L168-191: one iteration *)
Definition design_round (register : list nat) (n : nat) (draws : list nat) : res (list command * list R * list nat) :=
  let '(random_phases, draws) := choices phases3 n draws in
  do (cmds, used) <- foldM (single_step register random_phases) (seq 0 n) ([], []);
  do (cmds, used, draws) <- foldM (pairs_step register n) (seq 0 n) (cmds, used, draws);
  Ok (cmds ++ map Hadamard register, used, draws).
(** L167-191: the iterations *)
Fixpoint design_rounds (register : list nat) (n times : nat) (w : world) : res (world * list (list R)) :=
  match times with
  | O => Ok (w, [])
  | S t =>
      do (cmds, used, draws) <- design_round register n (w_draws w);
      do w1 <- execute_all cmds (set_draws w draws);
      do (w2, rest) <- design_rounds register n t w1;
      Ok (w2, used :: rest)
  end.
(** L138-195.  On an exception the world is the one before the call. *)
Definition approximate_unitary_two_design (a : adaptor) (epsilon : R) (w : world) : res (world * list (list R)) :=
  do m <- numb_times (a_numb a) epsilon;
  do (w', used) <- design_rounds (a_register a) (a_numb a) (Z.to_nat m) w;
  Ok (w', rev used).

(** L211-215: body of the inner loop of the inverse; the state is (commands, counter) *)
Definition inv_pair_step (register : list nat) (phases : list R) (i ctl : nat) (st : list command * Z) (j : nat) : res (list command * Z) :=
  let '(cmds, counter) := st in
  if Nat.eqb i j then Ok st
  else do p <- py_get phases (- counter); do q <- py_get register (Z.of_nat j);
       Ok (cmds ++ [PhaseGate [ctl] p q], (counter + 1)%Z).
Definition inv_pairs_step (register : list nat) (phases : list R) (n : nat) (st : list command * Z) (i : nat) : res (list command * Z) :=
  do ctl <- py_get register (Z.of_nat i);
  foldM (inv_pair_step register phases i ctl) (rev (seq 0 n)) st.
(** L217-220 *)
Definition inv_single_step (register : list nat) (phases : list R) (st : list command * Z) (i : nat) : res (list command * Z) :=
  let '(cmds, counter) := st in
  do p <- py_get phases (- counter); do q <- py_get register (Z.of_nat i);
  Ok (cmds ++ [PhaseGate [] (- p)%R q], (counter + 1)%Z).
(** L206-222: one iteration *)
Definition inverse_round (register : list nat) (n : nat) (phases : list R) : res (list command) :=
  do st <- foldM (inv_pairs_step register phases n) (rev (seq 0 n)) (map Hadamard register, 1%Z);
  do (cmds, _) <- foldM (inv_single_step register phases) (rev (seq 0 n)) st;
  Ok cmds.
(** L197-223 *)
Definition inverse_of_unitary_two_design (a : adaptor) (random_phases : list (list R)) (w : world) : res world :=
  foldM (fun w phases => do cmds <- inverse_round (a_register a) (a_numb a) phases; execute_all cmds w) random_phases w.

(** A Python function that drives the engine, by the number of its positional
    arguments: (eng, register) or (eng, register, parameters). *)
Inductive callable :=
| Two (f : list nat -> world -> res world)
| Three (f : list nat -> list R -> world -> res world).
(** f(eng, register) *)
Definition call2 (f : callable) (register : list nat) (w : world) : res world :=
  match f with Two g => g register w | Three _ => Err TypeError end.
(** f(eng, register, parameters) *)
Definition call3 (f : callable) (register : list nat) (params : list R) (w : world) : res world :=
  match f with Two _ => Err TypeError | Three g => g register params w end.

(** L251-270: one trial; true when all the bits measured are zero.  np.int is numpy's
    alias of int (removed from numpy 1.24). *)
Definition trial (a : adaptor) (channel : callable) (epsilon : R) (cheat : bool) (w : world) : res (adaptor * world * bool) :=
  do (a1, w1) <- set_register_to_zero a cheat w;
  do (w2, random_phase) <- approximate_unitary_two_design a1 epsilon w1;
  do w3 <- call2 channel (a_register a1) w2;
  do w4 <- inverse_of_unitary_two_design a1 random_phase w3;
  do (w5, result) <- measure_all w4 (a_register a1);
  Ok (a1, w5, forallb negb result).
Fixpoint trials (m : nat) (a : adaptor) (channel : callable) (epsilon : R) (cheat : bool) (w : world) (ntimes_zero : nat) : res (adaptor * world * nat) :=
  match m with
  | O => Ok (a, w, ntimes_zero)
  | S m => do (a1, w1, z) <- trial a channel epsilon cheat w; trials m a1 channel epsilon cheat w1 (if z then S ntimes_zero else ntimes_zero)
  end.
(** L225-272 *)
Definition estimate_average_fidelity (a : adaptor) (channel : callable) (ntimes : Z) (epsilon : R) (cheat : bool) (w : world) : res (adaptor * world * R) :=
  do (a1, w1, z) <- trials (Z.to_nat ntimes) a channel epsilon cheat w 0;
  if (ntimes =? 0)%Z then Err ZeroDivisionError
  else Ok (a1, w1, (INR z / IZR ntimes)%R).

(** ** QDeviceChannel *)
(** find_codes.py L184-228 *)
Record device_chan := DeviceChan { dc_device : adaptor; dc_channel : callable }.
Definition device_chan_init (register : list nat) (circuit_chan : callable) (real_device : bool) : device_chan :=
  DeviceChan (adaptor_init register real_device) circuit_chan.
(** L230-249 *)
Definition estimate_average_fidelity_channel (d : device_chan) (ntimes : Z) (epsilon : R) (cheat : bool) (w : world) : res (adaptor * world * R) :=
  estimate_average_fidelity (dc_device d) (dc_channel d) ntimes epsilon cheat w.
(** L251-278 *)
Definition estimate_average_fidelity_error_code (d : device_chan) (encoder decoder : callable) (ntimes : Z) (epsilon : R) (w : world) : res (adaptor * world * R) :=
  let total_channel := Two (fun register w =>
    do w1 <- call2 encoder register w; do w2 <- call2 (dc_channel d) register w1; call2 decoder register w2) in
  estimate_average_fidelity (dc_device d) total_channel ntimes epsilon false w.

(** The objective of L325-326 as scipy sees it: it changes the device and the engine.  On
    an exception these stay as they were before the call. *)
Definition dev_objective := list R -> adaptor * world -> res (adaptor * world * R).
(** scipy's differential_evolution(f, bounds, maxiter) *)
Definition dev_diffev := dev_objective -> list (R * R) -> Z -> adaptor * world -> res (adaptor * world * OptimModel.run).
Record dev_output := DevOutput { do_success : bool; do_encoder : list R; do_decoder : list R; do_val : R }.
(** L280-344 *)
Definition optimize_encoder_decoder_average_fidelity (diffev : dev_diffev) (d : device_chan) (encoder decoder : callable) (ntimes : Z) (epsilon : R)
           (numb_parameters : nat * nat) (bounds : list (R * R)) (optimizer : String.string) (maxiter : Z) (w : world) : res (adaptor * world * dev_output) :=
  do _ <- assert_ (Nat.eqb (length bounds) (fst numb_parameters + snd numb_parameters));
  let total_channel := Three (fun register parameters w =>
    do w1 <- call3 encoder register (firstn (fst numb_parameters) parameters) w;
    do w2 <- call2 (dc_channel d) register w1;
    call3 decoder register (skipn (fst numb_parameters) parameters) w2) in
  let objective_func : dev_objective := fun _ s => estimate_average_fidelity (fst s) total_channel ntimes epsilon false (snd s) in
  if String.eqb optimizer "diffev"%string
  then do (a, w', r) <- diffev objective_func bounds maxiter (dc_device d, w);
       Ok (a, w', DevOutput (r_success r) (firstn (fst numb_parameters) (r_x r)) (skipn (fst numb_parameters) (r_x r)) (r_fun r))
  else Err ValueError.
