(** Model of PyQCodes/find_codes.py: effective_channel_with_stabilizers (the other
    functions of that file have the body [pass]).  The flag sparse is False, its default;
    with sparse=True the operators are pydata sparse arrays, which is not modelled.
    numpy.linalg.eigh, eigvalsh, scipy.linalg.sqrtm, scipy's minimisers and the random
    draws are arguments. *)
From Verif Require Import Py Scalar CodesModel PauliModel KrausModel ChoiModel ChannelModel ParamModel OptimModel.
From Coq Require Import Reals.
From Coq Require String.
Import String.StringSyntax.
Delimit Scope string_scope with string.
Open Scope nat_scope.

(** n // k *)
Definition floor_div (n k : nat) : res nat := if Nat.eqb k 0 then Err ZeroDivisionError else Ok (n / k).

(** find_codes.py L156-157, avg_fidelity.py L86-87: the channel on single qubits, set to
    n // k uses *)
Definition error_channel (errors : kraus_arg CC) (n k : nat) : res (kraus CC) :=
  do c <- chan_init errors (1, 1) 2 2 [] false;
  do m <- floor_div n k;
  match c with
  | KrausType o => let '(o', r) := update_kraus_operators o m in do _ <- r; Ok o'
  | ChoiType _ _ => Err AttributeError
  end.

Section Find.
Variables (eigh : marr CC -> (nat -> R) * marr CC) (eigvalsh : marr CC -> list R) (sqrtm : marr CC -> marr CC) (s : scipy) (g : rng).

(** L152-168: the Kraus operators of the total channel *)
Definition effective_operators (stabilizer : gens) (n k : nat) (pauli_errors : kraus_arg CC) : res (list (marr CC)) :=
  do c <- init stabilizer n k None;
  do errors <- error_channel pauli_errors n k;
  do encoder <- encode_krauss_operators eigh c;
  do kraus <- kraus_operators_correcting_errors c (slices (nth_ops errors));
  mapM (fun x => np_dot x encoder) kraus.
(** L174-181: the options of the optimisation; the argument options of the function is
    not used *)
Definition effective_options : options := Options "slsqp"%string (PName "overparam"%string) (PyInt 25) (PyInt 3) 250 [] false.
(** L90-181.  An optimize that is not a string raises TypeError like an unknown one. *)
Definition effective_channel_with_stabilizers (stabilizer : gens) (n k : nat) (pauli_errors : kraus_arg CC) (optimize : string) : res output :=
  if negb (String.eqb optimize "coherent"%string || String.eqb optimize "fidelity"%string) then Err TypeError else
  match arg_matrices pauli_errors with
  | [] => Err IndexError
  | e :: _ =>
      if negb (Nat.eqb (2 ^ k) (mc e)) then Err TypeError else
      do kraus <- effective_operators stabilizer n k pauli_errors;
      do total <- chan_init (OpList kraus) (k, n) 2 2 [] true;
      if String.eqb optimize "coherent"%string
      then snd (optimize_coherent eigvalsh sqrtm s g total 1 2 effective_options false)
      else snd (optimize_fidelity eigvalsh sqrtm s g total 1 effective_options)
  end.
End Find.
