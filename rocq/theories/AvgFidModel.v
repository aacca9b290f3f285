(** Model of PyQCodes/avgfid/avg_fidelity.py.  The semidefinite programme handed to PICOS
    is modelled as data (its size, the arguments of the partial trace, the matrix of the
    objective, the options), PICOS and CVXOPT as an argument that solves it.  The flag
    sparse is False, its default; the sparse branch is in SparseBranchModel.v.  What the
    functions print is not modelled. *)
From Verif Require Import Py Scalar CodesModel PauliModel KrausModel ChoiModel ChannelModel FindModel.
From Coq Require Import Reals.
From Coq Require String.
Import String.StringSyntax.
Notation string := String.string.
Delimit Scope string_scope with string.
Open Scope nat_scope.
Open Scope K_scope.

(** np.ravel(A, order="F"): the entry (i, j) of A is at position j * rows + i *)
Definition ravel_F {K : StarRing} (A : marr K) : nat -> K := fun p => me A (p mod mr A)%nat (p / mr A)%nat.
(** np.outer(v, w): the second argument is not conjugated *)
Definition outer {K : StarRing} (d e : nat) (v w : nat -> K) : marr K := MA d e (fun i j => v i * w j).
(** sum of a list of arrays; 0 + array is the array, arrays of different shapes raise or
    broadcast and are not modelled, the empty sum is the number 0, on which coo_matrix raises *)
Definition np_sum (l : list (marr CC)) : res (marr CC) :=
  match l with
  | [] => Err Unmodelled
  | a :: r => if forallb (fun b => Nat.eqb (mr b) (mr a) && Nat.eqb (mc b) (mc a))%bool r
              then Ok (MA (mr a) (mc a) (fun i j => fold_right (fun A s => me A i j + s) 0 l)) else Err Unmodelled
  end.
(** L209-213: C_e of the dense branch *)
Definition objective_matrix (kraus : list (marr CC)) (input_dim : nat) : res (marr CC) :=
  do total <- np_sum (map (fun k => let v := ravel_F (np_dagger k) in outer (mr k * mc k) (mr k * mc k) v v) kraus);
  Ok (MA (mr total) (mc total) (fun i j => me total i j * ((/ INR (input_dim ^ 2)), 0)%R)).

(** A dictionary of options of the solver *)
Definition dict := list (string * R).
Fixpoint lookup (k : string) (d : dict) : option R :=
  match d with [] => None | (x, v) :: r => if String.eqb x k then Some v else lookup k r end.
(** P.set_option *)
Definition set_option (k : string) (v : R) (d : dict) : dict := (k, v) :: d.
(** L219-233.  maxit is an integer in the code *)
Definition solver_options (options : option dict) : dict :=
  let given := match options with None => [] | Some d => d end in
  let take (k : string) (d : dict) := match lookup k given with Some v => set_option k v d | None => d end in
  take "reltol"%string (take "abstol"%string (take "feastol"%string (take "maxit"%string
    (set_option "reltol"%string (/ 1000) (set_option "abstol"%string (/ 1000) (set_option "feastol"%string (/ 1000)
      (set_option "maxit"%string 50 (set_option "tol"%string (/ 10000) []))))))))%R.

(** The programme: maximise (X | pr_objective) over hermitian X of size pr_size with
    X >> 0 and partial_trace(X, pr_traced, pr_dims) == 'I'. *)
Record programme := Programme {
  pr_size : nat; pr_traced : nat; pr_dims : list (nat * nat); pr_objective : marr CC; pr_options : dict }.
(** solution["status"], solution["time"], X, P.obj_value() *)
Record decoder := Decoder { d_status : string; d_time : R; optimal_recov : marr CC; optimal_val : R }.

(** L110-235: setting up the programme.  An objective of another size than X raises in
    PICOS (a TypeError or an Exception, depending on its version) and is not modelled;
    the two branches on the argument encoder are the same. *)
Definition decoder_programme (kraus : list (marr CC)) (nq : nat * nat) (din dout : nat) (options : option dict) : res programme :=
  let input_dim := (din ^ fst nq)%nat in
  let size := (input_dim * dout ^ snd nq)%nat in
  let '(traced, dims) := constraint_partial_trace nq din dout in
  match kraus with
  | [] => Err IndexError
  | _ => do C_e <- objective_matrix kraus input_dim;
         if (Nat.eqb (mr C_e) size && Nat.eqb (mc C_e) size)%bool
         then Ok (Programme size traced dims C_e (solver_options options)) else Err Unmodelled
  end.

Section AvgFid.
Variables (eigh : marr CC -> (nat -> R) * marr CC) (solve : programme -> res decoder).

(** L110-242 *)
Definition optimize_average_entang_fid (kraus : list (marr CC)) (nq : nat * nat) (din dout : nat) (options : option dict) : res decoder :=
  do P <- decoder_programme kraus nq din dout options; solve P.

(** L84-96: the operators (error) . encoder *)
Definition encoded_operators (stabilizer : gens) (n k : nat) (kraus_chan : kraus_arg CC) : res (list (marr CC)) :=
  do c <- init stabilizer n k None;
  do errors <- error_channel kraus_chan n k;
  do encoder <- encode_krauss_operators eigh c;
  mapM (fun x => np_dot x encoder) (slices (nth_ops errors)).
(** L44-102 *)
Definition optimize_decoder_stabilizers (stabilizer : gens) (n k : nat) (kraus_chan : kraus_arg CC) (options : option dict) : res decoder :=
  do kraus <- encoded_operators stabilizer n k kraus_chan;
  optimize_average_entang_fid kraus (k, n) 2 2 options.

(** L27-41: the name code_param is not defined *)
Definition optimize_decoder (encoder : marr CC) (kraus_chan : kraus_arg CC) (nq : nat * nat) (din dout : nat) (options : option dict) : res decoder :=
  do _ <- chan_init kraus_chan nq din dout [] false;
  Err NameError.
End AvgFid.
