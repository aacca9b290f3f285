(** Model of which numpy arrays a channel and a code share with their caller:
    PyQCodes/chan/_kraus.py L391-396, L423-424, L699-702, L750-752, L238-281 and PyQCodes/codes.py L171-198.
    An array is a number (its address); what it holds can be changed in place.  KrausModel.v, CodesModel.v and SetterModel.v
    say what the methods compute; here only the addresses are added. *)
From Verif Require Import Py ZMat CodesModel Scalar PauliModel KrausModel SetterModel.
Open Scope nat_scope.

(** [cells] a: what the array at address a holds; addresses from [fresh] on are unused *)
Record heap (A : Type) := Heap { cells : nat -> A; fresh : nat }.
Arguments Heap {A}. Arguments cells {A}. Arguments fresh {A}.
(** a new array *)
Definition alloc {A} (h : heap A) (x : A) : heap A * nat :=
  (Heap (fun a => if Nat.eqb a (fresh h) then x else cells h a) (S (fresh h)), fresh h).
(** x[...] = t *)
Definition write {A} (h : heap A) (a : nat) (x : A) : heap A := Heap (fun b => if Nat.eqb b a then x else cells h b) (fresh h).

Section S.
Context {K : StarRing}.
(** A Kraus object whose fields _kraus_ops and _nth_kraus_ops are the arrays at these addresses; [base] has the other fields. *)
Record kraus_object := KrausObject { base : kraus K; ops_at : nat; nth_at : nat }.
Definition seen (h : heap (ten3 K)) (o : kraus_object) : kraus K :=
  assign_nth_kraus_ops (assign_kraus_ops (base o) (cells h (ops_at o))) (cells h (nth_at o)).
(** the argument: a list of matrices (np.array copies them) or the array at an address *)
Inductive given := GivenList (l : list (marr K)) | GivenArray (a : nat).
Definition held (h : heap (ten3 K)) (g : given) : kraus_arg K := match g with GivenList l => OpList l | GivenArray a => OpArray (cells h a) end.
(** DenseKraus keeps an array it is given (L699-702); SparseKraus makes a COO copy of it (L391-396).  Both start
    _nth_kraus_ops as a copy (L423-424, L750-752). *)
Definition construct (h : heap (ten3 K)) (sp : bool) (g : given) (nq : nat * nat) (din dout : nat) (orthogonal : list nat) : res (heap (ten3 K) * kraus_object) :=
  do o <- kraus_init sp (held h g) nq din dout orthogonal;
  let '(h1, a) := match g, sp with GivenArray a, false => (h, a) | _, _ => alloc h (kraus_ops o) end in
  let '(h2, b) := alloc h1 (nth_ops o) in
  Ok (h2, KrausObject o a b).
(** L238-281: for n = 1 after a larger n, nth_kraus_ops becomes the same array as kraus_ops; for the current n it stays; otherwise
    it is a new array.  The object is changed also when the last line raises. *)
Definition update (h : heap (ten3 K)) (o : kraus_object) (n : nat) : heap (ten3 K) * kraus_object :=
  let old := seen h o in let new := fst (update_kraus_operators old n) in
  if Nat.eqb n (current_n old) then (h, KrausObject new (ops_at o) (nth_at o))
  else if Nat.ltb n (current_n old) && Nat.eqb n 1 then (h, KrausObject new (ops_at o) (ops_at o))
  else let '(h1, b) := alloc h (nth_ops new) in (h1, KrausObject new (ops_at o) b).
End S.
Arguments kraus_object : clear implicits. Arguments given : clear implicits.

(** A StabilizerCode whose fields _stab_bin_rep, _logical_x and _logical_z are the arrays at these addresses. *)
Record code_object := CodeObject { code_base : code; stab_at : nat; x_at : nat; z_at : nat }.
Definition seen_code (h : heap zmat) (o : code_object) : code :=
  let c := code_base o in Code (cn c) (ck c) (cells h (stab_at o)) (pauli_stab c) (normal_form c) (crank c) (cells h (x_at o)) (cells h (z_at o)).
(** codes.py L171-198: np.array copies the generators (L174); strings become a new array (L172); computed logical operators are new
    arrays (L188), given ones are kept (L198) *)
Definition construct_code (h : heap zmat) (g : gens) (n k : nat) (logical_ops : option (nat * nat)) : res (heap zmat * code_object) :=
  do c <- init g n k (match logical_ops with Some (x, z) => Some (cells h x, cells h z) | None => None end);
  let '(h1, s) := alloc h (stab c) in
  match logical_ops with
  | Some (x, z) => Ok (h1, CodeObject c s x z)
  | None => let '(h2, x) := alloc h1 (logical_x c) in let '(h3, z) := alloc h2 (logical_z c) in Ok (h3, CodeObject c s x z)
  end.
