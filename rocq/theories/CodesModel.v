(** Model of PyQCodes/codes.py, the binary (GF(2)) part of StabilizerCode. *)
From Verif Require Import Py ZMat.
From Coq Require Export Ascii.
From Coq Require String.
Export String.StringSyntax.
Open Scope char_scope.
Open Scope Z_scope.

(** Python strings as lists of characters. *)
Definition pystr := list ascii.
Definition str (s : String.string) : pystr := String.list_ascii_of_string s.
Arguments str s%string_scope.

(** codes.py L1106-1144, loop body of binary_rep_to_pauli_str. *)
Definition pauli_char (x z : Z) : res ascii :=
  if ((x =? 1) && (z =? 1))%bool then Ok "Y"
  else if ((x =? 0) && (z =? 0))%bool then Ok "I"
  else if (x =? 1) then Ok "X"
  else if (z =? 1) then Ok "Z"
  else Err RuntimeError.

(** codes.py L1106-1144: StabilizerCode.binary_rep_to_pauli_str.
    [n = len // 2]; an odd last entry is ignored as in the code. *)
Definition binary_rep_to_pauli_str (row : list Z) : res pystr :=
  let n := Nat.div (length row) 2 in
  mapM (fun i => pauli_char (nth i row 0) (nth (n + i) row 0)) (seq 0 n).

(** codes.py L1207-1218, body of the inner loop: the bits written for one letter. *)
Definition char_bits (c : ascii) : res (Z * Z) :=
  if Ascii.eqb c "X" then Ok (1, 0)
  else if Ascii.eqb c "Z" then Ok (0, 1)
  else if Ascii.eqb c "Y" then Ok (1, 1)
  else if Ascii.eqb c "I" then Ok (0, 0)
  else Err ValueError.

(** codes.py L1206-1218: one row.  [p[j]] beyond the end is an IndexError;
    characters past position [n] are never looked at. *)
Definition pauli_row (n : nat) (p : pystr) : res (list Z) :=
  do bits <- mapM (fun j => match nth_error p j with
                            | Some c => char_bits c
                            | None => Err IndexError
                            end) (seq 0 n);
  Ok (map fst bits ++ map snd bits)%list.

(** codes.py L1187-1219: StabilizerCode.pauli_str_to_binary_representation.
    The float array returned by the code only holds 0. and 1. *)
Definition pauli_str_to_binary_representation (paulis : list pystr) : res zmat :=
  match paulis with
  | [] => Err IndexError
  | p0 :: _ =>
      let n := length p0 in
      do rows <- mapM (pauli_row n) paulis;
      Ok (ZM (length paulis) (2 * n) rows)
  end.

Fixpoint dotl (a b : list Z) : Z :=
  match a, b with x :: a', y :: b' => x * y + dotl a' b' | _, _ => 0 end.

(** codes.py L912-931: StabilizerCode.inner_prod, for rows of equal even length
    (numpy's dot raises ValueError on other lengths; not needed here, all callers
    pass rows of one array). *)
Definition inner_prod (p q : list Z) : Z :=
  let n := Nat.div (length p) 2 in
  (dotl (firstn n p) (skipn n q) + dotl (skipn n p) (firstn n q)) mod 2.

(** codes.py L240-261: StabilizerCode._is_stabilizer_code.  The double loop only
    sets a flag to False, so it is a conjunction over all pairs. *)
Definition is_stabilizer_code (M : zmat) : bool :=
  forallb (fun i => forallb (fun j =>
    if negb (Nat.eqb i j) then inner_prod (zrow M i) (zrow M j) =? 0 else true)
    (seq 0 (zr M))) (seq 0 (zr M)).

(** np.linalg.matrix_rank on an integer array: exact rank over the rationals by
    fraction-free elimination, column by column.  The code's SVD with its default
    tolerance is taken to return this (DESIGN.md); [rank_spec] in Rank.v shows the
    function does compute the rank. *)
Fixpoint split_pivot (rows : list (list Z)) : option (list Z * list (list Z)) :=
  match rows with
  | [] => None
  | p :: r => if hd 0 p =? 0
              then match split_pivot r with
                   | Some (q, others) => Some (q, p :: others)
                   | None => None
                   end
              else Some (p, r)
  end.
Definition reduce (p q : list Z) : list Z :=
  map (fun xy => hd 0 p * snd xy - hd 0 q * fst xy) (combine (tl p) (tl q)).
Fixpoint rank_rows (c : nat) (rows : list (list Z)) : nat :=
  match c with
  | O => O
  | S c' => match split_pivot rows with
            | None => rank_rows c' (map (@tl Z) rows)
            | Some (p, others) => S (rank_rows c' (map (reduce p) others))
            end
  end.
Definition matrix_rank (M : zmat) : nat := rank_rows (zc M) (zd M).

(** matrix_rank of an array without rows or columns raises: the maximum over no
    singular values is a ValueError (LinAlgError in very old numpy versions). *)
Definition has_entries (M : zmat) : bool := (Nat.ltb 0 (zr M) && Nat.ltb 0 (zc M))%bool.

(** codes.py L738-751: the swap done inside the search loop: columns [i_col],[j]
    in both halves, then rows [j],[j_row]. *)
Definition swap_both (n : nat) (M : zmat) (a b : nat) : zmat :=
  swap_cols (swap_cols M a b) (a + n) (b + n).

(** codes.py L733-751: search loops [for i_col .. for j_row ..] with the flag
    [did_not_swap]; they are not broken out of, only disabled by the flag. *)
Definition search_swap (n s j : nat) (M : zmat) : zmat :=
  fst (fold_left
    (fun (st : zmat * bool) (cr : nat * nat) =>
       let '(M, did_not_swap) := st in
       let '(i_col, j_row) := cr in
       if ((get M j_row i_col =? 1) && did_not_swap)%bool
       then (swap_rows (swap_both n M i_col j) j j_row, false)
       else (M, did_not_swap))
    (list_prod (seq j (n - j)) (seq j (s - j))) (M, true)).

(** codes.py L760-762: clear column [j] in all other rows of the range. *)
Definition clear_col (rows : list nat) (p j : nat) (M : zmat) : zmat :=
  fold_left (fun M i => if (negb (Nat.eqb i p) && negb (get M i j =? 0))%bool
                        then add_row M p i else M) rows M.

(** codes.py L729-762: one iteration of the outer loop (the warning has no
    effect on the data). *)
Definition first_step (n s : nat) (M : zmat) (j : nat) : zmat :=
  let M1 := if get M j j =? 0 then search_swap n s j M else M in
  clear_col (seq 0 s) j j M1.

(** codes.py L700-764: _gaussian_elimination_first_block. *)
Definition gauss_first (n : nat) (M : zmat) : zmat * nat :=
  let rank := matrix_rank (slice M 0 (zr M) 0 n) in
  (fold_left (first_step n (zr M)) (seq 0 rank) M, rank).

(** codes.py L802-811: first pass of the second block; [j] stands for the code's
    [j - n].  The inner loop stops at the first row below with a one. *)
Definition second_swap_rows (n s : nat) (M : zmat) (j : nat) : zmat :=
  if get M j (n + j) =? 0
  then match find (fun i => get M i (n + j) =? 1) (seq (j + 1) (s - (j + 1))) with
       | Some i => swap_rows M i j
       | None => M
       end
  else M.

(** codes.py L814-842: second pass; [i_col] stands for the code's [i_col - n].
    [nk] is the code's [n - k], the end of the row range L840. *)
Definition second_step (n nk rank : nat) (M : zmat) (j : nat) : zmat :=
  let M1 := if get M j (n + j) =? 0
            then match find (fun c => get M j (n + c) =? 1) (seq (j + 1) (n - (j + 1))) with
                 | Some c => swap_both n M c j
                 | None => M
                 end
            else M in
  clear_col (seq rank (nk - rank)) j (n + j) M1.

(** codes.py L766-843: _gaussian_elimination_second_block.  Row indices up to
    [n - k] are read at L841, an IndexError if there are fewer rows. *)
Definition gauss_second (n k : nat) (M : zmat) (rank : nat) : res zmat :=
  if Nat.eqb rank (zr M) then Ok M
  else
    let E := slice M rank (zr M) (n + rank) (2 * n) in
    do _ <- guard (has_entries E) ValueError;
    let rank_E := matrix_rank E in
    if (Nat.ltb (zr M) (n - k) && Nat.ltb 0 rank_E)%bool then Err IndexError
    else
      let M1 := fold_left (second_swap_rows n (zr M)) (seq rank rank_E) M in
      Ok (fold_left (second_step n (n - k) rank) (seq rank rank_E) M1).

(** codes.py L845-847.  The first line is the exception of matrix_rank at L724. *)
Definition standard_normal_form (n k : nat) (M : zmat) : res (zmat * nat) :=
  do _ <- guard (has_entries (slice M 0 (zr M) 0 n)) ValueError;
  let '(M1, rank) := gauss_first n M in
  do M2 <- gauss_second n k M1 rank;
  Ok (M2, rank).

Record code := Code {
  cn : nat;                     (* n *)
  ck : nat;                     (* k *)
  stab : zmat;                  (* stab_bin_rep *)
  pauli_stab : list pystr;
  normal_form : zmat;
  crank : nat;                  (* rank *)
  logical_x : zmat;
  logical_z : zmat
}.
Definition numb_stab (c : code) : nat := zr (stab c).

(** codes.py L862-864: top-left block is the identity. *)
Definition topleft_identity (F : zmat) (rank : nat) : bool :=
  forallb (fun i => forallb (fun j => get F i j =? (if Nat.eqb i j then 1 else 0))
    (seq 0 rank)) (seq 0 rank).

(** codes.py L849-910: _matrix_blocks_standard_form and logical_operators.  The
    guard is the ValueError of np.zeros on the negative size n - k - rank L906. *)
Definition logical_operators (n k : nat) (F : zmat) (rank : nat) : res (zmat * zmat) :=
  do _ <- assert_ (topleft_identity F rank);
  let a2 := slice F 0 rank (n - k) n in
  let c1 := slice F 0 rank (n + rank) (2 * n - k) in
  let c2 := slice F 0 rank (2 * n - k) (2 * n) in
  let e := slice F rank (zr F) (2 * n - k) (2 * n) in
  do ec <- zdot (ztrans e) (ztrans c1);
  do ec2 <- zadd2 ec (ztrans c2);
  do lx <- hstack (zeros k rank) [ztrans e; eye k; ec2; zeros k (n - rank)];
  do _ <- guard (Nat.leb rank (n - k)) ValueError;
  do lz <- hstack (zeros k n) [ztrans a2; zeros k (n - k - rank); eye k];
  Ok (lx, lz).

(** The argument [stabilizer_group]: a list of strings, or of rows. *)
Inductive gens :=
| Strings (l : list pystr)
| Rows (l : list (list Z)).

(** codes.py L182-198, the part of __init__ after the conversion.  [M] has
    [2 * n] columns here. *)
Definition init_body (M : zmat) (n k : nat) (logical_ops : option (zmat * zmat)) : res code :=
  do _ <- assert_ (is_stabilizer_code M);
  do ps <- mapM binary_rep_to_pauli_str (zd M);
  do nf <- standard_normal_form n k M;
  let '(F, rank) := nf in
  do lops <- match logical_ops with
             | None => logical_operators n k F rank
             | Some (lx, lz) =>
                 do _ <- assert_ (Nat.eqb (zc lx) (2 * n));
                 do _ <- assert_ (Nat.eqb (zc lz) (2 * n));
                 Ok (lx, lz)
             end;
  Ok (Code n k M ps F rank (fst lops) (snd lops)).

(** codes.py L127-198: StabilizerCode.__init__ for natural numbers n, k.
    An empty list fails at [stabilizer_group[0]]; ragged rows become a 1-D object
    array whose [shape[1]] fails.  Strings whose length is not [n], or k > n,
    are accepted by the code without a check and then sliced with the wrong or
    negative bounds; those two cases are Unmodelled here and followed in
    StringsModel.v. *)
Definition init (g : gens) (n k : nat) (logical_ops : option (zmat * zmat)) : res code :=
  match g with
  | Strings l =>
      do M <- pauli_str_to_binary_representation l;
      if negb (is_stabilizer_code M) then Err AssertionError
      else if (Nat.eqb (zc M) (2 * n) && Nat.leb k n)%bool then init_body M n k logical_ops
      else Err Unmodelled
  | Rows [] => Err IndexError
  | Rows (r0 :: l) =>
      if forallb (fun r => Nat.eqb (length r) (length r0)) l
      then
        do _ <- assert_ (Nat.eqb (length r0) (2 * n));
        do _ <- assert_ (Nat.eqb (S (length l)) (n - k));
        init_body (ZM (S (length l)) (length r0) (r0 :: l)) n k logical_ops
      else Err IndexError
  end.

(** The names an instance of StabilizerCode has: the methods and properties of
    codes.py L81-1253 and the instance attributes set by [__init__] (L177-198).
    Looking up any other name on [self] raises AttributeError. *)
Open Scope string_scope.
Definition attributes : list pystr := map str [
  "n"; "k"; "stab_bin_rep"; "pauli_stab"; "logical_x"; "logical_z"; "rank";
  "_n"; "_k"; "_stab_bin_rep"; "_pauli_stab"; "_logical_x"; "_logical_z"; "_rank";
  "numb_stab"; "dim_code_space"; "normal_form"; "__init__"; "__iter__";
  "_is_stabilizer_code"; "encode_krauss_operators"; "kraus_operators_correcting_errors";
  "single_syndrome_measurement"; "encoding_circuit"; "apply_stabilizer_circuit";
  "decoding_circuit"; "logical_circuit"; "undetectable_errors";
  "_gaussian_elimination_first_block"; "_gaussian_elimination_second_block";
  "_standard_normal_form"; "_matrix_blocks_standard_form"; "logical_operators";
  "inner_prod"; "generator_set_pauli_elements"; "normalizer"; "concatenate_codes";
  "binary_rep_to_pauli_str"; "binary_rep_to_pauli_mat";
  "pauli_str_to_binary_representation"; "index_to_qubit_pauli"].
Close Scope string_scope.
Definition getattr {A} (attrs : list pystr) (name : pystr) (val : A) : res A :=
  if in_dec (list_eq_dec ascii_dec) name attrs then Ok val else Err AttributeError.

(** itertools.product([0, 1], repeat=m), in the order Python yields it. *)
Fixpoint bit_rows (m : nat) : list (list Z) :=
  match m with
  | O => [[]]
  | S m' => map (cons 0) (bit_rows m') ++ map (cons 1) (bit_rows m')
  end%list.

(** codes.py L964-968: the inner loop, with its break. *)
Fixpoint commutes_with_all (attrs : list pystr) (rows : list (list Z)) (p : list Z) : res bool :=
  match rows with
  | [] => Ok true
  | s :: rows' =>
      do f <- getattr attrs (str "_commute") (fun a b => inner_prod a b =? 0);
      if negb (f s p) then Ok false else commutes_with_all attrs rows' p
  end.
(** codes.py L945-973: normalizer, for a class with the names [attrs].  The value
    of a method [_commute], which does not exist, is taken to be the test the
    name and its use suggest (inner product 0). *)
Definition normalizer_with (attrs : list pystr) (c : code) : res (list (list Z)) :=
  foldM (fun acc p => do b <- commutes_with_all attrs (zd (stab c)) p;
                      Ok (if b : bool then acc ++ [p] else acc)%list) (bit_rows (2 * cn c)) [].
Definition normalizer (c : code) : res (list (list Z)) := normalizer_with attributes c.
(** codes.py L687-698: the method called on each row does not exist either. *)
Definition undetectable_errors_with (attrs : list pystr) (c : code) : res (list pystr) :=
  do l <- normalizer_with attrs c;
  mapM (fun x => do f <- getattr attrs (str "_convert_binary_representation_to_pauli") binary_rep_to_pauli_str; f x) l.
Definition undetectable_errors (c : code) : res (list pystr) := undetectable_errors_with attributes c.

(** ** Concatenation, codes.py L975-1104 *)

Definition zl (n : nat) : list Z := repeat 0 n.

(** L1019-1030 (and L1060-1071): generator [j] of stab2 in block [i]. *)
Definition block_gen (numb_blocks m i : nat) (g : list Z) : list Z :=
  (zl (i * m) ++ firstn m g ++ zl ((numb_blocks - i - 1) * m) ++
   zl (i * m) ++ skipn m g ++ zl ((numb_blocks - i - 1) * m))%list.
Definition block_gens (numb_blocks m : nat) (c2 : code) : list (list Z) :=
  flat_map (fun i => map (block_gen numb_blocks m i) (zd (stab c2))) (seq 0 numb_blocks).

(** L1039-1051: the X and Z parts contributed by one letter (x, z). *)
Definition subst_x (m : nat) (lx : list Z) (x z : Z) : list Z :=
  if ((x =? 1) && (z =? 0))%bool then firstn m lx
  else if ((x =? 0) && (z =? 1))%bool then zl m
  else if ((x =? 1) && (z =? 1))%bool then firstn m lx
  else zl m.
Definition subst_z (m : nat) (lz : list Z) (x z : Z) : list Z :=
  if ((x =? 1) && (z =? 0))%bool then zl m
  else if ((x =? 0) && (z =? 1))%bool then skipn m lz
  else if ((x =? 1) && (z =? 1))%bool then skipn m lz
  else zl m.
Definition subst_gen (n m : nat) (lx lz g : list Z) : list Z :=
  (flat_map (fun j => subst_x m lx (nth j g 0) (nth (n + j) g 0)) (seq 0 n) ++
   flat_map (fun j => subst_z m lz (nth j g 0) (nth (n + j) g 0)) (seq 0 n))%list.

(** L1015-1053, without the final constructor call. *)
Definition concat1_rows (c1 c2 : code) : res (list (list Z)) :=
  let n := cn c1 in let m := cn c2 in
  match nth_error (zd (logical_x c2)) 0, nth_error (zd (logical_z c2)) 0 with
  | Some lx, Some lz =>
      Ok (block_gens n m c2 ++ map (subst_gen n m lx lz) (zd (stab c1)))%list
  | _, _ => Err IndexError
  end.

(** L1080-1100: one letter of one generator when l <> 1.  State: the local
    variable current_logical (None when not bound yet) and the two new rows. *)
Definition add_slice (row : list Z) (a b : nat) (v : list Z) : res (list Z) :=
  let a' := Nat.min a (length row) in
  let b' := Nat.min b (length row) in
  let len := (b' - a')%nat in
  if Nat.eqb len (length v)
  then Ok (firstn a' row ++
           map (fun xy => (fst xy + snd xy) mod 2) (combine (firstn len (skipn a' row)) v) ++
           skipn (a' + len) row)%list
  else if Nat.eqb (length v) 1
  then Ok (firstn a' row ++
           map (fun x => (x + nth 0 v 0) mod 2) (firstn len (skipn a' row)) ++
           skipn (a' + len) row)%list
  else Err ValueError.

Definition concat_letter (n m nb : nat) (lx lz : zmat) (g : list Z)
    (st : option (list Z) * list Z * list Z) (j : nat) : res (option (list Z) * list Z * list Z) :=
  let '(cur, gx, gz) := st in
  let w := Nat.modulo j nb in
  let b := Nat.div j nb in
  let x := nth j g 0 in let z := nth (n + j) g 0 in
  let pick (M : zmat) := match nth_error (zd M) w with Some r => Ok r | None => Err IndexError end in
  do cur' <- (if ((x =? 1) && (z =? 0))%bool then do r <- pick lx; Ok (Some r)
              else if ((x =? 0) && (z =? 1))%bool then do r <- pick lz; Ok (Some r)
              else if ((x =? 1) && (z =? 1))%bool
              then do r1 <- pick lz; do r2 <- pick lx;
                   Ok (Some (map (fun xy => (fst xy + snd xy) mod 2) (combine r1 r2)))
              else Ok cur);
  match cur' with
  | None => Err UnboundLocalError
  | Some v =>
      do gx' <- add_slice gx (n * b) (n * (b + 1)) (firstn m v);
      do gz' <- add_slice gz (n * b) (n * (b + 1)) (skipn m v);
      Ok (cur', gx', gz')
  end.

(** L1055-1104, without the final constructor call. *)
Definition concatl_rows (c1 c2 : code) : res (list (list Z)) :=
  let n := cn c1 in let m := cn c2 in let l := ck c2 in
  let nb := Nat.div n l in
  let total := (nb * m)%nat in
  do st <- foldM (fun (st : option (list Z) * list (list Z)) (g : list Z) =>
      let '(cur, out) := st in
      do r <- foldM (concat_letter n m nb (logical_x c2) (logical_z c2) g) (seq 0 n)
                    (cur, zl total, zl total);
      let '(cur', gx, gz) := r in
      Ok (cur', out ++ [gx ++ gz])%list) (zd (stab c1)) (None, []);
  Ok (block_gens nb m c2 ++ snd st)%list.

(** L975-1104: concatenate_codes.  [None] is Python's None, returned when control
    falls off the end: the [assert ValueError(...)] at L1011 asserts a truthy
    object and never raises. *)
Definition concatenate_codes (c1 c2 : code) : res (option code) :=
  let n := cn c1 in let m := cn c2 in let l := ck c2 in
  if Nat.eqb l 0 then Err ZeroDivisionError
  else if Nat.eqb l 1 then
    do g <- concat1_rows c1 c2;
    do c <- init (Rows g) (n * m) (ck c1) None; Ok (Some c)
  else if Nat.eqb (Nat.modulo n l) 0 then
    do g <- concatl_rows c1 c2;
    do c <- init (Rows g) (Nat.div n l * m) (ck c1) None; Ok (Some c)
  else Ok None.
