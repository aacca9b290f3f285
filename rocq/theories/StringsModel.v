(** Model of StabilizerCode.__init__ on Pauli strings without the assumption that they
    have n letters and that k <= n (codes.py L127-198 and the elimination L700-910).  The
    code checks neither, so indices can leave the array and slices are cut or, when
    negative, count from the end.  CodesModel.v has the same functions for arrays of 2n
    columns; StringsProofs.v shows that they agree there. *)
From Verif Require Import Py ZMat CodesModel.
Open Scope nat_scope.

(** One end of a Python slice of an axis with [len] entries. *)
Definition bound (len : nat) (i : Z) : nat :=
  if (i <? 0)%Z then Z.to_nat (Z.of_nat len + i) else Nat.min (Z.to_nat i) len.
(** [M[r0:r1, c0:c1]] *)
Definition pyslice (M : zmat) (r0 r1 c0 c1 : Z) : zmat :=
  slice M (bound (zr M) r0) (bound (zr M) r1) (bound (zc M) c0) (bound (zc M) c1).
(** [M[i, j]]; no index is negative where this is used. *)
Definition getr (M : zmat) (i j : nat) : res Z :=
  if (Nat.ltb i (zr M) && Nat.ltb j (zc M))%bool then Ok (get M i j) else Err IndexError.

(** codes.py L733-751: the search.  Every entry of the range is read, also after the swap. *)
Definition search_swap_any (n s j : nat) (M : zmat) : res zmat :=
  do st <- foldM
    (fun (st : zmat * bool) (cr : nat * nat) =>
       let '(M, did_not_swap) := st in
       let '(i_col, j_row) := cr in
       do x <- getr M j_row i_col;
       if ((x =? 1)%Z && did_not_swap)%bool
       then do _ <- guard (Nat.ltb (i_col + n) (zc M) && Nat.ltb (j + n) (zc M))%bool IndexError;
            Ok (swap_rows (swap_both n M i_col j) j j_row, false)
       else Ok (M, did_not_swap))
    (list_prod (seq j (n - j)) (seq j (s - j))) (M, true);
  Ok (fst st).
(** codes.py L729-762 *)
Definition first_step_any (n s : nat) (M : zmat) (j : nat) : res zmat :=
  do d <- getr M j j;
  do M1 <- (if (d =? 0)%Z then search_swap_any n s j M else Ok M);
  Ok (clear_col (seq 0 s) j j M1).
(** codes.py L700-764 *)
Definition gauss_first_any (n : nat) (M : zmat) : res (zmat * nat) :=
  let X := pyslice M 0 (Z.of_nat (zr M)) 0 (Z.of_nat n) in
  do _ <- guard (has_entries X) ValueError;
  do M' <- foldM (first_step_any n (zr M)) (seq 0 (matrix_rank X)) M;
  Ok (M', matrix_rank X).

(** codes.py L820-831: the first column from [n + c] on with a one, read up to column 2n *)
Fixpoint find_col (M : zmat) (j n : nat) (cols : list nat) : res (option nat) :=
  match cols with
  | [] => Ok None
  | c :: r => do x <- getr M j (n + c); if (x =? 1)%Z then Ok (Some c) else find_col M j n r
  end.
(** codes.py L814-842.  Row [i] of the range is read unless it is [j]. *)
Definition second_step_any (n : nat) (nk : Z) (rank : nat) (M : zmat) (j : nat) : res zmat :=
  do d <- getr M j (n + j);
  do M1 <- (if (d =? 0)%Z
            then do c <- find_col M j n (seq (j + 1) (n - (j + 1)));
                 Ok (match c with Some c => swap_both n M c j | None => M end)
            else Ok M);
  foldM (fun M i => if Nat.eqb i j then Ok M
                    else do x <- getr M i (n + j); Ok (if (x =? 0)%Z then M else add_row M j i))
        (seq rank (Z.to_nat nk - rank)) M1.
(** codes.py L766-843 *)
Definition gauss_second_any (n k : nat) (M : zmat) (rank : nat) : res zmat :=
  if Nat.eqb rank (zr M) then Ok M
  else
    let E := pyslice M (Z.of_nat rank) (Z.of_nat (zr M)) (Z.of_nat (n + rank)) (Z.of_nat (zc M)) in
    do _ <- guard (has_entries E) ValueError;
    let rank_E := matrix_rank E in
    let M1 := fold_left (second_swap_rows n (zr M)) (seq rank rank_E) M in
    foldM (second_step_any n (Z.of_nat n - Z.of_nat k) rank) (seq rank rank_E) M1.

(** codes.py L849-910.  The last guard is np.zeros with a negative size. *)
Definition logical_operators_any (n k : nat) (F : zmat) (rank : nat) : res (zmat * zmat) :=
  do _ <- assert_ (topleft_identity F rank);
  let N := Z.of_nat n in let K := Z.of_nat k in let R := Z.of_nat rank in let C := Z.of_nat (zc F) in
  let a2 := pyslice F 0 R (N - K) N in
  let c1 := pyslice F 0 R (N + R) (2 * N - K) in
  let c2 := pyslice F 0 R (2 * N - K) C in
  let e := pyslice F R (Z.of_nat (zr F)) (2 * N - K) C in
  do ec <- zdot (ztrans e) (ztrans c1);
  do ec2 <- zadd2 ec (ztrans c2);
  do lx <- hstack (zeros k rank) [ztrans e; eye k; ec2; zeros k (n - rank)];
  do _ <- guard (Z.leb 0 (N - K - R)) ValueError;
  do lz <- hstack (zeros k n) [ztrans a2; zeros k (n - k - rank); eye k];
  Ok (lx, lz).

(** codes.py L127-198 on a list of strings *)
Definition init_strings (l : list pystr) (n k : nat) (logical_ops : option (zmat * zmat)) : res code :=
  do M <- pauli_str_to_binary_representation l;
  do _ <- assert_ (is_stabilizer_code M);
  do ps <- mapM binary_rep_to_pauli_str (zd M);
  do nf <- gauss_first_any n M;
  let '(M1, rank) := nf in
  do F <- gauss_second_any n k M1 rank;
  do lops <- match logical_ops with
             | None => logical_operators_any n k F rank
             | Some (lx, lz) =>
                 do _ <- assert_ (Nat.eqb (zc lx) (2 * n));
                 do _ <- assert_ (Nat.eqb (zc lz) (2 * n));
                 Ok (lx, lz)
             end;
  Ok (Code n k M ps F rank (fst lops) (snd lops)).
