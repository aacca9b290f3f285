(** C22 and C95: the generators of a concatenated code.  Model: CodesModel.v
    (concatenate_codes); vocabulary: ConcatSpec.v. *)
From Verif Require Import Py ZMat CodesModel RankSpec CodesSpec CodesProofs CodesProofs2 ConcatProofs ConcatSpec ConcatProofs2 PropsCodes.
Open Scope nat_scope.

Ltac bits := unfold binary; repeat (apply Forall_cons; [first [left; reflexivity|right; reflexivity]|]); apply Forall_nil.

(** ** C22: with one logical qubit per block, the rows given to the constructor are the
    generators of the inner code in each of n blocks and those of the outer code with
    every X replaced by the X part of the logical X and every Z by the Z part of the
    logical Z.  No condition on the logical operators. *)
Theorem C22_rows g1 g2 o1 o2 n k m c1 c2 lx lz : init g1 n k o1 = Ok c1 -> init g2 m 1 o2 = Ok c2 -> Forall binary (zd (stab c1)) ->
  nth_error (zd (logical_x c2)) 0 = Some lx -> nth_error (zd (logical_z c2)) 0 = Some lz ->
  length lx = 2 * m -> length lz = 2 * m -> binary lx -> binary lz ->
  exists rows, concatenation n n m (fun j => j) (fun _ => x_only m lx) (fun _ => z_only m lz) (zd (stab c1)) (zd (stab c2)) rows /\
    concatenate_codes c1 c2 = (do c <- init (Rows rows) (n * m) k None; Ok (Some c)).
Proof. exact (concat1_is g1 g2 o1 o2 n k m c1 c2 lx lz). Qed.
Print Assumptions C22_rows.
Example C22_case_rows : exists c1 c2 lx lz, init (Strings five_qubit) 5 1 None = Ok c1 /\ init (Strings rep3) 3 1 None = Ok c2 /\ Forall binary (zd (stab c1)) /\
  nth_error (zd (logical_x c2)) 0 = Some lx /\ nth_error (zd (logical_z c2)) 0 = Some lz /\ length lx = 6 /\ length lz = 6 /\ binary lx /\ binary lz.
Proof.
  eexists _, _, _, _. split; [run|]. split; [run|]. split; [|split; [reflexivity|split; [reflexivity|split; [reflexivity|split; [reflexivity|]]]]].
  - cbn [zd stab]. repeat (apply Forall_cons; [bits|]). apply Forall_nil.
  - split; bits.
Qed.

(** ** C95: several logical qubits per block. *)

(** False: the identity letter of XIXX adds the logical X of the letter before it once
    more, so the returned [[8,3]] code does not contain the encoded generator. *)
Theorem C95_refuted : exists c1 c2 c r, init (Strings [str "XIXX"]) 4 3 None = Ok c1 /\ init (Strings four2) 4 2 None = Ok c2 /\
  valid_generators 4 3 (zd (stab c1)) /\ valid_generators 4 2 (zd (stab c2)) /\
  concatenate_codes c1 c2 = Ok (Some c) /\
  encodes 4 2 4 (fun j => j / 2) (fun j => nth (j mod 2) (zd (logical_x c2)) []) (fun j => nth (j mod 2) (zd (logical_z c2)) []) (nth 0 (zd (stab c1)) []) r /\
  ~ in_rowspace 8 (zd (stab c)) r.
Proof.
  eexists _, _, _, ([0; 1; 1; 0; 0; 0; 1; 1] ++ repeat 0 8)%Z. split; [run|]. split; [run|]. split; [valid|]. split; [valid|]. split; [run|]. split.
  - split; [reflexivity|]. intros part b p Hb Hp. unfold part. destruct b as [|[|]]; [| |lia]; destruct p as [|[|[|[|]]]]; try lia; split; reflexivity.
  - intros H. refine (decide_not_commute 8 _ (repeat 0 8 ++ [1; 0; 1; 0; 0; 0; 0; 0])%Z _ (commute_rowspace 8 _ _ _ _ H)); [reflexivity|].
    cbn [zd stab]. intros r Hr. repeat (destruct Hr as [<-|Hr]; [apply decide_commute; reflexivity|]). destruct Hr.
Qed.
Print Assumptions C95_refuted.

(** What a successful call needs: blocks of as many qubits as the outer code has, at
    least l^2 of them, and no identity in front. *)
Theorem C95_needs_partial g1 g2 o1 o2 n k m l c1 c2 c : init g1 n k o1 = Ok c1 -> init g2 m l o2 = Ok c2 -> 2 <= l ->
  Forall (fun r => length r = 2 * m) (zd (logical_x c2)) -> Forall (fun r => length r = 2 * m) (zd (logical_z c2)) ->
  concatenate_codes c1 c2 = Ok (Some c) ->
  n = m /\ l * l <= n /\ ~ identity_at n (nth 0 (zd (stab c1)) []) 0.
Proof. exact (concatl_needs g1 g2 o1 o2 n k m l c1 c2 c). Qed.
Print Assumptions C95_needs_partial.
Example C95_case_needs : exists c1 c2, init (Strings four2) 4 2 None = Ok c1 /\ init (Strings [str "XXXXXX"; str "ZZZZZZ"]) 6 4 None = Ok c2 /\ 2 <= 4 /\
  Forall (fun r => length r = 2 * 6) (zd (logical_x c2)) /\ Forall (fun r => length r = 2 * 6) (zd (logical_z c2)) /\ 4 mod 4 = 0 /\ concatenate_codes c1 c2 = Err ValueError.
Proof. eexists _, _. split; [run|]. split; [run|]. split; [lia|]. cbn [zd logical_x logical_z]. split; [repeat constructor|]. split; [repeat constructor|]. split; [reflexivity|]. run. Qed.

(** Right for n = m = l^2 and outer generators without identity letters: qubit j of the
    outer code becomes logical qubit j mod l of block j / l, and with valid logical
    operators the rows are generators of an [[l n, k]] code. *)
Theorem C95_several_partial g1 g2 o1 o2 n k l c1 c2 : init g1 n k o1 = Ok c1 -> init g2 n l o2 = Ok c2 -> Forall binary (zd (stab c1)) ->
  2 <= l -> n = l * l -> length (zd (logical_x c2)) = l -> length (zd (logical_z c2)) = l ->
  Forall (fun r => length r = 2 * n) (zd (logical_x c2)) -> Forall (fun r => length r = 2 * n) (zd (logical_z c2)) ->
  (forall g j, In g (zd (stab c1)) -> j < n -> ~ identity_at n g j) ->
  let LX j := nth (j mod l) (zd (logical_x c2)) [] in let LZ j := nth (j mod l) (zd (logical_z c2)) [] in
  exists rows, concatenation n l n (fun j => j / l) LX LZ (zd (stab c1)) (zd (stab c2)) rows /\
    concatenate_codes c1 c2 = (do c <- init (Rows rows) (l * n) k None; Ok (Some c)) /\
    (valid_generators n k (zd (stab c1)) -> valid_generators n l (zd (stab c2)) ->
     (forall w r, w < l -> In r (zd (stab c2)) -> commute n r (LX w) /\ commute n r (LZ w)) ->
     (forall v w, v < l -> w < l -> (commute n (LX v) (LZ w) <-> v <> w) /\ commute n (LX v) (LX w) /\ commute n (LZ v) (LZ w)) ->
     valid_generators (l * n) k rows).
Proof.
  intros I1 I2 B Hl Hn Nx Nz Lx Lz NI LX LZ. destruct (concatl_is g1 g2 o1 o2 n k l c1 c2 I1 I2 B Hl Hn Nx Nz Lx Lz NI) as (rows & HC & E). exists rows. split; [exact HC|]. split; [exact E|].
  intros V1 V2 C P.
  destruct (init_inv _ _ _ _ _ I1) as (_ & _ & _ & _ & _ & Hk & _). destruct (init_inv _ _ _ _ _ I2) as (_ & _ & _ & _ & _ & Hk2 & _).
  apply (concatenation_valid n k l n l (fun j => j / l) LX LZ (zd (stab c1)) (zd (stab c2)) rows V1 Hk V2 Hk2 Hn); [|exact HC].
  assert (M : forall j, LX (j mod l) = LX j /\ LZ (j mod l) = LZ j) by (intros j; unfold LX, LZ; rewrite Nat.mod_mod by lia; auto).
  assert (U : forall j, j mod l < l) by (intros; apply Nat.mod_upper_bound; lia).
  split; [intros j Hj; apply Nat.div_lt_upper_bound; lia|]. split.
  - intros j r Hj Hr. destruct (M j) as [<- <-]. apply C; [apply U|exact Hr].
  - intros i j Hi Hj Eb. destruct (M i) as [E1 E2], (M j) as [E3 E4]. destruct (P (i mod l) (j mod l) (U i) (U j)) as (P1 & P2 & P3). rewrite E1, E2, E3, E4 in *.
    split; [|auto]. rewrite P1. split; intros H D; apply H; [rewrite D; reflexivity|].
    rewrite (Nat.div_mod i l), (Nat.div_mod j l) by lia. rewrite Eb, D. reflexivity.
Qed.
Print Assumptions C95_several_partial.
Example C95_case : exists c1 c2 c, init (Strings [str "XZXZ"; str "ZXZX"]) 4 2 None = Ok c1 /\ init (Strings four2) 4 2 None = Ok c2 /\
  valid_generators 4 2 (zd (stab c1)) /\ valid_generators 4 2 (zd (stab c2)) /\ concatenate_codes c1 c2 = Ok (Some c) /\
  (forall g j, In g (zd (stab c1)) -> j < 4 -> ~ identity_at 4 g j).
Proof.
  eexists _, _, _. split; [run|]. split; [run|]. split; [valid|]. split; [valid|]. split; [run|].
  cbn [zd stab]. intros g j [<-|[<-|[]]] Hj [H1 H2]; destruct j as [|[|[|[|]]]]; cbn in H1, H2; lia.
Qed.

(** The textbook fact behind both: rows of this form are generators whenever the
    logical operators are those of n different logical qubits. *)
Theorem C95_concatenation_valid_partial n k nb m l blk LX LZ outer inner rows :
  valid_generators n k outer -> k <= n -> valid_generators m l inner -> l <= m -> n = nb * l ->
  logical_qubits n nb m blk LX LZ inner -> concatenation n nb m blk LX LZ outer inner rows -> valid_generators (nb * m) k rows.
Proof. exact (concatenation_valid n k nb m l blk LX LZ outer inner rows). Qed.
Print Assumptions C95_concatenation_valid_partial.
