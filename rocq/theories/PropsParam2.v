(** Further properties of the parameterisations (C71, C90): the bounds exclude no state.
    Specification: ParamSpec.v, KrausSpec.v.  Model: ParamModel.v. *)
From Verif Require Import Py Scalar PauliModel PauliSpec EncoderProofs EighExists KrausSpec KrausProofs2 EntropyProofs ChoiSpec CohProofs4 ParamModel ParamSpec ParamProofs6 ParamProofs7.
From Coq Require Import Reals Lra.
From Coq Require String.
Import String.StringSyntax.
Delimit Scope string_scope with string.
Open Scope nat_scope.

(** ** C71: the normal draws of CholeskyParam: the diagonal is divided by its largest modulus m *)
Theorem C71_normal (normal uniform : R -> R -> nat -> list R) (nsize rank : nat) (l_bnd u_bnd : R) : draws normal -> 1 <= rank -> rank <= nsize -> (0 <= u_bnd)%R ->
  let drawn := normal (u_bnd / 2)%R (u_bnd / 4)%R rank in (exists x, In x drawn /\ x <> 0%R) ->
  exists m, (0 < m)%R /\ In m (map Rabs drawn) /\ Forall (fun x => (Rabs x <= m)%R) drawn /\
    chol_random_vectors normal uniform nsize rank "normal"%string l_bnd u_bnd =
      Ok (map (fun x => Rabs x / m)%R drawn ++ normal ((u_bnd - l_bnd) / 2)%R ((u_bnd - l_bnd) / 4)%R (2 * length (strictly_lower nsize rank))).
Proof. exact (chol_normal normal uniform nsize rank l_bnd u_bnd). Qed.
Print Assumptions C71_normal.
Example C71_normal_case : draws (fun a b k => repeat (a - b)%R k) /\ exists x, In x (repeat (1 / 2 - 1 / 4)%R 2) /\ x <> 0%R.
Proof. split; [intros a b k; apply repeat_length|]. exists (1 / 2 - 1 / 4)%R. split; [left; reflexivity|lra]. Qed.

(** ** C90 *)
Definition within (vec : list R) (bounds : list (R * R)) : Prop := Forall2 (fun x b => (fst b <= x <= snd b)%R) vec bounds.
Theorem C90_standard n rho : is_square n rho -> density n (me rho) -> exists vec, std_vec_from_rho rho n = Ok vec /\ within vec (std_bounds n).
Proof. intros [R1 C1]. exact (std_within n rho R1 C1). Qed.
Theorem C90_over n r rho : is_square n rho -> density n (me rho) -> rank_at_most n r (me rho) -> r <= n ->
  exists vec rho', within vec (over_bounds n r) /\ over_rho_from_vec vec n (Some r) = Ok rho' /\ same_mat rho' rho.
Proof.
  intros [R1 C1] D RK Hr. destruct (over_reaches n r (me rho) D RK Hr) as (vec & rho' & W & E & R2 & C2 & Q). exists vec, rho'. split; [exact W|]. split; [exact E|]. unfold same_mat. rewrite R1, R2, C1, C2. auto.
Qed.
Theorem C90_cholesky n rank rho l_bnd u_bnd : is_square n rho -> density n (me rho) -> 1 <= rank_of rank n <= n -> rank_at_most n (rank_of rank n) (me rho) -> (l_bnd < 0 < u_bnd)%R ->
  exists vec rho', within vec (chol_bounds n (rank_of rank n) l_bnd u_bnd) /\ chol_rho_from_vec vec n rank = Ok rho' /\ same_mat rho' rho.
Proof.
  intros [R1 C1] D [H1 Hr] RK LH. destruct (chol_reaches n rank (me rho) l_bnd u_bnd D H1 Hr RK LH) as (vec & rho' & W & E & R2 & C2 & Q). exists vec, rho'. split; [exact W|]. split; [exact E|]. unfold same_mat. rewrite R1, R2, C1, C2. auto.
Qed.
(** every density matrix has rank at most its size *)
Theorem C90_full_rank n A : rank_at_most n n A.
Proof. exists A, eye. intros i j _ Hj. symmetry. apply mm_eye_r, Hj. Qed.
Print Assumptions C90_standard.
Print Assumptions C90_over.
Print Assumptions C90_cholesky.
Print Assumptions C90_full_rank.
(** |11><11|, whose first rows vanish: a positive diagonal could not describe it with rank one *)
Example C90_case : let v := fun i => if Nat.eqb i 3 then (s1 : CC) else s0 in is_square 4 (MA 4 4 (pure v)) /\ density 4 (pure v) /\ rank_at_most 4 1 (pure v).
Proof.
  cbv zeta. split; [split; reflexivity|]. split; [apply pure_density; apply CC_eq; cbn; ring|]. exists (fun i _ => if Nat.eqb i 3 then s1 else s0), (fun _ j => if Nat.eqb j 3 then s1 else s0).
  intros i j _ _. unfold pure, mm. cbn [bsum]. destruct (Nat.eqb i 3), (Nat.eqb j 3); apply CC_eq; cbn; ring.
Qed.
