(** Vocabulary for statements about the Choi constructor. *)
From Verif Require Import Py Scalar PauliModel PauliSpec KrausSpec ChoiModel ChoiSpec.
From Coq Require Import Reals.
Open Scope nat_scope.

(** tracing out the output leaves the identity *)
Definition choi_tp (D O : nat) (M : array CC) : Prop := eqm D D (fun i j => bsum O (fun a => M (i * O + a) (j * O + a))) eye.
(** what is required of qutip's istp and iscp, at tolerance zero *)
Definition istp_ok (istp : choi CC -> bool) : Prop :=
  forall c, is_square (ch_input_dim c * ch_output_dim c) (ch_mat c) -> (istp c = true <-> choi_tp (ch_input_dim c) (ch_output_dim c) (me (ch_mat c))).
Definition iscp_ok (iscp : choi CC -> bool) : Prop :=
  forall c, is_square (ch_input_dim c * ch_output_dim c) (ch_mat c) ->
    (iscp c = true <-> hermitian (ch_input_dim c * ch_output_dim c) (me (ch_mat c)) /\ psd (ch_input_dim c * ch_output_dim c) (me (ch_mat c))).
(** the state of the middle factor of three, of sizes p, m and q: the others are traced out *)
Definition marginal (p m q : nat) (A : array CC) : array CC :=
  fun a b => bsum p (fun x => bsum q (fun y => A ((x * m + a) * q + y) ((x * m + b) * q + y))).
(** the matrix |a><b| on the last factor, of size A, and the identity on the others *)
Definition on_last (A a b : nat) : array CC := fun u v => smul (eye (u / A) (v / A)) (ketbra a b (u mod A) (v mod A)).
