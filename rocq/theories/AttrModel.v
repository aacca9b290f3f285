(** The attribute and the iteration of StabilizerCode that no other function of the package reads. *)
From Verif Require Import Py ZMat CodesModel.

(** codes.py L179: self.dim_code_space = n - self.numb_stab, an integer that may be negative *)
Definition dim_code_space (c : code) : Z := (Z.of_nat (cn c) - Z.of_nat (numb_stab c))%Z.
(** codes.py L235-238: __iter__ yields the rows of the normal form in order; the list of what a for loop sees *)
Definition code_iter (c : code) : list (list Z) := zd (normal_form c).
