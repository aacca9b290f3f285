(** Model of the three assignable properties of the Kraus classes,
    PyQCodes/chan/_kraus.py L123-157.  An assigned value is a three-dimensional array
    (simplification: Python would take anything, and fail later). *)
From Verif Require Import Py Scalar PauliModel KrausModel.
Open Scope nat_scope.
Section S.
Context {K : StarRing}.
(** L127-129: [o.kraus_ops = t] replaces the field [_kraus_ops] and nothing else *)
Definition assign_kraus_ops (o : kraus K) (t : ten3 K) : kraus K :=
  KR (sparse o) t (numb_kraus o) (numb_qubits o) (dim_in o) (dim_out o) (orth o) (current_n o) (nth_ops o) (nth_conj o) (nth_exch o).
(** L147-149: [o.nth_kraus_ops = t] replaces the field [_nth_kraus_ops] and nothing else *)
Definition assign_nth_kraus_ops (o : kraus K) (t : ten3 K) : kraus K := set_nth o t.
(** L155-157: the setter of nth_kraus_ops_conj assigns to the property nth_kraus_ops_conj,
    so it calls itself; [depth] is what is left of Python's recursion limit.  The
    RecursionError raised at the limit is a RuntimeError. *)
Fixpoint assign_nth_kraus_ops_conj (depth : nat) (o : kraus K) (t : ten3 K) : kraus K * res unit :=
  match depth with
  | O => (o, Err RuntimeError)
  | S d => assign_nth_kraus_ops_conj d o t
  end.
(** L119-121: len(o) *)
Definition kraus_len (o : kraus K) : nat := numb_kraus o.
End S.
