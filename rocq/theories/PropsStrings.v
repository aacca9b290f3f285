(** C27: Pauli strings whose length does not match n (model: StringsModel.v), and which
    bits a letter stands for in C01, C02 and C21 (vocabulary: StringsSpec.v). *)
From Verif Require Import Py ZMat CodesModel RankSpec CodesSpec CodesProofs CodesProofs2 StringsModel StringsSpec StringsProofs PropsCodes.
From Coq Require Import Ascii.
Open Scope nat_scope.

(** the constructor of StringsModel.v is the one of CodesModel.v wherever that one is modelled *)
Theorem C27_same_constructor_partial l n k ops : init (Strings l) n k ops <> Err Unmodelled -> init_strings l n k ops = init (Strings l) n k ops.
Proof. exact (strings_agree l n k ops). Qed.
Print Assumptions C27_same_constructor_partial.

(** accepted although the strings do not have n letters: too short and too long with
    supplied logical operators, too short with k = 0, and a longer string after the first *)
Theorem C27_length_refuted :
  (exists ops c, init_strings [str "XX"] 3 1 (Some ops) = Ok c) /\
  (exists ops c, init_strings [str "XXX"] 2 1 (Some ops) = Ok c) /\
  (exists c, init_strings [str "X"] 2 0 None = Ok c) /\
  (exists c, init_strings [str "ZZI"; str "IZZX"] 3 1 None = Ok c).
Proof.
  split; [eexists (ZM 1 6 [[1; 1; 1; 0; 0; 0]]%Z, ZM 1 6 [[0; 0; 0; 1; 1; 1]]%Z), _; run|].
  split; [eexists (ZM 1 4 [[1; 1; 0; 0]]%Z, ZM 1 4 [[0; 0; 1; 1]]%Z), _; run|].
  split; eexists; run.
Qed.
Print Assumptions C27_length_refuted.

(** without supplied operators and with k >= 1 the first string has n letters, the others
    at least n, and there are n - k of them *)
Theorem C27_checked_partial l n k c : 0 < k -> init_strings l n k None = Ok c ->
  exists p l', l = p :: l' /\ length p = n /\ Forall (fun q => n <= length q) l' /\ length l = n - k.
Proof.
  intros Hk H. destruct (strings_checked l n k c H) as (p & l' & -> & Hn & Hkn & L & _). specialize (L Hk). exists p, l'. split; [reflexivity|]. split; [exact L|].
  apply (eq_trans (eq_sym (strings_agree_length p l' n k None L Hkn))) in H. split; [|apply (strings_count_checked_without_ops _ _ _ _ H)].
  unfold init, pauli_str_to_binary_representation in H. apply bind_ok in H. destruct H as (M & HM & _). apply bind_ok in HM. destruct HM as (rows & HR & _).
  rewrite L in HR. apply mapM_ok in HR. inversion HR as [|? ? ? ? _ HT]; subst. clear - HT. induction HT as [|q row l' rows Hq HT IH]; constructor; [|exact IH].
  apply pauli_row_enough in Hq. exact Hq.
Qed.
Print Assumptions C27_checked_partial.
Example C27_case_strings : exists c, init_strings five_qubit 5 1 None = Ok c /\ 0 < 1 /\ init (Strings five_qubit) 5 1 None <> Err Unmodelled.
Proof. destruct C27_case as (c & Hc). exists c. rewrite Hc. split; [|split; [lia|discriminate]]. rewrite <- Hc. apply strings_agree. rewrite Hc. discriminate. Qed.

(** ** C01, C02: the round trips do not say which bits a letter stands for; these do. *)
Theorem C01_letters l M : pauli_str_to_binary_representation l = Ok M -> Forall2 (spells (length (nth 0 l []))) l (zd M).
Proof. exact (strings_spell l M). Qed.
Print Assumptions C01_letters.
Example C01_case_letters : exists M, pauli_str_to_binary_representation [str "XYZI"] = Ok M /\ zd M = [[1; 1; 0; 0; 0; 1; 1; 0]]%Z.
Proof. eexists. split; run. Qed.
Theorem C02_letters n r : length r = 2 * n -> binary r -> exists p, binary_rep_to_pauli_str r = Ok p /\ length p = n /\ spells n p r.
Proof. exact (row_spelled n r). Qed.
Print Assumptions C02_letters.
Example C02_case_letters : binary_rep_to_pauli_str [1; 1; 0; 0; 0; 1; 1; 0]%Z = Ok (str "XYZI").
Proof. run. Qed.

(** ** C21: with both missing methods in place undetectable_errors would return the
    strings of N(S). *)
Theorem C21_repaired_errors_partial attrs g n k ops c :
  In (str "_commute") attrs -> In (str "_convert_binary_representation_to_pauli") attrs -> init g n k ops = Ok c ->
  exists S, undetectable_errors_with attrs c = Ok S /\
    forall p, In p S <-> length p = n /\ exists v, spells n p v /\ forall r, In r (zd (stab c)) -> commute n r v.
Proof. exact (errors_repaired attrs g n k ops c). Qed.
Print Assumptions C21_repaired_errors_partial.
Example C21_case_errors : exists c S, init (Strings rep3) 3 1 None = Ok c /\
  undetectable_errors_with [str "_commute"; str "_convert_binary_representation_to_pauli"] c = Ok S /\ In (str "XXX") S /\ In (str "ZZI") S /\ ~ In (str "XII") S.
Proof.
  eexists _, _. split; [run|]. split; [run|]. split; [|split].
  - cbn. repeat (first [left; reflexivity|right]).
  - cbn. repeat (first [left; reflexivity|right]).
  - cbn. intros H. repeat (destruct H as [H|H]; [discriminate|]). exact H.
Qed.
