(** Matrix-level properties of stabilizer codes (C03, C05, C13, C14).
    Specification: CodesSpec.v, PauliSpec.v.  Model: PauliModel.v.  [K] is any
    commutative ring with conjugation in which 1 <> -1, hence also the complex numbers. *)
From Verif Require Import Py ZMat CodesModel RankSpec CodesSpec CodesProofs ConcatProofs PropsCodes Scalar PauliModel PauliSpec
  PauliProofs PauliProofs2 EncoderProofs CorrectProofs EighExists.
From Coq Require Import Reals.
Open Scope nat_scope.
Open Scope K_scope.

Lemma decide_binary l : forallb (fun x => Z.eqb x 0 || Z.eqb x 1)%bool l = true -> binary l.
Proof.
  intros H. apply Forall_forall. intros x Hx. rewrite forallb_forall in H. specialize (H x Hx).
  apply orb_true_iff in H. destruct H as [H|H]; apply Z.eqb_eq in H; auto.
Qed.

(** ** C03 *)
Theorem C03_inner_prod_decides_commutation (K : StarRing) n a b :
  1 <= n -> length a = (2 * n)%nat -> length b = (2 * n)%nat -> binary a -> binary b ->
  exists A B : array K, binary_rep_to_pauli_mat (ZM 2 (2 * n) [a; b]) = Ok [MA (2 ^ n) (2 ^ n) A; MA (2 ^ n) (2 ^ n) B] /\
    (inner_prod a b = 0%Z \/ inner_prod a b = 1%Z) /\
    eqm (2 ^ n) (2 ^ n) (mm (2 ^ n) A B) (scale (pm1 (inner_prod a b) : K) (mm (2 ^ n) B A)) /\
    (inner_prod a b = 0%Z <-> eqm (2 ^ n) (2 ^ n) (mm (2 ^ n) A B) (mm (2 ^ n) B A)) /\
    (inner_prod a b = 1%Z <-> eqm (2 ^ n) (2 ^ n) (mm (2 ^ n) A B) (scale (- (1)) (mm (2 ^ n) B A))).
Proof. exact (commutation_decided (K := K) n a b). Qed.
Print Assumptions C03_inner_prod_decides_commutation.
Example C03_case : binary [1; 0; 0; 1]%Z /\ inner_prod [1; 0; 0; 1]%Z [0; 0; 1; 0]%Z = 1%Z /\ inner_prod [1; 1; 0; 0]%Z [0; 0; 1; 1]%Z = 0%Z.
Proof. split; [apply decide_binary; reflexivity|split; reflexivity]. Qed.

(** ** C05 *)
Theorem C05_product (K : StarRing) n a b :
  1 <= n -> length a = (2 * n)%nat -> length b = (2 * n)%nat -> binary a -> binary b ->
  exists A B C : array K, binary_rep_to_pauli_mat (ZM 3 (2 * n) [a; b; map (fun xy => (fst xy + snd xy) mod 2)%Z (combine a b)]) =
      Ok [MA (2 ^ n) (2 ^ n) A; MA (2 ^ n) (2 ^ n) B; MA (2 ^ n) (2 ^ n) C] /\
    eqm (2 ^ n) (2 ^ n) (mm (2 ^ n) A B) (scale (pm1 (zx_dot n a b) : K) C).
Proof. exact (pauli_product (K := K) n a b). Qed.
Theorem C05_unitary_square (K : StarRing) n a : 1 <= n -> length a = (2 * n)%nat -> binary a ->
  exists A : array K, binary_rep_to_pauli_mat (ZM 1 (2 * n) [a]) = Ok [MA (2 ^ n) (2 ^ n) A] /\
    unitary (2 ^ n) A /\
    eqm (2 ^ n) (2 ^ n) (mm (2 ^ n) A A) (scale (if Nat.even (y_count n a) then 1 else - (1) : K) eye) /\
    (hermitian (2 ^ n) A <-> Nat.even (y_count n a) = true).
Proof. exact (pauli_square (K := K) n a). Qed.
(** the entries themselves, so that the matrices above are the intended ones: column
    c holds one entry (-1)^(z.c), in row c xor x, qubit 0 being the most significant *)
Theorem C05_entries (K : StarRing) n a : 1 <= n -> length a = (2 * n)%nat -> binary a ->
  exists A : array K, binary_rep_to_pauli_mat (ZM 1 (2 * n) [a]) = Ok [MA (2 ^ n) (2 ^ n) A] /\
    forall r c, r < 2 ^ n -> c < 2 ^ n ->
      let bit i l := if Nat.testbit i (n - 1 - l) then 1%Z else 0%Z in
      A r c = if forallb (fun l => Z.eqb (bit r l) ((bit c l + nth l a 0%Z) mod 2)) (seq O n)
              then pm1 (fold_right Z.add 0 (map (fun l => nth (n + l) a 0 * bit c l) (seq O n)))%Z else (0 : K).
Proof. exact (pauli_entries (K := K) n a). Qed.
Print Assumptions C05_product.
Print Assumptions C05_unitary_square.
Print Assumptions C05_entries.
Example C05_case : binary [1; 1; 1; 0]%Z /\ Nat.even (y_count 2 [1; 1; 1; 0]%Z) = false /\ Nat.even (y_count 2 [1; 1; 1; 1]%Z) = true /\
  zx_dot 2 [0; 0; 1; 1]%Z [1; 0; 0; 0]%Z = 1%Z.
Proof. split; [apply decide_binary; reflexivity|repeat split; reflexivity]. Qed.

(** ** C13 *)
Theorem C13_encoder_isometry eigh g n k ops c : eigh_ok eigh -> init g n k ops = Ok c -> 1 <= n ->
  Forall binary (zd (stab c)) -> Forall (fun r => Nat.even (y_count n r) = true) (zd (stab c)) ->
  exists Ss m E, binary_rep_to_pauli_mat (stab c) = Ok Ss /\
    encode_krauss_operators eigh c = Ok (MA (2 ^ n) m E) /\
    eqm m m (mm (2 ^ n) (adj E) E) eye /\
    (forall S, In S Ss -> eqm (2 ^ n) m (mm (2 ^ n) (me S) E) E) /\
    (forall v : nat -> CC, (forall S, In S Ss -> forall i, i < 2 ^ n -> bsum (2 ^ n) (fun l => me S i l * v l) = v i) ->
       forall i, i < 2 ^ n -> bsum m (fun t => E i t * bsum (2 ^ n) (fun l => (E l t)^* * v l)) = v i) /\
    (indep 2 (2 * n) (zd (stab c)) -> length (zd (stab c)) = (n - k)%nat -> m = (2 ^ k)%nat).
Proof. exact (encoder_isometry eigh g n k ops c). Qed.
Print Assumptions C13_encoder_isometry.
(** the contract of eigh is satisfiable, and the five-qubit and Steane codes qualify *)
Example C13_case_contract : exists eigh, eigh_ok eigh.
Proof. exists gs_eigh. exact gs_eigh_ok. Qed.
Example C13_case_code : exists c, init (Strings five_qubit) 5 1 None = Ok c /\ valid_generators 5 1 (zd (stab c)) /\
  forallb (fun r => Nat.even (y_count 5 r)) (zd (stab c)) = true.
Proof. eexists; split; [run|]. split; [valid|run]. Qed.

(** ** C14 *)
Theorem C14_correcting_errors g n k ops c (errors : list (array CC)) : init g n k ops = Ok c -> 1 <= n ->
  Forall binary (zd (stab c)) ->
  exists Ss Ks, binary_rep_to_pauli_mat (stab c) = Ok Ss /\
    kraus_operators_correcting_errors c (map (MA (2 ^ n) (2 ^ n)) errors) = Ok (map (MA (2 ^ n) (2 ^ n)) Ks) /\
    length Ks = length errors /\
    eqm (2 ^ n) (2 ^ n) (gram_sum (2 ^ n) Ks) (gram_sum (2 ^ n) errors) /\
    (forall t b B a, t < length errors -> length b = (2 * n)%nat -> binary b ->
       binary_rep_to_pauli_mat (ZM 1 (2 * n) [b]) = Ok [MA (2 ^ n) (2 ^ n) B] ->
       eqm (2 ^ n) (2 ^ n) (nth t errors eye) (scale a B) -> (tol5 <= Cmod a)%R ->
       ((forall r, In r (zd (stab c)) -> inner_prod r b = 0%Z) ->
          eqm (2 ^ n) (2 ^ n) (nth t Ks eye) (nth t errors eye)) /\
       (forall j, j < length (zd (stab c)) -> inner_prod (nth j (zd (stab c)) []) b = 1%Z ->
          (forall i, i < j -> inner_prod (nth i (zd (stab c)) []) b = 0%Z) ->
          eqm (2 ^ n) (2 ^ n) (nth t Ks eye) (mm (2 ^ n) (me (nth j Ss mI)) (nth t errors eye)))).
Proof. exact (correcting_errors g n k ops c errors). Qed.
Print Assumptions C14_correcting_errors.
(** on the five-qubit code the error X on qubit 0 is first detected by generator 3 *)
Example C14_case : exists c, init (Strings five_qubit) 5 1 None = Ok c /\
  map (fun r => inner_prod r [1; 0; 0; 0; 0; 0; 0; 0; 0; 0]%Z) (zd (stab c)) = [0; 0; 0; 1]%Z.
Proof. eexists; split; run. Qed.
