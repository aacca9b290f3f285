(** The coherent information through a concatenated code (C155).  Specification as for C139: KlSpec.v, QecSpec.v, CodesSpec.v, KnownSpec.v, EntropySpec.v, KrausSpec.v. *)
From Verif Require Import Py ZMat RankSpec CodesModel CodesSpec CodesProofs ConcatProofs PropsCodes Scalar PauliModel PauliSpec PauliProofs PauliProofs2 EncoderProofs EighExists Spectral SpectralProofs KrausModel KrausSpec KrausProofs KrausProofs2 KrausProofs5 KrausProofs6 KrausProofs8 KrausProofs12
  ChoiModel ChannelModel ChannelSpec ChoiSpec SpectralExists EntropyProofs EntropySpec CohProofs CohProofs3 CohProofs4 Processing ProcessingSpec Processing2 Degradable QecSpec QecProofs NoCorrectSpec NoCorrectProofs KnownSpec KnownProofs KnownProofs2 KnownProofs3 KlSpec KlProofs KlCode PropsKl.
From Verif Require PropsDist2.
From Coq Require Import Reals Lra.
Open Scope nat_scope.

(** a channel on the n*m qubits each of whose operators acts on at most t of them, used on the code that
    concatenate_codes returns, transmits the whole entropy of the message *)
Theorem C155_value eigvalsh sqrtm eigh g1 g2 o1 o2 n k m c1 c2 lx lz c d1 d2 t : eigvalsh_ok eigvalsh -> eigh_ok eigh ->
  init g1 n k o1 = Ok c1 -> init g2 m 1 o2 = Ok c2 -> valid_generators n k (zd (stab c1)) -> valid_generators m 1 (zd (stab c2)) ->
  Forall (fun r => Nat.even (y_count n r) = true) (zd (stab c1)) -> Forall (fun r => Nat.even (y_count m r) = true) (zd (stab c2)) ->
  nth_error (zd (logical_x c2)) 0 = Some lx -> nth_error (zd (logical_z c2)) 0 = Some lz ->
  length lx = 2 * m -> length lz = 2 * m -> binary lx -> binary lz ->
  (forall r, In r (zd (stab c2)) -> commute m r (x_only m lx) /\ commute m r (z_only m lz)) -> ~ commute m (x_only m lx) (z_only m lz) ->
  distance_at_least n (zd (stab c1)) d1 -> distance_at_least m (zd (stab c2)) d2 -> concatenate_codes c1 c2 = Ok (Some c) ->
  1 <= n -> 2 * t + 1 <= d1 * d2 ->
  exists E, encode_krauss_operators eigh c = Ok (MA (2 ^ (n * m)) (2 ^ k) E) /\
  forall errors sp ch past sigma s reg, Forall (acts_on_few (n * m) t) errors -> errors <> [] -> trace_preserving (2 ^ (n * m)) errors -> channel_of errors sp ch ->
    Forall (fun m => 1 <= m) past -> clean sp past 1 -> density (2 ^ k) sigma -> von_neumann (2 ^ k) sigma s ->
    value_between eigvalsh sqrtm ch past 1 (embedded (2 ^ (n * m)) (2 ^ k) E sigma) reg (s - INR (2 ^ (n * m)) * slack)%R (s + INR (length errors) * slack)%R.
Proof.
  intros OK HE I1 I2 V1 V2 E1 E2 EX EZ LX LZ BX BZ HCm HA D1 D2 CO N1 HT.
  destruct (PropsDist2.concatenated_code g1 g2 o1 o2 n k m c1 c2 lx lz c d1 d2 I1 I2 V1 V2 E1 E2 EX EZ LX LZ BX BZ HCm HA D1 D2 CO) as (rows & I & VC & EV & D).
  assert (M1 : 1 <= m) by (destruct V2 as (P2 & N2 & _); lia).
  apply (C139_code eigvalsh sqrtm OK eigh (Rows rows) (n * m) k None c t HE I); [nia|exact VC|exact EV|exact (PropsDist2.distance_less _ _ _ _ HT D)].
Qed.
Print Assumptions C155_value.
