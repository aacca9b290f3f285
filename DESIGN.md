# Formal model of PyQCodes in Rocq

Source of truth: `/repo` at the pinned commit, read as text. Nothing was run.
Properties: `properties.jsonl`. Status per property: `MANIFEST.json`.

## 1. Trusted base

* The Coq 8.16.1 kernel (and `vm_compute` for concrete witnesses).
* What `Print Assumptions` lists under each theorem in `theories/Props*.v`.
  Everything about binary matrices, circuits over an abstract scalar ring, Kraus
  algebra and control flow is closed under the global context. Theorems that
  mention the real or complex numbers use the standard library's reals, hence
  `ClassicalDedekindReals.sig_forall_dec`, `ClassicalDedekindReals.sig_not_dec`
  and `FunctionalExtensionality.functional_extensionality_dep`. The spectral
  theorem (`Spectral.v`, used for C46, C47, C52, C69, C70) also uses
  `Classical_Prop.classic`, as do C51 to C54 for case splits on real matrices
  and C57 to C156 that build on these. `SpectralExists.v` and `ParamExists.v`, which show that functions meeting
  the contracts of `eigvalsh`, `eigh`, `sqrtm` and `cholesky` exist, and the `_case` examples
  that rely on it, use `IndefiniteDescription.constructive_indefinite_description`.
  The decision procedures standing for `istp` and `iscp` in `C89_case`, `C133_case` and `C91_refuted` use
  `ClassicalEpsilon.constructive_indefinite_description`.
  `C77_refuted`, `C135_refuted` and `C135_case_operators`, which pick an `eigh` and a solver meeting their contracts with `ClassicalChoice.choice`, use `RelationalChoice.relational_choice` and
  `ClassicalUniqueChoice.dependent_unique_choice`.
  All of these are in the standard library; no other axiom is used. `ASSUMPTIONS.md` has the list for each theorem.
  `MixedCalc.v` uses Coquelicot's derivatives, which bring no further axiom.
* The reading of the Python code by which each definition was written. Every
  definition in a `*Model.v` file cites the file and lines it models.
  `RepoTests.v` runs the model on the inputs of the repository's unit tests that have
  fixed data and checks the values these tests expect (constructor, eliminations, standard
  forms, logical operators, concatenations, encoding circuits against the book's, Pauli
  matrices, Kraus products, parameterisations). All of them agree.

## 2. Modelling conventions

* Exceptions are values: `res A = Ok a | Err e`, with `e` naming the Python
  exception class. A Python `assert` is `Err AssertionError`.
* Binary arrays are `list (list Z)`; Python `%` on ints is `Z.modulo`. Float
  arrays that only ever hold integers (`np.zeros`, `np.hstack`) are modelled as
  integers.
* Numerical arrays are a shape plus an index function into a scalar ring with
  conjugation (`StarRing`): an arbitrary one where the argument is algebra, the
  complex numbers where order or square roots are needed, the Gaussian integers
  for executable witnesses. Floating-point rounding is NOT modelled: arithmetic
  is exact.
* `np.linalg.matrix_rank` on a binary block is the exact rank over the
  rationals, computed by fraction-free elimination; proved to be a rank. On an
  array without entries it raises ValueError, as numpy does.
* `eigh`, `eigvalsh`, `sqrtm`, `cholesky`, `minimize`,
  `differential_evolution`, `np.random` and measurement outcomes are arguments
  of the model constrained, where needed, by the contract written in the
  theorem's hypotheses. They are quantified over, never assumed by axiom.
* ProjectQ engines: the state is an amplitude function on bit strings; gates act
  exactly. A measurement takes the next outcome from a list given in advance, or the
  other one if that has probability zero; the probability of the run is kept. A command
  acts when it is sent, so `flush` has no effect of its own. Engine scheduling, mapping and back-end communication are not
  modelled.

* Attribute lookup that can fail at run time (`self.numb_krauss`,
  `self._commute`) is a lookup by name in the list of attributes the class has.
* Registers of qubits are numbered in allocation order.
* `qutip.ptrace` is modelled on the flat list of subsystem dimensions, which is
  how qutip treats the Choi object when `num_in = num_out`; C44 to C48 are stated
  for that case. C91 describes the other case on the same flat list, which is the reading most
  favourable to the code.
* Contracts: `eigh_ok`, `eigh_all_ok`, `eigvalsh_ok` (an eigendecomposition with a
  unitary), `sorted_eigh` (the same in increasing order), `sqrtm_ok` (the positive
  root), `cholesky_contract` (the factor of a positive definite matrix), `scipy_ok` (a minimiser
  calls the objective at some points and reports as `fun` what it returned at `x`), `dev_reports` (the same for an objective that drives an engine), `solver_ok` (PICOS returns a matrix
  that meets the constraints, with the largest value). Each is shown satisfiable.

## 3. Files

Model files (`*Model.v`) follow the Python functions; `*Spec.v` files hold the
independent vocabulary of the statements; `*Proofs*.v` and `*Examples.v` the
proofs; `Props*.v` only the property theorems with `Print Assumptions` and the
`_case` examples.

| file | content |
|---|---|
| `Py.v` | results, exceptions, list helpers |
| `Scalar.v` | scalar rings with conjugation, finite sums, instances |
| `CodesModel.v`, `CodesSpec.v`, `CodesProofs*.v`, `PropsCodes*.v` | `codes.py`, binary part: C01, C02, C04, C06 to C12, C21 to C24, C27 |
| `StringsModel.v`, `StringsSpec.v`, `StringsProofs.v`, `PropsStrings.v` | the constructor on strings of any length and any k, with Python's slice and index rules: C27; letters and bits: C01, C02, C21 |
| `PauliModel.v`, `PauliSpec.v`, `Pauli*`, `Encoder*`, `Correct*`, `EighExists.v`, `PropsPauli.v` | Pauli matrices and the encoder: C03, C05, C13, C14 |
| `CircuitModel.v`, `Circuit*`, `PropsCircuits.v` | circuits of `codes.py`: C15 to C20, C25, C26 |
| `KrausModel.v`, `KrausSpec.v`, `KrausProofs*.v`, `PropsKraus.v` | `_kraus.py`: C28 to C43 |
| `ChannelModel.v`, `ChannelSpec.v` | `channel.py` except the optimisers |
| `ChoiModel.v`, `ChoiSpec.v`, `ChoiProofs*.v`, `PropsChoi.v` | `_choi.py`, entropies, fidelities: C44 to C49, C69, C70 |
| `ParamModel.v`, `ParamSpec.v`, `ParamProofs*.v`, `ParamExists.v`, `PropsParam.v`, `PropsParam2.v` | `param.py`: C50 to C54, C71, C90 |
| `EntropySpec.v`, `Subadd.v`, `CohProofs.v`, `CohProofs2.v`, `CohProofs3.v`, `CohProofs4.v`, `PropsEntropy.v` | `coherent_information` of `channel.py`: C84 to C86 |
| `ChanSpec.v`, `ChanProofs*.v`, `PropsChan.v` | accessors, products and Choi constructor of `channel.py`, `_kraus.py`, `_choi.py`: C87 to C89, C91 |
| `DependSpec.v`, `DependProofs.v`, `OddYProofs.v`, `PropsDepend.v` | dependent generators and odd numbers of Ys in `codes.py`: C92, C93 |
| `ConcatSpec.v`, `ConcatAbs.v`, `ConcatProofs2.v`, `PropsConcat.v` | concatenated codes: C22, C95 |
| `RegisterSpec.v`, `RegisterProofs.v`, `RegisterProofs2.v`, `AtomicProofs.v`, `PropsRegister.v` | registers of any qubits and calls that fail: C96, C97 |
| `SetterModel.v`, `SetterSpec.v`, `SetterProofs.v`, `PropsSetter.v` | assignments to the properties of Kraus objects: C98 |
| `RelativeReal.v`, `Relative.v`, `Processing.v`, `Processing2.v`, `ProcessingSpec.v`, `PropsProcessing.v` | the relative entropy does not grow under channels; the coherent information under processing: C99, C100 |
| `Degradable.v`, `PropsDegradable.v` | marginals and mixtures under processing; several uses and mixed inputs of channels whose output can imitate the environment: C101, C102 |
| `TextbookSpec.v`, `TextbookProofs.v`, `PropsTextbook.v` | syndromes and encoded states against textbook Pauli operators: C103, C104 |
| `EncodedSpec.v`, `EncodedProofs.v`, `PropsEncoded.v` | signs of the given generators on encoded states: C105; relabelling of inner products for C07 |
| `UnitalProofs.v` | the converse of C32: a power is trace preserving only if the list is |
| `WorkflowSpec.v`, `WorkflowProofs.v`, `PropsWorkflow.v` | the programs of the README, encode - logical operators - decode and the recovery loop: C106, C107 |
| `UnitalSpec.v`, `UnitalProofs2.v`, `PropsUnital.v` | channels that fix the identity, their entropies, the README's bit flip: C108 to C110 |
| `SameCodeSpec.v`, `SameCodeProofs.v`, `PropsSameCode.v` | the encoding circuit against the encoder matrix: C111 |
| `MeasureSpec.v`, `MeasureProofs.v`, `PropsMeasure.v` | measurements of arbitrary states and arbitrary errors: C112 to C114 |
| `NoCorrectSpec.v`, `NoCorrectProofs.v`, `PropsNoCorrect.v` | what the corrected errors do to encoded states: C115, C116 |
| `CsrModel.v`, `CsrSpec.v`, `CsrProofs.v`, `PropsSparse.v` | `sparse=True` in `codes.py`: C117 |
| `FidelitySpec.v`, `FidelityProofs.v`, `PropsFidelity.v` | what the two fidelities say about the channel: C118 to C121 |
| `RepoTests.v` | the repository's own unit tests with fixed data, run on the model: a check of the model, no property |
| `KnownSpec.v`, `KnownProofs.v` to `KnownProofs4.v`, `PropsKnown.v`, `PropsKnown2.v` | channels whose coherent information is known, some of which the test-suite samples: C122 to C126 |
| `OrthSpec.v`, `OrthProofs.v`, `PropsOrth.v` | the coherent information of an object with orthogonal_krauss: C127 |
| `PureFid.v`, `PropsPureFid.v` | fidelities of pure states under known channels, and what the optimisers can report: C128, C129 |
| `MixedCalc.v`, `DephSpec.v`, `DephMax.v`, `DephUseless.v`, `HashProofs.v`, `PropsDeph.v` | the best state for one use of the dephrasure channel, where the channel is useless, orthogonal unitaries: C130 to C132 |
| `PropsChoiKnown.v` | the same for channels given by a Choi matrix: C133 |
| `SparseBranchModel.v`, `PropsSparseBranch.v`, `PropsSparseBranch2.v`, `PropsSparseBranch3.v`, `PropsSparseBranch4.v` | `sparse=True` of `kraus_operators_correcting_errors` and `optimize_decoder_stabilizers`: C134, C135 |
| `AttrModel.v`, `PropsAttrs.v` | attributes and iteration of `StabilizerCode`: C136 |
| `OverCut.v`, `PropsOverCut.v` | `OverParam` on matrices with small eigenvalues: C137 |
| `MixSpec.v`, `MixProofs.v`, `PropsMix.v` | mixtures of channels without a flag: C138 |
| `KlSpec.v`, `KlProofs.v`, `KlCode.v`, `PropsKl.v` | channels on codes that correct their errors: C139 |
| `RoundSpec.v`, `RoundProofs.v`, `PropsRound.v` | eigenvalues with rounding errors: C140 |
| `SymSpec.v`, `SymProofs.v`, `PropsSym.v` | the channel to the environment, rotated inputs: C141, C142 |
| `GenSetSpec.v`, `GenSetProofs.v`, `PropsGenSet.v` | other generators of the same code: C143 |
| `TwirlSpec.v`, `TwirlProofs.v` to `TwirlProofs4.v`, `PropsTwirl.v` | the mean of the fidelity estimate over the random phases: C144 |
| `TwirlSpec2.v`, `PropsTwirl2.v` | the fidelity estimate against the analytic fidelity and for codes: C145, C146 |
| `TwirlSpec3.v`, `TwirlProofs5.v`, `PropsTwirl3.v` | the law of the fidelity estimate over many trials: C147 |
| `TwirlSpec4.v`, `TwirlProofs6.v`, `PropsTwirl4.v` | the fidelity estimate of noisy circuits: C148 |
| `TwirlSpec5.v`, `PropsTwirl5.v` | noisy circuits as analytic channels and inside codes: C149, C150 |
| `SharedModel.v`, `SharedSpec.v`, `SharedProofs.v`, `PropsShared.v` | which arrays channels and codes share with their caller: C151, C152 |
| `DistProofs.v`, `PropsDist.v` | distances of concatenated codes and of normal forms: C153, C154 |
| `PropsDist2.v`, `PropsDist3.v` | what concatenated codes correct: C155 |
| `BlockSpec.v`, `BlockProofs.v`, `PropsBlock.v` | the code space of a concatenated code: C156 |
| `UserOpsSpec.v`, `UserOpsProofs.v`, `UserOpsProofs2.v`, `PropsUserOps.v` | circuits of codes built with the caller's logical operators: C94 |
| `OptimModel.v`, `OptimSpec.v`, `OptimProofs*.v`, `PropsOptim.v`, `PropsOptim2.v` | `_optimize.py`, `_coherent.py`, the optimisers of `channel.py`: C55 to C60, C72 to C74, C81 to C83 |
| `DeviceModel.v`, `DeviceSpec.v`, `DeviceProofs*.v`, `PropsDevice.v` | `device_adaptor.py`, `QDeviceChannel` of `find_codes.py`: C61 to C64, C75 |
| `QecSpec.v`, `QecProofs.v`, `PropsQec.v` | encoding, syndrome measurements, correction and decoding together: C80 |
| `FindModel.v`, `FindSpec.v`, `FindProofs*.v`, `PropsFind.v` | `effective_channel_with_stabilizers` of `find_codes.py` (dense): C65, C66, C76 |
| `AvgFidModel.v`, `AvgFidSpec.v`, `AvgFidProofs*.v`, `AvgFidExample*.v`, `PropsAvgFid.v` | `avg_fidelity.py` (dense; PICOS and CVXOPT as a contract): C67, C68, C77 to C79 |
| `Spectral.v`, `SpectralProofs.v`, `SpectralExists.v`, `Sqrt.v`, `PowerSums.v`, `EntropyProofs.v` | spectral theorem, positive roots, entropies |

## 4. Plan per property

Properties say what a user relies on. Where the code violates one, the plan is a
`_refuted` theorem with a concrete witness plus the strongest true guarded
statement, named `_partial`.

| id | modelled by | proof |
|---|---|---|
| C01, C02 | string/binary converters with all error branches | induction on strings and positions |
| C03, C05 | matrices built by iterated Kronecker products | closed form of entries, then signs |
| C04 | `inner_prod` on Z rows | list algebra mod 2 |
| C06 | constructor as a function to `res` | case analysis, double loop as a forall |
| C07 | both elimination loops | invariant: same span up to a permutation, preserved by each elementary step |
| C08 | same | invariant: first j columns reduced; pivots exist by rank and commutation |
| C09 | same | refuted: real rank differs from GF(2) rank; guarded version from C08 |
| C10, C12 | blocks and `hstack` | block algebra mod 2, elimination of a commuting vector |
| C11 | same | refuted when a column swap occurred; holds when none did |
| C13 | eigh as a contract oracle | induction on generators; trace of the projector for the dimension |
| C14 | tolerance test with real modulus | first-anticommuting search |
| C15 to C17 | circuits as gate lists acting on amplitude functions | state after each block in closed form |
| C18, C19 | ancilla circuit plus measurement probabilities | two-branch state |
| C20, C25, C26 | same circuits with Python failures as values | refutations plus guarded versions |
| C21 | attribute lookup failure as `Err AttributeError` | by evaluation of the loop's first iteration |
| C22 to C24 | both branches of `concatenate_codes` | counting, symplectic products of blocks; refutations |
| C27 | constructor on strings of any length | refuted; guarded version; the general constructor agrees with the one of the other theorems |
| C28 to C30 | object state, update transition | induction over call histories |
| C31 to C36 | index sums as in the einsum/tensordot strings | finite-sum algebra, PSD as a quadratic form |
| C37 | block slicing loop | refuted; exact condition |
| C38 to C41 | concatenations with metadata | index algebra |
| C42 | tolerance test | unfolding against an independent statement |
| C43 | einsum strings as written | refuted; guarded version |
| C44 to C48 | Choi indexing as in qutip's partial trace | index algebra |
| C49 | attribute lookup | refuted |
| C50 to C54, C71 | vectors as lists of reals, loops with counters | loop invariants; PSD of a a^dagger; spectral counting of non-zero eigenvalues; uniqueness of the Cholesky factor |
| C55, C56 | sampling loop over a stream | loop invariant |
| C57 to C60, C72, C73 | optimiser glue with scipy as oracle | case analysis, induction over results |
| C74 | the sampler over a stream of draws | invariant of the sampler; entropies of diagonal states |
| C61 to C63 | device loops with a stream of random choices | gate-by-gate cancellation |
| C75 | one trial of the estimate, as a run with given outcomes | inner products are kept by the design; projection onto the outcome |
| C84 | bounds on the coherent information | Klein's inequality from the spectral theorem gives subadditivity; a purification of the input turns it into the triangle inequalities between the entropies of output, reference and environment; the cut is estimated by -x log x <= 34e-10 below 1e-10 |
| C85 | independence of the Kraus operators | everything computed is determined by sum_A A_ai conj(A_bj), which the map determines and which factorises over tensor powers |
| C86 | additivity on product states | spectra of Kronecker products; the channel and the exchange matrix of a product factorise |
| C87, C88 | accessors and products on the object after a history | state invariant of the update; index algebra |
| C89 | Choi constructor with `istp`, `iscp` as contracts | Choi's theorem from positive square roots: rows of the root are Kraus operators |
| C90 | `bounds` of the three parameterisations | Cauchy-Schwarz on density matrices; factor of a given width from the spectral theorem, scaled into the box; unitary completion makes it lower triangular |
| C91 | Choi channel with unequal numbers | index algebra; refuted |
| C92 | constructor and encoder, dependent generators | projector trace: the trace of a product of generators is 0 or +-2^n; refuted |
| C93 | encoder with `eigh` reading the lower triangle | lower triangle of a skew Pauli matrix is that of a Hermitian one with one letter exchanged; refuted |
| C94 | constructor and circuits with supplied logical operators | execution of the circuits for arbitrary bit matrices, compared with the computed operators; refuted |
| C95 | the branch l >= 2 of `concatenate_codes` | invariant of the loop over letters; symplectic products for any placement of qubits in blocks; refuted |
| C96 | the five circuit methods on a register | relational proof that commands are renamed; induction over commands for the joint state; refuted for the syndrome measurement |
| C97 | the same | induction over letters with the point of failure; refuted |
| C98 | property setters of Kraus objects | induction over histories of updates and assignments; refuted |
| C99 | `coherent_information`, `__add__` | monotonicity of the relative entropy (variational form of its derivative, Schwarz inequality for channels), induction over n |
| C100 | `coherent_information`, `entropy_exchange` | C99's inequality for the channel to the environment |
| C101 | `coherent_information` | monotonicity of the relative entropy to the product of the marginals, induction over n |
| C102 | `coherent_information` | monotonicity of the relative entropies to the mixture |
| C103 | `single_syndrome_measurement` | controlled strings act as (v + (-1)^b (-i)^y S v)/2; powers of -i |
| C104 | `encoding_circuit` | C15's fixed rows times i^y; the amplitudes are real, so odd strings have expectation 0 |
| C105 | `encoding_circuit` | induction over sums of rows, collecting the signs z . x of the products |
| C106 | README loop over `single_syndrome_measurement`, `apply_stabilizer_circuit` | induction over the rows; each row has the corrupted state as an eigenvector (C18); anticommuting row gives orthogonality |
| C107 | `encoding_circuit`, `logical_circuit`, `decoding_circuit` | induction over the operators, carrying a superposition of messages through C16 and the bare Paulis side by side; then C17 |
| C108 | `channel` on I | the image of I is multiplicative over tensor products; its entries at repeated digits are n-th powers, so the n-fold image is I only if the single one is |
| C109 | `channel`, `entropy` | data processing of the relative entropy with respect to I (Relative.v); conversely only the maximally mixed state has entropy log D |
| C110 | `AnalyticQChan.__init__` on the README's operators | the (0,0) entry of sum K^dagger K is off by 2 p (1-p); with square roots C31 and C108 apply |
| C111 | `encoding_circuit` run on the zero state, the columns of `encode_krauss_operators` | the generators act on the encoded states by signs (C105); independent rows admit a Pauli operator with these symplectic products (elimination); the image lies in the columns (C13) and an isometry between spaces of equal dimension is onto |
| C112 to C114 | `single_syndrome_measurement` on arbitrary states, a round of measurements, `apply_stabilizer_circuit` and `decoding_circuit` | the circuit computed on an arbitrary state; a 2x2 matrix is a combination of four Pauli operators and a product of these a combination of rows supported on its qubits (induction); linearity of the round, then C80 term by term |
| C115, C116 | `kraus_operators_correcting_errors` and `effective_channel_with_stabilizers` followed on the columns of `encode_krauss_operators` | a generator commutes with a Pauli up to a sign and fixes the columns, so the correction cancels; Kronecker products of Paulis are Paulis; C85 for the coherent information; for arbitrary errors the triangle inequality with the tolerance 1e-5 |
| C117 | csr matrices as lists of stored entries, `kron` on them, both functions with `sparse=True` | induction on the qubits: the Kronecker product of two representations represents the product and keeps one entry a row |
| C118 | as C70 | polar decomposition: the fidelity is tr(U sqrt(sigma) sqrt(rho)), so Cauchy-Schwarz with its equality case; roots are unique |
| C119 | as C70 | the root of a Kronecker product is the product of the roots; induction on the factors |
| C120 | as C44, C70 | in the eigenbasis of the outer root, Minkowski's inequality over the Kraus operators |
| C121 | as C44 | tr(K rho K^dagger) - abs(tr K rho)^2 is the squared norm of (K - tr(K rho)) sqrt(rho); a sum of such terms vanishes only if each does |
| C122 | as C32 | both matrices of the flagged channel are direct sums, whose entropy is the mean of the entropies plus h(q) |
| C123 | as C32 | C122 with the identity and the channel that loses everything; the environment of erasure q is erasure 1-q, so C101 bounds n uses if q <= 1/2 and C100 otherwise |
| C124 | as C32 | two rank-one operations make the environment out of the output, so C101; turning rho over and changing signs changes no entropy, and by concavity (C102) the mean of the four states does best |
| C125 | as C32 | damping twice is damping, so output and environment imitate one another; changing the sign of the off-diagonal entries changes no entropy, so C102 |
| C126 | as C32 | traces of powers of both matrices, expanded over words of the two corner vectors, are those of a direct sum of small matrices; power sums determine the entropy |
| C127 | as C37 | false; for halves the exchange matrix of n uses is the direct sum of the two blocks, so its eigenvalues are those of the blocks together |
| C128 | as C70 | the squared fidelity of a pure state is the sum of the squared expectation values of the Kraus operators; the first one is diagonal with entries at least sqrt(1-p); C119 for copies |
| C129 | as C57 | C57 and C72 with the bounds of C123 to C125 and C128; a state of rank 1 is pure |
| C130 | as C126 | the output and the exchange matrix of a qubit have 2x2 blocks, so the value is a function of two Bloch coordinates; it falls along one by the sign of a derivative and along the other by an inequality between logarithms (`MixedCalc.v`) |
| C131 | as C126 | explicit Kraus operators that turn the environment's state into the receiver's; then C101 for n uses |
| C132 | as C122 | output and exchange matrix of the mixed state are diagonal; C119 for copies |
| C133 | as C47 and C118 | a Kraus object with the same dimensions is built; C47, C85 and C118 carry the values over |
| C134 | csr products, sums and the truth value of a csr matrix | the first generator is a 2^n x 2^n matrix by C117, so its truth value does not exist; with the entrywise test instead, the sums over stored entries are the dense products and sums (`C134_test_partial`) |
| C135 | the sparse operators and the outer product of sparse columns | the shapes: a column with more than one row has no product with itself; before that, products of stored entries are the dense products (`C135_operators_partial`); the position of each entry in the column by division with remainder (`C135_columns_partial`) |
| C136 | the constructor of C06 with the attributes it sets | inversion of the constructor; C01, C02 and C07 |
| C137 | as C52 | the factor is the spectral form with the kept eigenvalues; the largest is above 1e-5; entries of a positive matrix are bounded by its trace |
| C138 | as C122 | the mixture is the flagged mixture with the flag dropped; C122 and the data processing inequality of C99 |
| C139 | as C13 and C122 | the environment's matrix does not depend on the state, so it is made from nothing, and the data processing inequality bounds the coherent information from below; the channel itself processes the identity, which bounds it from above; small Paulis are stabilizers or detected, sums by bilinearity |
| C140 | as C47, with eigvalsh returning the eigenvalues up to eps | each eigenvalue's term moves by at most 2 * 3.4e-9: small ones by monotonicity of -x log x, others by ln(1+t) <= t; then induction on the list |
| C141 | as C35 | output and exchange matrix of the channel to the environment are those of the channel with the roles exchanged, n uses by induction |
| C142 | as C38 | the exchange matrix of A V on rho is that of A on V rho V^dagger; tensor powers of products are products of tensor powers |
| C143 | as C13, and the textbook's Pauli matrices as tensor products of I, X, Y, Z | the library's matrix is a power of -i times the textbook's; products of matrices fix what the factors fix; two isometries onto the fixed vectors have the same projector |
| C144 | as C61 and C75; the mean over independent uniform draws as a nested sum; Nielsen's formula for the average fidelity | the mean of a product of phases is 1 when the strings of bits agree in pairs and 0 otherwise; this gives the fourth moments of the amplitudes after a round from the second moments of the probabilities before it, which obey a linear recursion with an explicit solution |
| C145, C146 | C144 with `average_entanglement_fidelity` of a Choi channel, and with the circuit encoder, channel, decoder | the trace of U from the entanglement fidelity of the maximally mixed state; the trace does not change under conjugation |
| C147 | the trials of C144 one after the other, each with new random numbers and outcomes | each trial leaves the engine ready for the next with the qubits at the same positions, so all have the same mean; outcomes that are all 1 where possible show that a trial can fail unless it counts surely; induction on the trials gives independent coin flips, then the variance and Chebyshev's inequality |
| C148 | a circuit that draws a number and runs that one of several circuits, inside the trials of C147 | a trial with number i drawn is a trial of circuit i; expectation and fidelity are both linear in the distribution, so C144 carries over, and the coin flips of C147 use only the mean of a trial |
| C149 | the model of C148 and the fidelity of `ChannelModel.v` | both fidelities are written with sum_i q[i] abs(tr U[i])^2; the bit-flip channel refutes the claim for Kraus operators |
| C150 | the noisy circuit between encoder and decoder | an encoder that draws no number can be moved behind the draw, so the whole is again a noisy circuit; the trace does not change under conjugation |
| C151 | a heap of arrays with addresses; the constructor either keeps the caller's address or allocates; update_kraus_operators either allocates or makes both fields the same address | simulation: seen through the heap every history is a history of assignments of C98; induction on the history with the invariant which of the two fields is the caller's array |
| C152 | the same heap for the three arrays of a code | the constructor depends on logical_ops only through the last two fields |
| C153 | `concatenate_codes` as in C22; distance as in C80 | an operator that commutes with all rows acts on each block as an inner stabilizer times a logical operator, read off from its inner products with the two logical operators; these form an operator on the outer code, of weight at most the number of blocks in which at least d2 qubits are touched; double commutant over GF(2) |
| C154 | the constructor as in C07 | weight and commutation do not change under the qubit permutation of C07 |
| C155 | as C153, C113 and C139 | C153 and C154 give the distance of the rows the circuits use; the parity of the number of Ys is computed block by block: in an encoded row it is the parity of the outer row because the two logical operators anticommute |
| C156 | `concatenate_codes`, `encoding_circuit`, `binary_rep_to_pauli_mat`; encoding every qubit defined on amplitudes | a Pauli operator on n blocks acts on a product of block states factor by factor (induction on the blocks); if in each block it acts as X^a Z^b, it acts on the encoded state as that operator on the outer qubits, after reindexing the sum |
| C81 to C83 | the optimisation procedure | case analysis on the options; starting points and scipy's run as existential witnesses |
| C80 | composition of the circuits | a product of stabilizers acts as a sign (induction on the combination); the measurements by induction on the rows |
| C64 to C66, C76 | call structure | evaluation; composition of earlier results |
| C67, C68, C78, C79 | the programme handed to PICOS as data | index algebra; refutations |
| C77 | feasible set of the programme, a solver as contract | Choi matrices and partial traces; Bessel's inequality for the bound; the repetition code worked out |
| C69, C70 | entropy/fidelity formulas over R | concavity of log; pure-state algebra |

## 5. Coverage of the code

Function by function; L numbers are in the comments of the model files.

| file | modelled | not modelled |
|---|---|---|
| `codes.py` | every method of `StabilizerCode`: constructor (list, tuple and array input, `logical_ops`), both eliminations, `logical_operators`, `normalizer`, `undetectable_errors`, `concatenate_codes` (both branches), `inner_prod`, the converters, `encode_krauss_operators`, `kraus_operators_correcting_errors`, `encoding_circuit`, `decoding_circuit`, `logical_circuit`, `apply_stabilizer_circuit`, `single_syndrome_measurement` | class `QCode` (abstract, no code); sparse arrays other than csr in `kraus_operators_correcting_errors` (csr: `CsrModel.v`, `SparseBranchModel.v`) |
| `chan/_kraus.py` | `Kraus`, `DenseKraus` and `SparseKraus`: constructor and its checks, `update_kraus_operators`, `channel` (one matrix and a batch), `entropy_exchange` with the orthogonal blocks and `adjoint`, `is_trace_perserving`, `average_entanglement_fidelity`, `serial_concatenate`, `parallel_concatenate`, `+`, `*`, the accessors and setters | values assigned that are not three-dimensional arrays; the container formats of `sparse.COO` |
| `chan/_choi.py` | `ChoiQutip`: constructor, `channel`, `complementary_channel`, `average_entanglement_fidelity`, `kraus_operators`, `constraint_partial_trace` | qutip itself (`istp`, `iscp`: contracts; `ptrace`: definition on the flat list of dimensions) |
| `chan/channel.py` | `AnalyticQChan`: constructor, all accessors, `+`, `*`, `channel`, `entropy_exchange`, `entropy`, `coherent_information`, `fidelity_two_states`, `average_entanglement_fidelity`, `optimize_coherent`, `optimize_fidelity` | nothing known |
| `chan/param.py` | `StandardBasis`, `OverParam`, `CholeskyParam`: all methods | random generators (arguments returning lists of the length asked for) |
| `chan/_coherent.py`, `_optimize.py` | objectives, `_get_parameterization_scheme_density`, sampling, SLSQP with and without a pool, differential evolution, `optimize_procedure`, the callback | the numerical minimisers (`scipy_ok`); process scheduling of the pool (`map` in order) |
| `find_codes.py` | `effective_channel_with_stabilizers` (dense), `QDeviceChannel` | `effective_coherent_info` and `_optimization_coherent_information_parameters` have the body `pass`; `sparse=True` |
| `avgfid/avg_fidelity.py` | `optimize_decoder`, `optimize_decoder_stabilizers`, `_optimize_average_entang_fid`, each also with `sparse=True` | PICOS and CVXOPT (`solver_ok`) |
| `device_adaptor.py` | `ProjectQDeviceAdaptor`: all methods | abstract base class; the ProjectQ compiler and back ends |

Not expressible here: floating-point rounding error (apart from errors in the
eigenvalues, which C140 bounds), run time, and the quality
of the numerical optimisers. No property above is about them.

## 6. Wrong programs

`seeded/LOG.jsonl` has one line for each edit of the model that was tried. `failed` lists the lemmas that stopped
compiling, `theorems_failed` the theorems of `Props*.v` that depend on them. The search stops at the first such theorem.
A failed proof shows that the proof uses the edited part; it does not by itself show that the statement became false, since a
script can break although what it proves is still true. Where this was noticed a `note` says so and the edit is not
counted as a test (for example the edits of `csr_dot`, `error_channel_sparse` and `encoded_operators_sparse` that still end in
the same exception). Seven older lines whose first failure was a lemma about lengths or shapes were run again without it, and three of them had named the wrong theorems; the other older lines were not checked again for this. In lines written before the last revision
the scan also credited the theorem in front of a `Print Assumptions` command; those names (705 in 313 lines) have been taken out. Edits that survived are listed with the theorem added
because of them in `tightened`.
