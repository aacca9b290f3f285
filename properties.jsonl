{"id": "C01", "title": "Pauli strings survive the trip through the binary representation", "statement": "For every non-empty list of equal-length strings over I,X,Y,Z, pauli_str_to_binary_representation succeeds, and binary_rep_to_pauli_str of its i-th row is the i-th string.", "quantifier": "all lists of strings, all lengths, all letters", "why_tests_cant": "unbounded number and length of strings", "anchors": ["PyQCodes/codes.py:StabilizerCode.pauli_str_to_binary_representation", "PyQCodes/codes.py:StabilizerCode.binary_rep_to_pauli_str"]}
{"id": "C02", "title": "Binary rows survive the trip through Pauli strings; malformed input is rejected exactly where the code checks", "statement": "For every non-empty 0/1 matrix with an even number of columns, converting each row to a Pauli string and back gives the same matrix. A list of strings is converted iff every string is at least as long as the first and its first len(paulis[0]) letters are in IXYZ; a bad letter gives ValueError, a short string IndexError.", "quantifier": "all 0/1 matrices; all lists of strings", "why_tests_cant": "unbounded sizes and every malformed position", "anchors": ["PyQCodes/codes.py:StabilizerCode.pauli_str_to_binary_representation", "PyQCodes/codes.py:StabilizerCode.binary_rep_to_pauli_str"]}
{"id": "C03", "title": "inner_prod decides commutation of the Pauli matrices", "statement": "For every n and all 0/1 rows a,b of length 2n, inner_prod(a,b) is 0 or 1, and the matrices binary_rep_to_pauli_mat builds satisfy P(a)P(b) = (-1)^inner_prod(a,b) P(b)P(a). Hence they commute exactly when inner_prod is 0 and anticommute exactly when it is 1.", "quantifier": "all numbers of qubits, all pairs of binary rows", "why_tests_cant": "matrices are 2^n by 2^n, all n", "anchors": ["PyQCodes/codes.py:StabilizerCode.inner_prod", "PyQCodes/codes.py:StabilizerCode.binary_rep_to_pauli_mat", "PyQCodes/codes.py:StabilizerCode.index_to_qubit_pauli"]}
{"id": "C04", "title": "inner_prod is a symplectic form", "statement": "inner_prod is symmetric, is 0 on (a,a), and inner_prod(a+b mod 2, c) = inner_prod(a,c)+inner_prod(b,c) mod 2, so commutation with a set of generators is commutation with everything they generate.", "quantifier": "all lengths, all binary rows", "why_tests_cant": "unbounded length", "anchors": ["PyQCodes/codes.py:StabilizerCode.inner_prod"]}
{"id": "C05", "title": "Pauli matrices multiply like binary rows, and square to the sign given by the number of Ys", "statement": "P(a)P(b) = +/-P(a+b mod 2) with sign (-1)^(z_a . x_b), every P(a) is unitary, and P(a)^2 = (-1)^(number of Y letters) I; so a generator is Hermitian iff it has an even number of Ys.", "quantifier": "all n, all binary rows", "why_tests_cant": "2^n by 2^n matrices for all n", "anchors": ["PyQCodes/codes.py:X, Y, Z, I constants", "PyQCodes/codes.py:StabilizerCode.binary_rep_to_pauli_mat"]}
{"id": "C06", "title": "The constructor rejects non-commuting generators and mis-shaped arrays", "statement": "StabilizerCode(rows, n, k) on an array raises AssertionError if the shape is not (n-k, 2n) or if two rows anticommute; whenever it returns an object, all pairs of its generators commute as matrices.", "quantifier": "all arrays, all n, k", "why_tests_cant": "all inputs, any pair of rows may be the bad one", "anchors": ["PyQCodes/codes.py:StabilizerCode.__init__", "PyQCodes/codes.py:StabilizerCode._is_stabilizer_code"]}
{"id": "C07", "title": "The normal form is the same code up to relabelling the qubits", "statement": "For every array of 0/1 generators, one permutation of the qubits (applied to X and Z halves alike) maps the row space of the given generators onto the row space of normal_form; all inner products between rows are carried over, so normal_form is again a commuting set.", "quantifier": "all 0/1 arrays of shape (m, 2n), all n, m", "why_tests_cant": "loop invariant over data-dependent swaps", "anchors": ["PyQCodes/codes.py:StabilizerCode._gaussian_elimination_first_block", "PyQCodes/codes.py:StabilizerCode._gaussian_elimination_second_block"]}
{"id": "C08", "title": "The normal form has the documented block shape", "statement": "If the generators are commuting and independent over GF(2) and matrix_rank of the X block agrees with its GF(2) rank r, then normal_form is [[I A1 A2|B C1 C2],[0 0 0|D I E]] with an r by r and an (n-k-r) identity, entry by entry.", "quantifier": "all independent commuting generator sets satisfying the rank condition", "why_tests_cant": "pivot search must succeed at every step for all inputs", "anchors": ["PyQCodes/codes.py:StabilizerCode._standard_normal_form", "PyQCodes/codes.py:StabilizerCode._gaussian_elimination_first_block", "PyQCodes/codes.py:StabilizerCode._gaussian_elimination_second_block"]}
{"id": "C09", "title": "Every valid generator set yields a code", "statement": "StabilizerCode(rows, n, k) succeeds for every array of n-k commuting rows independent over GF(2).", "quantifier": "all independent commuting generator sets", "why_tests_cant": "a counterexample needs real rank and GF(2) rank to differ; samples do not show it", "anchors": ["PyQCodes/codes.py:StabilizerCode.__init__", "PyQCodes/codes.py:StabilizerCode._gaussian_elimination_first_block", "PyQCodes/codes.py:StabilizerCode._matrix_blocks_standard_form"]}
{"id": "C10", "title": "Logical operators obey the Pauli relations with the normal form", "statement": "When the constructor derives the logical operators itself for a set as in C08, logical_x[i] and logical_z[j] commute with every row yielded by iterating over the code, logical_x[i] anticommutes with logical_z[i] and commutes with logical_z[j] for j<>i, and X's commute with X's, Z's with Z's.", "quantifier": "all codes, all i, j < k, all generators", "why_tests_cant": "block identity over all ranks and sizes", "anchors": ["PyQCodes/codes.py:StabilizerCode.logical_operators", "PyQCodes/codes.py:StabilizerCode._matrix_blocks_standard_form", "PyQCodes/codes.py:StabilizerCode.__iter__"]}
{"id": "C11", "title": "Logical operators commute with the generators the user supplied", "statement": "logical_x[i] and logical_z[i] commute with every row of stab_bin_rep.", "quantifier": "all codes", "why_tests_cant": "depends on whether a column swap happened", "anchors": ["PyQCodes/codes.py:StabilizerCode.logical_operators", "PyQCodes/codes.py:StabilizerCode.stab_bin_rep"]}
{"id": "C12", "title": "Stabilizers and logical operators generate the whole normaliser", "statement": "For a code as in C08, every Pauli that commutes with all rows of normal_form is a GF(2) combination of rows of normal_form, logical_x and logical_z; and no non-trivial combination of logical operators lies in the row space of normal_form.", "quantifier": "all codes, all 4^n Paulis", "why_tests_cant": "exponentially many Paulis for every n", "anchors": ["PyQCodes/codes.py:StabilizerCode.logical_operators", "PyQCodes/codes.py:StabilizerCode.normalizer"]}
{"id": "C13", "title": "encode_krauss_operators returns an isometry onto the code space", "statement": "For commuting generators with an even number of Ys each and any eigh meeting its contract, the returned E satisfies E^dagger E = I, S E = E for each generator matrix S, and every vector fixed by all generators is E E^dagger times itself; if the generators are independent, E has exactly 2^k columns.", "quantifier": "all codes, all n, every admissible outcome of eigh", "why_tests_cant": "eigh may return any orthonormal basis of degenerate eigenspaces", "anchors": ["PyQCodes/codes.py:StabilizerCode.encode_krauss_operators"]}
{"id": "C14", "title": "Error-correcting Kraus operators: first anticommuting generator, trace preserved", "statement": "kraus_operators_correcting_errors returns one operator per error, in order: for an error c*P(b) with |c| >= 1e-5 it is P(s)*error with s the first generator that anticommutes with b, or the error itself if none does; for any errors, sum K^dagger K is unchanged.", "quantifier": "all codes, all lists of errors", "why_tests_cant": "all n and all error lists", "anchors": ["PyQCodes/codes.py:StabilizerCode.kraus_operators_correcting_errors"]}
{"id": "C15", "title": "The encoding circuit prepares code states", "statement": "For a code as in C08 whose generators have an even number of Ys, running encoding_circuit on |0..0> for any k-bit state gives a unit vector fixed by every row matrix of normal_form; different states give orthogonal vectors.", "quantifier": "all codes, all k-bit states", "why_tests_cant": "2^n amplitudes for all n", "anchors": ["PyQCodes/codes.py:StabilizerCode.encoding_circuit"]}
{"id": "C16", "title": "logical_circuit acts on encoded states as the named Pauli", "statement": "For a code as in C08 and i < min(k,10): 'Xi' maps the encoding of s to the encoding of s with bit i flipped, 'Zi' multiplies it by (-1)^s_i, and 'Yi' equals 'Zi' followed by 'Xi'.", "quantifier": "all codes, states and indices", "why_tests_cant": "2^n amplitudes for all n", "anchors": ["PyQCodes/codes.py:StabilizerCode.logical_circuit"]}
{"id": "C17", "title": "Decoding after encoding returns the message in the ancillas", "statement": "For a code as in C08, decoding_circuit run on encode(s) tensor |0^k> yields encode(0) tensor |s>, exactly, and by linearity on superpositions.", "quantifier": "all codes, all states", "why_tests_cant": "2^(n+k) amplitudes for all n, k", "anchors": ["PyQCodes/codes.py:StabilizerCode.decoding_circuit", "PyQCodes/codes.py:StabilizerCode.encoding_circuit"]}
{"id": "C18", "title": "Syndrome measurement reports the stabilizer eigenvalue", "statement": "With a fresh (or |0>) ancilla, single_syndrome_measurement of generator S on a state v with S v = v returns 0 with certainty, with S v = -v returns 1 with certainty, and leaves v unchanged; in particular on P(e) applied to a code state it returns inner_prod(S, e).", "quantifier": "all n, all states, all Pauli errors", "why_tests_cant": "all states and errors", "anchors": ["PyQCodes/codes.py:StabilizerCode.single_syndrome_measurement"]}
{"id": "C19", "title": "Syndrome measurement needs the ancilla to be reset", "statement": "On a register of n+1 qubits the last qubit is used as ancilla without reset: if it holds |1> the reported bit is flipped. Any number of active qubits other than n, n+1 raises TypeError and leaves the state alone.", "quantifier": "all n, states, ancilla values", "why_tests_cant": "history of earlier measurements", "anchors": ["PyQCodes/codes.py:StabilizerCode.single_syndrome_measurement"]}
{"id": "C20", "title": "apply_stabilizer_circuit applies the Pauli to the register", "statement": "For a binary row it applies P(row) up to the global phase i^(number of Ys); for a string, as in the documented example, it does the same.", "quantifier": "all rows, strings and states", "why_tests_cant": "all inputs", "anchors": ["PyQCodes/codes.py:StabilizerCode.apply_stabilizer_circuit"]}
{"id": "C21", "title": "normalizer and undetectable_errors return N(S)-S", "statement": "normalizer() returns the binary rows commuting with all generators that are not in the group, undetectable_errors() the corresponding strings.", "quantifier": "all codes", "why_tests_cant": "all codes", "anchors": ["PyQCodes/codes.py:StabilizerCode.normalizer", "PyQCodes/codes.py:StabilizerCode.undetectable_errors"]}
{"id": "C22", "title": "Concatenation with an l=1 inner code gives a commuting generator set of the right size", "statement": "For stab1=[n,k], stab2=[m,1], concatenate_codes hands nm-k rows of length 2nm to the constructor, and they pairwise commute provided stab2's logical operators commute with stab2's generators and have the form X-only / Z-only.", "quantifier": "all pairs of codes", "why_tests_cant": "all sizes", "anchors": ["PyQCodes/codes.py:StabilizerCode.concatenate_codes"]}
{"id": "C23", "title": "Incompatible codes are refused by concatenate_codes", "statement": "If l does not divide n, concatenate_codes raises ValueError as documented.", "quantifier": "all pairs of codes with l not dividing n", "why_tests_cant": "all pairs", "anchors": ["PyQCodes/codes.py:StabilizerCode.concatenate_codes"]}
{"id": "C24", "title": "Concatenation uses the full logical operators", "statement": "concatenate_codes succeeds whenever both codes are valid and l divides n.", "quantifier": "all pairs of codes", "why_tests_cant": "needs inner logical X with Z part, or l>1 with n<>m", "anchors": ["PyQCodes/codes.py:StabilizerCode.concatenate_codes"]}
{"id": "C25", "title": "decoding_circuit returns each qubit once", "statement": "Without deallocation decoding_circuit returns a list of the n+k distinct qubits; it never fails for want of ancillas when called as in the README.", "quantifier": "all codes, both flags", "why_tests_cant": "all flag combinations and codes", "anchors": ["PyQCodes/codes.py:StabilizerCode.decoding_circuit"]}
{"id": "C26", "title": "Every logical operator can be addressed", "statement": "logical_circuit accepts 'Xi','Yi','Zi' for every i from 0 to k-1.", "quantifier": "all k, i < k", "why_tests_cant": "k above ten is rare in tests", "anchors": ["PyQCodes/codes.py:StabilizerCode.logical_circuit"]}
{"id": "C27", "title": "String generators are checked against n and k like arrays", "statement": "StabilizerCode(strings, n, k) raises AssertionError unless there are n-k strings of length n.", "quantifier": "all lists of strings, n, k", "why_tests_cant": "all mismatches", "anchors": ["PyQCodes/codes.py:StabilizerCode.__init__"]}
{"id": "C28", "title": "update_kraus_operators is history independent (dense)", "statement": "After any sequence of update_kraus_operators(n_i) calls with n_i >= 1, nth_kraus_ops is the n-fold Kronecker power of the original operators for the last n, and the exchange tensor is the one of those operators.", "quantifier": "all Kraus lists, all call histories", "why_tests_cant": "all histories", "anchors": ["PyQCodes/chan/_kraus.py:Kraus.update_kraus_operators", "PyQCodes/chan/_kraus.py:DenseKraus._tensor_kraus_operators", "PyQCodes/chan/_kraus.py:DenseKraus._kraus_operators_exchange"]}
{"id": "C29", "title": "update_kraus_operators is history independent (sparse)", "statement": "The same for SparseKraus, including its cached conjugates; channel afterwards equals the dense channel.", "quantifier": "all Kraus lists, all call histories", "why_tests_cant": "needs a decrease back to 1 in the history", "anchors": ["PyQCodes/chan/_kraus.py:Kraus.update_kraus_operators", "PyQCodes/chan/_kraus.py:SparseKraus._tensor_kraus_operators"]}
{"id": "C30", "title": "AnalyticQChan results depend only on the arguments", "statement": "For a dense Kraus channel, channel(rho, n), entropy_exchange(rho, n) return the same value whatever calls with other n came before.", "quantifier": "all histories of channel/entropy_exchange/optimize calls", "why_tests_cant": "all interleavings", "anchors": ["PyQCodes/chan/channel.py:AnalyticQChan.channel", "PyQCodes/chan/channel.py:AnalyticQChan.entropy_exchange", "PyQCodes/chan/channel.py:AnalyticQChan._update_channel_tensored"]}
{"id": "C31", "title": "channel is a quantum channel", "statement": "For trace-preserving Kraus operators channel(rho) = sum K rho K^dagger preserves trace, Hermiticity and positive semidefiniteness, for every n.", "quantifier": "all Kraus lists, all rho, all n", "why_tests_cant": "all matrices", "anchors": ["PyQCodes/chan/_kraus.py:DenseKraus.channel", "PyQCodes/chan/_kraus.py:SparseKraus.channel"]}
{"id": "C32", "title": "adjoint=True is the Hilbert-Schmidt adjoint", "statement": "Tr(A channel(rho)) = Tr(channel(A, adjoint) rho) for all A, rho; the adjoint is unital iff the Kraus operators are trace-preserving.", "quantifier": "all Kraus lists and matrices", "why_tests_cant": "all matrices", "anchors": ["PyQCodes/chan/_kraus.py:DenseKraus.channel", "PyQCodes/chan/_kraus.py:SparseKraus.channel"]}
{"id": "C33", "title": "The n-fold channel acts factorwise", "statement": "channel(rho_1 x .. x rho_n, n) = channel(rho_1,1) x .. x channel(rho_n,1).", "quantifier": "all n, Kraus lists, product states", "why_tests_cant": "all n", "anchors": ["PyQCodes/chan/_kraus.py:Kraus.update_kraus_operators", "PyQCodes/chan/channel.py:AnalyticQChan.channel"]}
{"id": "C34", "title": "Batched channel equals one-at-a-time", "statement": "For a three-dimensional rho, channel returns the stack of channel(rho[l]).", "quantifier": "all batches", "why_tests_cant": "all shapes", "anchors": ["PyQCodes/chan/_kraus.py:DenseKraus.channel"]}
{"id": "C35", "title": "entropy_exchange is the documented matrix and is a density matrix", "statement": "Without orthogonal_kraus the single returned matrix has entries Tr(K_i rho K_j^dagger); it is Hermitian, positive semidefinite and has trace Tr(rho); dense and sparse agree.", "quantifier": "all Kraus lists and rho", "why_tests_cant": "all matrices", "anchors": ["PyQCodes/chan/_kraus.py:DenseKraus.entropy_exchange", "PyQCodes/chan/_kraus.py:SparseKraus.entropy_exchange"]}
{"id": "C36", "title": "Adjoint of the complementary channel", "statement": "Tr(A W(rho)) = Tr(entropy_exchange(A, adjoint) rho), and it maps I to I for trace-preserving operators.", "quantifier": "all Kraus lists and matrices", "why_tests_cant": "all matrices", "anchors": ["PyQCodes/chan/_kraus.py:DenseKraus.entropy_exchange", "PyQCodes/chan/_kraus.py:SparseKraus.entropy_exchange"]}
{"id": "C37", "title": "orthogonal_kraus splits W into its diagonal blocks", "statement": "With orthogonal_kraus=[i_1,..,i_s], entropy_exchange returns the s+1 consecutive diagonal blocks of W, so their traces add up to Tr(rho).", "quantifier": "all Kraus lists, all split lists", "why_tests_cant": "only one even split is tested", "anchors": ["PyQCodes/chan/_kraus.py:DenseKraus.entropy_exchange"]}
{"id": "C38", "title": "Serial concatenation is composition", "statement": "The Kraus list of A + B gives the channel rho -> A(B(rho)), is trace-preserving if both are, has numb_kraus(A)*numb_kraus(B) operators, and mismatched dimensions raise TypeError; the result object accepts inputs of B's dimension.", "quantifier": "all pairs of channels", "why_tests_cant": "all sizes", "anchors": ["PyQCodes/chan/_kraus.py:DenseKraus.serial_concatenate", "PyQCodes/chan/_kraus.py:SparseKraus.serial_concatenate", "PyQCodes/chan/channel.py:AnalyticQChan.__add__"]}
{"id": "C39", "title": "Adding Kraus objects with different qubit numbers", "statement": "DenseKraus + DenseKraus succeeds whenever the inner dimensions match.", "quantifier": "all pairs of Kraus objects", "why_tests_cant": "needs numb_qubits to differ", "anchors": ["PyQCodes/chan/_kraus.py:DenseKraus.__add__", "PyQCodes/chan/_kraus.py:SparseKraus.__add__"]}
{"id": "C40", "title": "Parallel concatenation is the tensor product", "statement": "The Kraus list of A * B maps rho x sigma to A(rho) x B(sigma), is trace-preserving if both are, and A*(B*C) equals (A*B)*C.", "quantifier": "all pairs of channels", "why_tests_cant": "all sizes", "anchors": ["PyQCodes/chan/_kraus.py:DenseKraus.parallel_concatenate", "PyQCodes/chan/channel.py:AnalyticQChan.__mul__"]}
{"id": "C41", "title": "Multiplying channels succeeds for any two channels", "statement": "AnalyticQChan * AnalyticQChan succeeds for all trace-preserving channels.", "quantifier": "all pairs of channels", "why_tests_cant": "needs a channel on several qubits", "anchors": ["PyQCodes/chan/channel.py:AnalyticQChan.__mul__", "PyQCodes/chan/_kraus.py:Kraus.__init__"]}
{"id": "C42", "title": "The trace-preservation check", "statement": "is_trace_perserving is true iff every entry of sum K^dagger K - I has modulus below 1e-5; AnalyticQChan accepts a Kraus list iff shapes match and this holds.", "quantifier": "all Kraus lists", "why_tests_cant": "all lists", "anchors": ["PyQCodes/chan/_kraus.py:DenseKraus.is_trace_perserving", "PyQCodes/chan/_kraus.py:SparseKraus.is_trace_perserving", "PyQCodes/chan/channel.py:AnalyticQChan.__init__"]}
{"id": "C43", "title": "average_entanglement_fidelity of Kraus channels", "statement": "It equals sum_p p sum_i |Tr(K_i rho)|^2, hence is at most 1 for density matrices and 1 for the identity channel; the tests only assert the difference is non-zero.", "quantifier": "all channels and ensembles", "why_tests_cant": "the shipped test is vacuous", "anchors": ["PyQCodes/chan/_kraus.py:DenseKraus.average_entanglement_fidelity", "PyQCodes/chan/_kraus.py:SparseKraus.average_entanglement_fidelity"]}
{"id": "C44", "title": "average_entanglement_fidelity of Choi channels", "statement": "For the Choi matrix of any Kraus list and Hermitian states it equals sum_p p sum_i |Tr(K_i rho)|^2.", "quantifier": "all Kraus lists and ensembles", "why_tests_cant": "all matrices", "anchors": ["PyQCodes/chan/_choi.py:ChoiQutip.average_entanglement_fidelity"]}
{"id": "C45", "title": "Choi and Kraus channels agree", "statement": "For num_in = num_out, ChoiQutip.channel on the Choi matrix of a Kraus list equals the Kraus channel.", "quantifier": "all Kraus lists, all rho", "why_tests_cant": "all sizes", "anchors": ["PyQCodes/chan/_choi.py:ChoiQutip.channel"]}
{"id": "C46", "title": "kraus_operators reproduces the Choi matrix", "statement": "For any eigh meeting its contract, the operators returned have Choi matrix equal to the input when no positive eigenvalue is at or below 1e-8, and each has shape (output_dim, input_dim).", "quantifier": "all PSD Choi matrices, all eigh outcomes", "why_tests_cant": "all matrices", "anchors": ["PyQCodes/chan/_choi.py:ChoiQutip.kraus_operators"]}
{"id": "C47", "title": "Choi complementary channel has the spectrum of the entropy exchange", "statement": "complementary_channel(rho) = M M^dagger and entropy_exchange(rho)[0].T = M^dagger M for one matrix M, so all power traces agree and both routes to coherent information use the same non-zero eigenvalues.", "quantifier": "all Kraus lists, all rho, all sqrtm outcomes", "why_tests_cant": "all matrices", "anchors": ["PyQCodes/chan/_choi.py:ChoiQutip.complementary_channel", "PyQCodes/chan/channel.py:AnalyticQChan.coherent_information"]}
{"id": "C48", "title": "adjoint=True on a Choi channel", "statement": "channel(rho, 1, adjoint=True) returns the adjoint for Choi-type channels too.", "quantifier": "all Choi channels", "why_tests_cant": "tests never call it", "anchors": ["PyQCodes/chan/channel.py:AnalyticQChan.channel", "PyQCodes/chan/_choi.py:ChoiQutip.channel"]}
{"id": "C49", "title": "numb_krauss reports the number of operators", "statement": "AnalyticQChan.numb_krauss returns the number of Kraus operators.", "quantifier": "all channels", "why_tests_cant": "untested property", "anchors": ["PyQCodes/chan/channel.py:AnalyticQChan.numb_krauss"]}
{"id": "C50", "title": "StandardBasis is a bijection", "statement": "vec_from_rho(rho_from_vec(v,d),d) = v for every vector of length d^2; rho_from_vec(vec_from_rho(r,d),d) = r for every Hermitian r; the output is Hermitian; other lengths raise AssertionError.", "quantifier": "all d, all vectors, all Hermitian matrices", "why_tests_cant": "unbounded d", "anchors": ["PyQCodes/chan/param.py:StandardBasis.rho_from_vec", "PyQCodes/chan/param.py:StandardBasis.vec_from_rho"]}
{"id": "C51", "title": "OverParam yields density matrices", "statement": "For every non-zero vector of length 2*rank*nsize with rank<=nsize, rho_from_vec is Hermitian, PSD, trace one and of rank at most rank; wrong lengths raise AssertionError; len(bounds) = numb_variables.", "quantifier": "all sizes, ranks and vectors", "why_tests_cant": "all sizes", "anchors": ["PyQCodes/chan/param.py:OverParam.rho_from_vec", "PyQCodes/chan/param.py:OverParam.bounds"]}
{"id": "C52", "title": "OverParam inverts", "statement": "rho_from_vec(vec_from_rho(rho)) = rho for every density matrix of rank at most rank whose non-zero eigenvalues are at least 1e-5, for any admissible eigh.", "quantifier": "all density matrices, all eigh outcomes", "why_tests_cant": "all matrices", "anchors": ["PyQCodes/chan/param.py:OverParam.vec_from_rho", "PyQCodes/chan/param.py:OverParam.rho_from_vec"]}
{"id": "C53", "title": "CholeskyParam yields density matrices and its counts agree", "statement": "For 1<=rank<=nsize numb_variables = rank + 2*(number of strictly lower entries of an nsize x rank matrix) = len(bounds), so rho_from_vec never hits a shape error on a vector of that length and returns a Hermitian PSD trace-one matrix when the factor is non-zero.", "quantifier": "all sizes, ranks and vectors", "why_tests_cant": "all sizes", "anchors": ["PyQCodes/chan/param.py:CholeskyParam.numb_variables", "PyQCodes/chan/param.py:CholeskyParam.bounds", "PyQCodes/chan/param.py:CholeskyParam.rho_from_vec"]}
{"id": "C54", "title": "CholeskyParam inverts", "statement": "rho_from_vec(vec_from_rho(rho)) = rho for positive definite trace-one rho.", "quantifier": "all sizes", "why_tests_cant": "tests use nsize 2 or real matrices", "anchors": ["PyQCodes/chan/param.py:CholeskyParam.vec_from_rho", "PyQCodes/chan/param.py:CholeskyParam.rho_from_vec"]}
{"id": "C55", "title": "The Lipschitz sampler terminates and reports success truthfully", "statement": "initial_guesses_lipschitz draws at most numb_tries+1 samples, returns vectors and values of equal length between 1 and max(1,numb_samples), each value is -f of its vector, and success iff exactly numb_samples were found.", "quantifier": "all random streams, objectives, limits", "why_tests_cant": "all random outcomes", "anchors": ["PyQCodes/_optimize.py:initial_guesses_lipschitz"]}
{"id": "C56", "title": "The Lipschitz sampler only accepts potential maximisers", "statement": "Every accepted sample other than the first satisfied max of earlier values <= min_i (value_i + ||rho - rho_i||_1 entrywise) over the earlier samples, and every candidate satisfying it before the loop ended was accepted.", "quantifier": "all random streams", "why_tests_cant": "all random outcomes", "anchors": ["PyQCodes/_optimize.py:initial_guesses_lipschitz"]}
{"id": "C57", "title": "optimal_val is the objective at optimal_rho", "statement": "Whenever optimize_procedure with diffev or the pool returns, optimal_val equals coherent_information(optimal_rho) (coherent) or fidelity_two_states(optimal_rho) (fidelity, rank 1), assuming scipy reports fun = f(x).", "quantifier": "all objectives, all optimizer outcomes", "why_tests_cant": "all outcomes of scipy", "anchors": ["PyQCodes/chan/_coherent.py:optimize_procedure", "PyQCodes/chan/_coherent.py:_use_multi_processes", "PyQCodes/chan/_coherent.py:_optimize_differential_evol"]}
{"id": "C58", "title": "The pool returns the best of its runs", "statement": "_use_multi_processes (optimizer slsqp, use_pool>0) returns the result with least objective value among the runs.", "quantifier": "all lists of run results", "why_tests_cant": "order-dependent selection", "anchors": ["PyQCodes/chan/_coherent.py:_use_multi_processes"]}
{"id": "C59", "title": "SLSQP without a pool works", "statement": "optimize_coherent(optimizer='slsqp', use_pool=0, lipschitz>0) returns the best run.", "quantifier": "all channels and run results", "why_tests_cant": "untested path", "anchors": ["PyQCodes/chan/_coherent.py:_optimize_samples_slsqp", "PyQCodes/chan/_coherent.py:optimize_procedure"]}
{"id": "C60", "title": "A ParameterizationABC subclass may be passed as param", "statement": "optimize_coherent accepts a subclass of ParameterizationABC as documented; unknown names raise TypeError.", "quantifier": "all param arguments", "why_tests_cant": "untested argument kinds", "anchors": ["PyQCodes/chan/_coherent.py:_get_parameterization_scheme_density"]}
{"id": "C61", "title": "inverse_of_unitary_two_design undoes approximate_unitary_two_design", "statement": "For every number of qubits, epsilon, every outcome of the random choices and every state, applying the inverse with the returned phases restores the state exactly. The design draws 2*ceil(log2(1/epsilon)/n)+1 rounds of phases, 0, 2pi/3 or 4pi/3 per qubit and 0 or pi per ordered pair, and every such choice is possible; epsilon <= 0 raises.", "quantifier": "all random outcomes, states, qubit numbers", "why_tests_cant": "exponentially many phase choices", "anchors": ["PyQCodes/device_adaptor.py:ProjectQDeviceAdaptor.approximate_unitary_two_design", "PyQCodes/device_adaptor.py:ProjectQDeviceAdaptor.inverse_of_unitary_two_design"]}
{"id": "C62", "title": "estimate_average_fidelity is a frequency", "statement": "For ntimes>=1 the result is j/ntimes with 0<=j<=ntimes; it is exactly 1 for a channel that does nothing on a simulated device, for all random outcomes; ntimes=0 raises ZeroDivisionError.", "quantifier": "all channels, random and measurement outcomes", "why_tests_cant": "all random outcomes", "anchors": ["PyQCodes/device_adaptor.py:ProjectQDeviceAdaptor.estimate_average_fidelity"]}
{"id": "C63", "title": "Each trial starts from |0..0>", "statement": "set_register_to_zero puts the register in |0..0> before each trial, on simulators and real devices.", "quantifier": "all devices and histories", "why_tests_cant": "needs a trial ending in a non-zero result", "anchors": ["PyQCodes/device_adaptor.py:ProjectQDeviceAdaptor.set_register_to_zero"]}
{"id": "C64", "title": "Encoder/decoder optimisation runs", "statement": "optimize_encoder_decoder_average_fidelity evaluates the fidelity of decoder o channel o encoder at the given parameters.", "quantifier": "all encoders, decoders and parameters", "why_tests_cant": "untested function", "anchors": ["PyQCodes/find_codes.py:QDeviceChannel.optimize_encoder_decoder_average_fidelity"]}
{"id": "C65", "title": "The effective channel is trace-preserving", "statement": "In effective_channel_with_stabilizers the composed operators form a trace-preserving channel from k to n qubits whenever errors are trace-preserving and the generators commute with an even number of Ys, so the internal assertion cannot fail.", "quantifier": "all codes and Pauli channels", "why_tests_cant": "all codes", "anchors": ["PyQCodes/find_codes.py:effective_channel_with_stabilizers"]}
{"id": "C66", "title": "effective_channel_with_stabilizers supports every k", "statement": "It accepts any [n,k] code with error operators on k qubits.", "quantifier": "all k", "why_tests_cant": "only k=1 is tested", "anchors": ["PyQCodes/find_codes.py:effective_channel_with_stabilizers"]}
{"id": "C67", "title": "The decoder SDP objective is the average fidelity", "statement": "In _optimize_average_entang_fid the linear objective evaluated at the Choi matrix of a decoder R is (1/d^2) sum |Tr(R_j K_i)|^2.", "quantifier": "all Kraus lists and decoders", "why_tests_cant": "all matrices", "anchors": ["PyQCodes/avgfid/avg_fidelity.py:_optimize_average_entang_fid"]}
{"id": "C68", "title": "optimize_decoder runs", "statement": "optimize_decoder(encoder, kraus, ...) returns a result for valid input.", "quantifier": "all inputs", "why_tests_cant": "untested function", "anchors": ["PyQCodes/avgfid/avg_fidelity.py:optimize_decoder"]}
{"id": "C69", "title": "von Neumann entropy of a spectrum", "statement": "entropy is non-negative for eigenvalues in [0,1], is 0 for pure states, and at most log2 of the number of eigenvalues above the cut-off when these sum to one.", "quantifier": "all spectra", "why_tests_cant": "all sizes", "anchors": ["PyQCodes/chan/channel.py:AnalyticQChan.entropy"]}
{"id": "C70", "title": "fidelity_two_states on pure states", "statement": "For a pure state |v>, fidelity_two_states is sqrt(<v|N(|v><v|)|v>), between 0 and 1, for any sqrtm returning the PSD root.", "quantifier": "all pure states and channels", "why_tests_cant": "all sizes", "anchors": ["PyQCodes/chan/channel.py:AnalyticQChan.fidelity_two_states"]}
{"id": "C71", "title": "Random starting vectors have the right shape and range", "statement": "OverParam.random_vectors and CholeskyParam.random_vectors return vectors of length numb_variables; the uniform ones respect bounds entry by entry; any other distribution name raises TypeError and a negative upper bound raises AssertionError.", "quantifier": "all sizes, ranks, distribution names, bounds and outcomes of the random generator", "why_tests_cant": "random outcomes and all sizes", "anchors": ["PyQCodes/chan/param.py:OverParam.random_vectors", "PyQCodes/chan/param.py:CholeskyParam.random_vectors", "PyQCodes/chan/param.py:CholeskyParam.bounds"]}
{"id": "C72", "title": "optimal_rho is a state of the right size and rank", "statement": "Whenever optimize_coherent or optimize_fidelity returns with param 'overparam' or 'cholesky', optimal_rho is a square density matrix of the input dimension of the n-fold channel, of rank at most the rank asked for (1 for the fidelity).", "quantifier": "all channels, n, ranks, options, random draws and optimizer outcomes", "why_tests_cant": "all outcomes of scipy and of the random generator", "anchors": ["PyQCodes/chan/channel.py:AnalyticQChan.optimize_coherent", "PyQCodes/chan/channel.py:AnalyticQChan.optimize_fidelity", "PyQCodes/chan/_coherent.py:optimize_procedure"]}
{"id": "C73", "title": "SLSQP may be started from the user's own samples", "statement": "optimize_coherent(optimizer='slsqp', lipschitz=0, samples=[...]) starts from the given samples, as the docstring says ('If set to zero, then samples must be provided by user').", "quantifier": "all channels and sample lists", "why_tests_cant": "untested combination of options", "anchors": ["PyQCodes/chan/_coherent.py:optimize_procedure"]}
{"id": "C74", "title": "The Lipschitz sampler keeps maximisers", "statement": "If a draw attains the maximum of the objective over all states, the sampler keeps it; the README claims that coherent information is Lipschitz with constant one in the distance used.", "quantifier": "all channels, random streams", "why_tests_cant": "needs a proof about all states", "anchors": ["PyQCodes/_optimize.py:initial_guesses_lipschitz", "PyQCodes/chan/README.md"]}
{"id": "C75", "title": "What one trial of the fidelity estimate measures", "statement": "With u the state the two-design prepares from |0..0>, a trial of estimate_average_fidelity with a channel acting as V counts with probability |<u|V u>|^2; trials follow one another, and estimate_average_fidelity_error_code does the same for decoder after channel after encoder.", "quantifier": "all numbers of qubits, epsilon, random and measurement outcomes, norm-keeping channels", "why_tests_cant": "the result is random; a test sees frequencies of a few runs", "anchors": ["PyQCodes/device_adaptor.py:ProjectQDeviceAdaptor.estimate_average_fidelity", "PyQCodes/find_codes.py:QDeviceChannel.estimate_average_fidelity_error_code"]}
{"id": "C76", "title": "effective_channel_with_stabilizers optimises the fidelity", "statement": "effective_channel_with_stabilizers(..., optimize='fidelity') returns the optimal fidelity of the corrected channel.", "quantifier": "all codes on two or more qubits, all errors, all outcomes of the optimiser and of the random generator", "why_tests_cant": "all codes and optimiser outcomes", "anchors": ["PyQCodes/find_codes.py:effective_channel_with_stabilizers", "PyQCodes/chan/channel.py:AnalyticQChan.optimize_fidelity"]}
{"id": "C77", "title": "optimize_decoder_stabilizers returns an optimal decoder", "statement": "optimal_recov is the Choi matrix of a trace-preserving decoder from n to k qubits and optimal_val is at least the entanglement fidelity (at the maximally mixed state) of decoder o errors o encoder for every such decoder.", "quantifier": "all codes, error channels, options and outcomes of a correct solver", "why_tests_cant": "optimality over all decoders; a test compares a few numbers", "anchors": ["PyQCodes/avgfid/avg_fidelity.py:optimize_decoder_stabilizers", "PyQCodes/avgfid/avg_fidelity.py:_optimize_average_entang_fid", "PyQCodes/chan/_choi.py:ChoiQutip.constraint_partial_trace"]}
{"id": "C78", "title": "Options of the decoder optimisation reach the solver", "statement": "'maxit', 'feastol', 'abstol', 'reltol' take the user's value if given and 50, 1e-3, 1e-3, 1e-3 otherwise; 'tol' is 1e-4; other keys are ignored.", "quantifier": "all option dictionaries", "why_tests_cant": "all dictionaries", "anchors": ["PyQCodes/avgfid/avg_fidelity.py:_optimize_average_entang_fid"]}
{"id": "C79", "title": "optimize_decoder_stabilizers supports every k", "statement": "For an [n,k] code with Kraus operators on k qubits (as documented), or on single qubits, the call returns a result.", "quantifier": "all codes with k >= 2", "why_tests_cant": "only k = 1 is tested", "anchors": ["PyQCodes/avgfid/avg_fidelity.py:optimize_decoder_stabilizers"]}
{"id": "C80", "title": "The circuits correct errors within the code's distance", "statement": "Encode any superposition of messages, let a Pauli error act, and measure the rows of the normal form one after the other on one ancilla: the only list of outcomes with non-zero amplitude is the running parity of the error's syndrome, and the data qubits are unchanged. If error and correction each act on at most t qubits, the code (in its normal form) has distance at least 2t+1 and both give the same readings, applying the correction restores the encoded state up to one phase of modulus 1 that does not depend on the message, and decoding_circuit returns the message on the ancillas. Generators have an even number of Y.", "quantifier": "all codes built from valid generators with even numbers of Y, all superpositions of messages, all Pauli errors and corrections, all lists of outcomes", "why_tests_cant": "all codes, errors, superpositions and outcomes; the composition of four circuits", "anchors": ["PyQCodes/codes.py:StabilizerCode.encoding_circuit", "PyQCodes/codes.py:StabilizerCode.single_syndrome_measurement", "PyQCodes/codes.py:StabilizerCode.apply_stabilizer_circuit", "PyQCodes/codes.py:StabilizerCode.decoding_circuit"]}
{"id": "C81", "title": "Where the optimisation starts and what its dictionary says", "statement": "When optimize_coherent or optimize_fidelity returns, the starting points were the user's samples followed by the lipschitz vectors of the Lipschitz sampler (none for lipschitz = 0); differential evolution got them as population with popsize their number, or 'latinhypercube' with popsize 50 when there are none; SLSQP was started from each of them. 'optimal_rho' and 'success' are those of one such run of scipy, 'optimal_val' is its value (negated for coherent, divided by n if regularized), 'method' is the optimizer asked for, 'objective' the quantity and 'lipschitz' says whether the sampler was used.", "quantifier": "all channels, options, samplers and behaviours of scipy", "why_tests_cant": "all combinations of options and outcomes of scipy", "anchors": ["PyQCodes/chan/_coherent.py:optimize_procedure", "PyQCodes/chan/channel.py:AnalyticQChan.optimize_coherent", "PyQCodes/chan/channel.py:AnalyticQChan.optimize_fidelity"]}
{"id": "C82", "title": "Unusable options are rejected", "statement": "use_pool not a non-negative integer, samples not in a list, lipschitz not a non-negative integer, SLSQP without samples and lipschitz = 0, and a sampler that does not find the number of samples asked for raise AssertionError; an optimizer other than 'diffev' and 'slsqp' raises TypeError; with accepted options differential evolution returns whenever the sampler and scipy do.", "quantifier": "all channels and options", "why_tests_cant": "all combinations of options", "anchors": ["PyQCodes/chan/_coherent.py:optimize_procedure"]}
{"id": "C83", "title": "The callback stops at positive coherent information", "statement": "Used while minimising the coherent objective, positive_coherent_info_callback returns True exactly at points whose state has coherent information above 1e-8.", "quantifier": "all channels, parameterisations and points", "why_tests_cant": "all points", "anchors": ["PyQCodes/_optimize.py:positive_coherent_info_callback"]}
{"id": "C84", "title": "Coherent information lies within the entropy of the input", "statement": "For a trace-preserving channel and a density matrix rho, coherent_information(rho, n) lies between -S(rho) and S(rho), hence between -log2 and +log2 of the dimension of the input, up to what the documented cut of eigenvalues below 1e-10 can change. It is exactly 0 on pure states, and for channels with one Kraus operator it is exactly the (cut) entropy of rho.", "quantifier": "all trace-preserving Kraus channels, dense or sparse, all numbers of channel uses n >= 1, all histories of earlier calls, all density matrices", "why_tests_cant": "the bounds are inequalities between entropies over all channels and states", "anchors": ["PyQCodes/chan/channel.py:AnalyticQChan.coherent_information", "PyQCodes/chan/channel.py:AnalyticQChan.entropy_exchange", "PyQCodes/chan/_kraus.py:DenseKraus.channel"]}
{"id": "C85", "title": "Results depend on the channel, not on its Kraus operators", "statement": "Two channel objects built from different lists of Kraus operators (also of different lengths, one dense and one sparse) that describe the same map return the same matrices from channel and its adjoint, and the same coherent information, for every n.", "quantifier": "all pairs of Kraus lists describing the same map, all n >= 1, all histories, all inputs", "why_tests_cant": "all pairs of representations and all n", "anchors": ["PyQCodes/chan/channel.py:AnalyticQChan.coherent_information", "PyQCodes/chan/channel.py:AnalyticQChan.entropy_exchange", "PyQCodes/chan/_kraus.py:DenseKraus.channel"]}
{"id": "C86", "title": "Coherent information of product states is additive", "statement": "On a tensor product of n density matrices, coherent_information with n channel uses equals the sum of the single-use values on the factors (their mean when regularized), up to what the cut of eigenvalues below 1e-10 can change.", "quantifier": "all trace-preserving Kraus channels, all n >= 1, all lists of n density matrices, all histories", "why_tests_cant": "all n and all states", "anchors": ["PyQCodes/chan/channel.py:AnalyticQChan.coherent_information", "PyQCodes/chan/channel.py:AnalyticQChan.entropy_exchange", "PyQCodes/chan/_kraus.py:DenseKraus.channel"]}
{"id": "C87", "title": "Dimensions and counts reported by a channel describe its current operators", "statement": "After any sequence of calls, dim_in, dim_out and numb_qubits return what the constructor was given, the current number of uses is the one asked for last, input_dimension and output_dimension are the sizes of the inputs and outputs that channel takes with that number of uses, kraus returns the operators given to the constructor and nth_kraus_operators their tensor power; a channel built from a Choi matrix reports the one-use dimensions and has no nth_kraus_operators.", "quantifier": "all Kraus lists and Choi matrices, all dimensions and numbers of qubits, all histories of calls", "why_tests_cant": "the values depend on the whole history of calls", "anchors": ["PyQCodes/chan/channel.py:AnalyticQChan.input_dimension", "PyQCodes/chan/channel.py:AnalyticQChan.output_dimension", "PyQCodes/chan/channel.py:AnalyticQChan.nth_kraus_operators", "PyQCodes/chan/channel.py:AnalyticQChan.dim_in", "PyQCodes/chan/channel.py:AnalyticQChan.numb_qubits"]}
{"id": "C88", "title": "The product of two Kraus objects is the tensor product channel", "statement": "For two Kraus objects of the same class, a * b is a Kraus object for the two channels in parallel: on X tensor Y it acts as a on X tensor b on Y, and it reports the dimensions of the product. Objects of different classes are refused.", "quantifier": "all pairs of Kraus objects and all matrices X, Y", "why_tests_cant": "all sizes and all matrices", "anchors": ["PyQCodes/chan/_kraus.py:DenseKraus.__mul__", "PyQCodes/chan/_kraus.py:SparseKraus.__mul__", "PyQCodes/chan/_kraus.py:DenseKraus.parallel_concatenate"]}
{"id": "C89", "title": "The constructor accepts exactly the Choi matrices of channels", "statement": "A square array of the declared size is accepted by the constructor from a Choi matrix exactly when it is positive semidefinite and its marginal on the input is the identity, i.e. when some trace-preserving list of Kraus operators has it as Choi matrix; otherwise an exception is raised: AssertionError for an array of the right size, ValueError for another number of columns. An accepted object maps density matrices to density matrices, refuses n != 1, and is unchanged by any sequence of calls.", "quantifier": "all complex square arrays, all dimensions and numbers of qubits, all histories", "why_tests_cant": "all matrices, in both directions of the equivalence", "anchors": ["PyQCodes/chan/_choi.py:ChoiQutip.__init__", "PyQCodes/chan/_choi.py:ChoiQutip.channel", "PyQCodes/chan/channel.py:AnalyticQChan.__init__"]}
{"id": "C90", "title": "The bounds of a parameterisation exclude no state", "statement": "Every density matrix (of rank at most `rank`) is described by some vector inside the box returned by bounds: for StandardBasis the vector of vec_from_rho lies in it, for OverParam and CholeskyParam (any lower bound below and upper bound above 0) some vector in the box is mapped to the matrix by rho_from_vec. Hence an optimiser confined to the bounds searches all states.", "quantifier": "all density matrices of all sizes, all ranks, all bounds around 0", "why_tests_cant": "surjectivity onto all density matrices", "anchors": ["PyQCodes/chan/param.py:StandardBasis.bounds", "PyQCodes/chan/param.py:OverParam.bounds", "PyQCodes/chan/param.py:CholeskyParam.bounds", "PyQCodes/chan/param.py:OverParam.rho_from_vec", "PyQCodes/chan/param.py:CholeskyParam.rho_from_vec"]}
{"id": "C91", "title": "Choi channels with different numbers of input and output qubits", "statement": "A channel object built from the Choi matrix of a channel from num_in to num_out qubits maps each input state to the image under that channel, also when num_in and num_out differ.", "quantifier": "all Choi matrices, all pairs num_in != num_out, all inputs", "why_tests_cant": "all matrices and sizes", "anchors": ["PyQCodes/chan/_choi.py:ChoiQutip.channel", "PyQCodes/chan/channel.py:AnalyticQChan.channel"]}
{"id": "C92", "title": "A code accepted as [[n,k]] has a code space of dimension 2^k", "statement": "Whenever the constructor accepts a set of generators with parameters n and k, encode_krauss_operators returns an isometry with exactly 2^k columns: redundant generators, and generators whose product is minus the identity, are refused or reported.", "quantifier": "all generator sets accepted by the constructor, all n and k", "why_tests_cant": "the dimension depends on all linear relations and signs among the generators, for every size", "anchors": ["PyQCodes/codes.py:StabilizerCode.__init__", "PyQCodes/codes.py:StabilizerCode.encode_krauss_operators"]}
{"id": "C93", "title": "The encoder spans the joint +1 eigenspace also when a generator has an odd number of Ys", "statement": "For every accepted code the columns of encode_krauss_operators span the joint +1 eigenspace of the Pauli operators of its generators, whatever letters the generators contain.", "quantifier": "all accepted codes, in particular all with a generator containing an odd number of Ys", "why_tests_cant": "all generators and all sizes", "anchors": ["PyQCodes/codes.py:StabilizerCode.encode_krauss_operators", "PyQCodes/codes.py:StabilizerCode.binary_rep_to_pauli_mat"]}
{"id": "C94", "title": "Circuits work with the caller's own logical operators", "statement": "When a code is built with logical_ops supplied by the caller, and these are valid logical operators of the code (they commute with all generators and satisfy the pairing relations), then the encoding circuit maps messages into the code space, logical circuits apply the supplied operators, and the decoding circuit recovers the message the supplied operators define. Invalid logical operators are refused.", "quantifier": "all accepted codes and all pairs of logical operator matrices passed to the constructor, all messages", "why_tests_cant": "the choices of logical operators for one code are exponentially many and each is right or wrong for its own reason", "anchors": ["PyQCodes/codes.py:StabilizerCode.__init__", "PyQCodes/codes.py:StabilizerCode.encoding_circuit", "PyQCodes/codes.py:StabilizerCode.decoding_circuit", "PyQCodes/codes.py:StabilizerCode.logical_circuit"]}
{"id": "C95", "title": "Concatenation with an inner code of several logical qubits", "statement": "For an outer [n,k] code and an inner [m,l] code with l >= 2 dividing n, concatenate_codes returns the code on nm/l qubits whose generators are the inner generators in each of the n/l blocks and the outer generators with every qubit replaced by its own logical qubit of a block.", "quantifier": "all pairs of accepted codes with l >= 2 dividing n", "why_tests_cant": "correctness depends on n, m, l and on where the identity letters of every outer generator are", "anchors": ["PyQCodes/codes.py:StabilizerCode.concatenate_codes"]}
{"id": "C96", "title": "A circuit acts on the register it is given, whatever else the engine holds", "statement": "The circuit methods may be given any distinct qubits, in any order, of an engine with further qubits: they name no qubit outside the register (and the ancillas they allocate), return what they return for qubits 0, 1, ..., and do to the register what they do to those qubits, for every state of the other qubits, entangled or not.", "quantifier": "all registers, engines, joint states and codes", "why_tests_cant": "tests allocate exactly the register they use", "anchors": ["PyQCodes/codes.py:StabilizerCode.encoding_circuit", "PyQCodes/codes.py:StabilizerCode.decoding_circuit", "PyQCodes/codes.py:StabilizerCode.logical_circuit", "PyQCodes/codes.py:StabilizerCode.apply_stabilizer_circuit", "PyQCodes/codes.py:StabilizerCode.single_syndrome_measurement"]}
{"id": "C97", "title": "A circuit call that raises has sent nothing to the engine", "statement": "When a circuit method raises (wrong register size, message that is not binary, unknown letter), the engine has received no command and keeps the qubits it had; otherwise all gates have been sent.", "quantifier": "all codes, registers, messages and operators", "why_tests_cant": "the state left behind depends on where in the loop the exception is raised", "anchors": ["PyQCodes/codes.py:StabilizerCode.encoding_circuit", "PyQCodes/codes.py:StabilizerCode.decoding_circuit", "PyQCodes/codes.py:StabilizerCode.logical_circuit", "PyQCodes/codes.py:StabilizerCode.apply_stabilizer_circuit", "PyQCodes/codes.py:StabilizerCode.single_syndrome_measurement"]}
{"id": "C98", "title": "Assigning new Kraus operators to a channel takes effect", "statement": "After o.kraus_ops = B the object is the channel with operators B: update_kraus_operators(n) makes it the n-fold channel of B, len(o), the entropy exchange and channel(rho) follow. After o.nth_kraus_ops = C, or o.nth_kraus_ops_conj, the current operators are those assigned.", "quantifier": "all Kraus objects, all histories of updates and assignments, all operators assigned", "why_tests_cant": "no test assigns operators, and what happens depends on the n asked for before and after", "anchors": ["PyQCodes/chan/_kraus.py:Kraus.kraus_ops", "PyQCodes/chan/_kraus.py:Kraus.nth_kraus_ops", "PyQCodes/chan/_kraus.py:Kraus.nth_kraus_ops_conj", "PyQCodes/chan/_kraus.py:Kraus.update_kraus_operators"]}
{"id": "C99", "title": "Processing what leaves a channel never increases its coherent information", "statement": "If the channel of one object is that of another followed by any fixed trace-preserving operation, its coherent_information on the same state and number of uses is at most that of the other, up to what the documented cut of eigenvalues below 1e-10 can change. In particular for b + a against a, whatever b. If the processing can be undone by another trace-preserving operation, the two values agree up to that cut.", "quantifier": "all trace-preserving Kraus channels a and b of fitting dimensions, dense or sparse, all processing operations, all numbers of channel uses n >= 1, all histories of earlier calls, all density matrices on the n inputs", "why_tests_cant": "an inequality between entropies over all channels, operations and states; on examples it cannot be told from an accident", "anchors": ["PyQCodes/chan/channel.py:AnalyticQChan.coherent_information", "PyQCodes/chan/channel.py:AnalyticQChan.__add__", "PyQCodes/chan/channel.py:AnalyticQChan.entropy_exchange"]}
{"id": "C100", "title": "A channel its environment can imitate has no positive coherent information", "statement": "If a fixed trace-preserving operation turns the matrix entropy_exchange(rho) into channel(rho) for every rho, coherent_information is at most 0 for every number of uses and every state, up to the cut of eigenvalues below 1e-10. If the operation goes the other way, from channel(rho) to entropy_exchange(rho), it is at least 0 in the same sense.", "quantifier": "all trace-preserving Kraus channels with such an operation, dense or sparse, all numbers of channel uses n >= 1, all histories of earlier calls, all density matrices on the n inputs", "why_tests_cant": "sign of an entropy difference over all states of all numbers of uses", "anchors": ["PyQCodes/chan/channel.py:AnalyticQChan.coherent_information", "PyQCodes/chan/channel.py:AnalyticQChan.entropy_exchange", "PyQCodes/chan/_kraus.py:DenseKraus.entropy_exchange"]}
{"id": "C101", "title": "More uses do not help a channel whose output can imitate its environment", "statement": "If a fixed trace-preserving operation turns channel(rho) into the matrix entropy_exchange(rho) for every rho, then coherent_information of n uses on any state, entangled or not, is at most the sum of the one-use values on the states of the single inputs, up to the cut of eigenvalues below 1e-10. So the regularised value of n uses is reached by one use on some input.", "quantifier": "all trace-preserving Kraus channels with such an operation, dense or sparse, all numbers of channel uses n >= 1, all histories of earlier calls, all density matrices on the n inputs", "why_tests_cant": "ranges over all entangled states of all numbers of uses; tests can only try some", "anchors": ["PyQCodes/chan/channel.py:AnalyticQChan.coherent_information", "PyQCodes/chan/channel.py:AnalyticQChan.optimize_coherent", "PyQCodes/chan/channel.py:AnalyticQChan.entropy_exchange"]}
{"id": "C102", "title": "Mixing inputs does not lower the coherent information of such channels", "statement": "For a channel as in C101, coherent_information on a mixture of states is at least the mixture of the values on the states, up to the cut of eigenvalues below 1e-10: what optimize_coherent maximises is concave.", "quantifier": "all trace-preserving Kraus channels whose output can imitate the environment, dense or sparse, all numbers of channel uses n >= 1, all histories of earlier calls, all finite mixtures of density matrices on the n inputs", "why_tests_cant": "concavity over all mixtures of all states", "anchors": ["PyQCodes/chan/channel.py:AnalyticQChan.coherent_information", "PyQCodes/chan/channel.py:AnalyticQChan.optimize_coherent"]}
{"id": "C103", "title": "A syndrome measurement reports the eigenvalue of the Pauli string it is given", "statement": "If v is an eigenvector of the Pauli string S (with the textbook Y = [[0,-i],[i,0]]) to the eigenvalue (-1)^e, then single_syndrome_measurement of S on v reports e with certainty and leaves v unchanged, whatever letters S contains.", "quantifier": "all n, all Pauli strings given as string or binary row, all eigenvectors, both forms of the ancilla", "why_tests_cant": "all strings and all states; the answer depends on the number of Ys modulo four", "anchors": ["PyQCodes/codes.py:StabilizerCode.single_syndrome_measurement"]}
{"id": "C104", "title": "Encoded states are fixed by the Pauli operators of the normal form", "statement": "The state prepared by encoding_circuit for any message is a +1 eigenvector of the textbook Pauli operator of every row of normal_form.", "quantifier": "all accepted codes with independent commuting generators, all messages, all rows", "why_tests_cant": "2^n amplitudes for all codes; the answer depends on the number of Ys modulo four", "anchors": ["PyQCodes/codes.py:StabilizerCode.encoding_circuit", "PyQCodes/codes.py:StabilizerCode._standard_normal_form"]}
{"id": "C105", "title": "Encoded states are fixed by the generators the code was built from", "statement": "The state prepared by encoding_circuit for any message is a +1 eigenvector of every generator given to the constructor, with its qubits relabelled as in normal_form; so measuring a given generator on a freshly encoded state reports 0.", "quantifier": "all accepted codes with independent commuting generators with an even number of Ys, all messages", "why_tests_cant": "all codes; the sign depends on the whole elimination history of the rows", "anchors": ["PyQCodes/codes.py:StabilizerCode.encoding_circuit", "PyQCodes/codes.py:StabilizerCode._standard_normal_form", "PyQCodes/codes.py:StabilizerCode.single_syndrome_measurement"]}
{"id": "C106", "title": "The README's recovery loop undoes the errors it detects", "statement": "Encode, suffer a Pauli error, then measure the rows of the code one after the other and, at the first outcome 1, apply that row and stop: whenever an error is reported, the register is back in the encoded state up to a phase.", "quantifier": "all accepted codes with independent commuting generators with an even number of Ys, all messages in superposition, all Pauli errors, all outcomes", "why_tests_cant": "all codes, errors and measurement histories; 2^n amplitudes", "anchors": ["PyQCodes/README.md:L74-L110", "PyQCodes/codes.py:StabilizerCode.__iter__", "PyQCodes/codes.py:StabilizerCode.single_syndrome_measurement", "PyQCodes/codes.py:StabilizerCode.apply_stabilizer_circuit"]}
{"id": "C107", "title": "Logical operators between encoding and decoding act as Paulis on the message", "statement": "Encoding a message, applying any sequence of logical operators Xi, Yi, Zi to the register and decoding it gives the message with the Paulis X, Y, Z applied to its qubits i in the same order, up to a phase that depends only on the number of Ys; the data qubits end in a state that depends on neither.", "quantifier": "all accepted codes with independent commuting generators, all superpositions of messages, all sequences of logical operators with i below k and 10, both ways of supplying ancillas, with or without measuring the data qubits", "why_tests_cant": "unbounded sequences of operators on all codes and all superpositions", "anchors": ["PyQCodes/README.md:L52-L71", "PyQCodes/codes.py:StabilizerCode.logical_circuit", "PyQCodes/codes.py:StabilizerCode.encoding_circuit", "PyQCodes/codes.py:StabilizerCode.decoding_circuit"]}
{"id": "C108", "title": "A channel fixes the identity matrix exactly when its Kraus operators are unital", "statement": "channel(I, n) on the identity matrix is the identity matrix exactly when the sum of K K^dagger over the given operators is the identity, whatever n; so one use settles all n.", "quantifier": "all lists of Kraus operators, square or not, trace preserving or not, dense or sparse, all n, all earlier calls", "why_tests_cant": "all operators and all n, matrices of size d^n", "anchors": ["PyQCodes/chan/_kraus.py:DenseKraus.channel", "PyQCodes/chan/_kraus.py:SparseKraus.channel", "PyQCodes/chan/channel.py:AnalyticQChan.channel"]}
{"id": "C109", "title": "Exactly the unital channels never lower the entropy", "statement": "If the operators are trace preserving and unital then the entropy of channel(rho, n) is at least that of rho, for every density matrix, and entropy() agrees up to its cut-off; conversely a trace-preserving channel that never lowers the von Neumann entropy at one n is unital.", "quantifier": "all trace-preserving Kraus lists with equal input and output dimensions, all n, all density matrices, all earlier calls", "why_tests_cant": "all channels and states of any dimension; an inequality between real-valued entropies", "anchors": ["PyQCodes/chan/channel.py:AnalyticQChan.channel", "PyQCodes/chan/channel.py:AnalyticQChan.entropy"]}
{"id": "C110", "title": "The README's bit-flip channel can be constructed", "statement": "For every probability p, AnalyticQChan([(1-p) I, p X], [1, 1], 2, 2) of the README is accepted and is the bit-flip channel.", "quantifier": "all p between 0 and 1, dense or sparse, any orthogonality hint", "why_tests_cant": "all real p, and then all n and all states for what the channel does", "anchors": ["README.md:L31-L42", "PyQCodes/chan/channel.py:AnalyticQChan.__init__", "PyQCodes/chan/_kraus.py:DenseKraus.is_trace_perserving"]}
{"id": "C111", "title": "The encoding circuit and the encoder matrix describe the same code", "statement": "The states encoding_circuit prepares for the 2^k messages span the same space as the columns of the matrix encode_krauss_operators returns for the same StabilizerCode.", "quantifier": "all valid generators with an even number of Ys each, all n and k, every eigh meeting its contract, all superpositions of messages", "why_tests_cant": "all codes of any size and all superpositions; the matrix depends on which eigenvectors eigh picks", "anchors": ["PyQCodes/codes.py:StabilizerCode.encoding_circuit", "PyQCodes/codes.py:StabilizerCode.encode_krauss_operators"]}
{"id": "C112", "title": "Measuring a generator is a projective measurement on every state", "statement": "single_syndrome_measurement, run on any state v of the code qubits (not only encoded ones), leaves (v + (-1)^b A v)/2 for outcome b, where A is the operator of the generator; outcome b has the probability of the projective measurement of A, and repeating the measurement gives the same outcome.", "quantifier": "all n, all generators as arrays or Pauli strings, all states, all outcomes, fresh ancilla or one holding any bit", "why_tests_cant": "a continuum of states and generators of any length", "anchors": ["PyQCodes/codes.py:StabilizerCode.single_syndrome_measurement"]}
{"id": "C113", "title": "Any error on at most t qubits is corrected", "statement": "After any error that is a combination of products of arbitrary 2x2 matrices on at most t qubits each (rotations, damping, coherent noise, not only Paulis), a round of single_syndrome_measurement over the rows of normal_form followed by apply_stabilizer_circuit with any correction on at most t qubits that has the readings seen restores the encoded message up to one factor, which does not depend on the message, and decoding_circuit then returns the message; readings that no such correction has never occur.", "quantifier": "all codes of distance more than 2t with an even number of Ys in each generator, all such errors, all superpositions of messages, all readings", "why_tests_cant": "errors form a continuum; codes of every size", "anchors": ["PyQCodes/codes.py:StabilizerCode.single_syndrome_measurement", "PyQCodes/codes.py:StabilizerCode.apply_stabilizer_circuit", "PyQCodes/codes.py:StabilizerCode.encoding_circuit", "PyQCodes/codes.py:StabilizerCode.decoding_circuit"]}
{"id": "C114", "title": "The given generators report 0 on a freshly encoded state", "statement": "Measuring with single_syndrome_measurement any of the generators the code was constructed from, on the state encoding_circuit has just prepared, reports 0.", "quantifier": "all valid generators with an even number of Ys each, all superpositions of messages, all outcomes", "why_tests_cant": "codes of every size and all superpositions of messages", "anchors": ["PyQCodes/codes.py:StabilizerCode.single_syndrome_measurement", "PyQCodes/codes.py:StabilizerCode.encoding_circuit"]}
{"id": "C115", "title": "The operators returned for detected errors undo them", "statement": "For an error that some generator detects, the operator kraus_operators_correcting_errors returns takes encoded states (the columns of encode_krauss_operators) with that error back to the code space, up to a factor.", "quantifier": "all codes, all lists of errors", "why_tests_cant": "codes and errors of every size", "anchors": ["PyQCodes/codes.py:StabilizerCode.kraus_operators_correcting_errors", "PyQCodes/codes.py:StabilizerCode.encode_krauss_operators"]}
{"id": "C116", "title": "The effective channel contains the error correction", "statement": "The channel optimised by effective_channel_with_stabilizers is encoding, noise and error correction: on the part of the noise that the code can correct it returns the encoded state.", "quantifier": "all generators with one encoded qubit, all trace-preserving single-qubit noise", "why_tests_cant": "codes of every size and a continuum of noise strengths", "anchors": ["PyQCodes/codes.py:StabilizerCode.kraus_operators_correcting_errors", "PyQCodes/codes.py:StabilizerCode.encode_krauss_operators", "PyQCodes/find_codes.py:effective_channel_with_stabilizers"]}
{"id": "C117", "title": "sparse=True changes the storage, not the matrices", "statement": "binary_rep_to_pauli_mat(rows, sparse=True) raises exactly when and what binary_rep_to_pauli_mat(rows) raises, and otherwise returns sparse matrices with the same shapes and entries, each storing one entry (1 or -1) a row, so 2^n in all; encode_krauss_operators(sparse=True) has the entries of encode_krauss_operators().", "quantifier": "all arrays of integers, well-formed or not; all codes", "why_tests_cant": "arrays of every size and content", "anchors": ["PyQCodes/codes.py:StabilizerCode.binary_rep_to_pauli_mat", "PyQCodes/codes.py:StabilizerCode.index_to_qubit_pauli", "PyQCodes/codes.py:StabilizerCode.encode_krauss_operators"]}
{"id": "C118", "title": "fidelity_two_states is 1 only for states the channel keeps, 0 only for orthogonal outputs", "statement": "fidelity_two_states(rho, n) lies between 0 and 1, is 1 exactly when the n-fold channel returns rho itself, and 0 exactly when rho and its image are orthogonal. The number depends on the channel alone: two objects, built from different Kraus operators, or one from a Choi matrix, whose channels send rho to the same state, return the same number whatever they were asked before.", "quantifier": "all trace preserving channels with equal input and output dimension, density matrices, n, and histories of earlier uses", "why_tests_cant": "channels, states and numbers of uses are unbounded", "anchors": ["PyQCodes/chan/channel.py:AnalyticQChan.fidelity_two_states", "PyQCodes/chan/channel.py:AnalyticQChan.channel"]}
{"id": "C119", "title": "The fidelity of product states is the product of the fidelities", "statement": "On the tensor product of n states, fidelity_two_states with n uses of the channel returns the product of the values fidelity_two_states returns on the n states with one use each.", "quantifier": "all trace preserving channels with equal input and output dimension, lists of density matrices, and histories of earlier uses", "why_tests_cant": "the number of factors is unbounded", "anchors": ["PyQCodes/chan/channel.py:AnalyticQChan.fidelity_two_states"]}
{"id": "C120", "title": "The entanglement fidelity is at most the squared fidelity", "statement": "For a channel given by its Choi matrix, average_entanglement_fidelity(probs, states) is at most the average, with weights probs, of the squares of fidelity_two_states(state, 1).", "quantifier": "all trace preserving channels, weights and lists of density matrices", "why_tests_cant": "an inequality between two numbers over all channels and states", "anchors": ["PyQCodes/chan/channel.py:AnalyticQChan.fidelity_two_states", "PyQCodes/chan/channel.py:AnalyticQChan.average_entanglement_fidelity", "PyQCodes/chan/_choi.py:ChoiQutip.average_entanglement_fidelity"]}
{"id": "C121", "title": "The entanglement fidelity is 1 only if no information is lost", "statement": "For a channel given by its Choi matrix, average_entanglement_fidelity(probs, states) is 1 exactly when every Kraus operator acts on each state of positive weight as a multiple of the identity. If one of these states has full rank, it is 1 exactly when channel returns every matrix unchanged.", "quantifier": "all trace preserving channels, all Kraus descriptions of them, all probability vectors and lists of density matrices", "why_tests_cant": "an equivalence over all channels and ensembles", "anchors": ["PyQCodes/chan/channel.py:AnalyticQChan.fidelity_two_states", "PyQCodes/chan/channel.py:AnalyticQChan.average_entanglement_fidelity", "PyQCodes/chan/_choi.py:ChoiQutip.average_entanglement_fidelity", "PyQCodes/chan/channel.py:AnalyticQChan.channel"]}
{"id": "C122", "title": "A flagged mixture of two channels has the mixed coherent information", "statement": "Let a channel act as A with probability 1-q and as B with probability q, and let the receiver be told which: its operators are those of A times sqrt(1-q), padded below with zero rows, followed by those of B times sqrt(q), padded above. Then coherent_information(rho, 1) of this channel is (1-q) times that of A plus q times that of B, up to the cut-off of small eigenvalues.", "quantifier": "all trace preserving Kraus lists A and B with equal input dimension, q in [0,1], density matrices, dense or sparse objects and histories of earlier uses", "why_tests_cant": "an identity over all pairs of channels and all states", "anchors": ["PyQCodes/chan/channel.py:AnalyticQChan.coherent_information", "PyQCodes/chan/channel.py:AnalyticQChan.__init__"]}
{"id": "C123", "title": "The erasure channel has coherent information (1-2q) S(rho), and no number of uses does better", "statement": "For the erasure channel with probability q on D dimensions, coherent_information(rho, 1) is (1-2q) times the von Neumann entropy of rho. For every n and every state on n inputs, coherent_information(rho, n) is at most n max(0, 1-2q) log2(D), and n maximally mixed states reach n (1-2q) log2(D), up to the cut-off of small eigenvalues.", "quantifier": "all q in [0,1], D, n, density matrices (also entangled ones), dense or sparse objects and histories of earlier uses", "why_tests_cant": "the tests compare a few sampled parameters and states, mostly for one use", "anchors": ["PyQCodes/chan/channel.py:AnalyticQChan.coherent_information", "PyQCodes/chan/channel.py:AnalyticQChan.__init__"]}
{"id": "C124", "title": "The bit-flip channel has coherent information at most n (1 - h(p))", "statement": "For the bit-flip channel with probability p, coherent_information(rho, n) is at most n (1 - h(p)) for every state on n qubits, where h is the binary entropy, and n maximally mixed qubits reach this value, up to the cut-off of small eigenvalues.", "quantifier": "all p in [0,1], n, density matrices (also entangled ones), dense or sparse objects and histories of earlier uses", "why_tests_cant": "an upper bound over all states of all sizes", "anchors": ["PyQCodes/chan/channel.py:AnalyticQChan.coherent_information", "PyQCodes/chan/channel.py:AnalyticQChan.__init__"]}
{"id": "C125", "title": "Amplitude damping has the coherent information of its best diagonal state", "statement": "For amplitude damping with probability p, coherent_information of n copies of diag(1-g, g) is n (h((1-p)g) - h(pg)). If p <= 1/2, no state on n inputs gets more than n times the largest such number, and one use of any state gets at most what its diagonal gets; if p >= 1/2 no state gets more than 0. All up to the cut-off of small eigenvalues.", "quantifier": "all p in [0,1], g in [0,1], n, density matrices (also entangled ones), dense or sparse objects and histories of earlier uses", "why_tests_cant": "an upper bound over all states of all sizes", "anchors": ["PyQCodes/chan/channel.py:AnalyticQChan.coherent_information", "PyQCodes/chan/channel.py:AnalyticQChan.__init__"]}
{"id": "C126", "title": "The dephrasure channel on repetition states has the value of the paper", "statement": "For the dephrasure channel (dephasing with probability p, then erasure with probability q) and the state x |0..0><0..0| + (1-x) |1..1><1..1| on n qubits, coherent_information(rho, n, regularized) is ((1-q)^n - q^n) h(x) - (1-q)^n h((1+u)/2) with u = sqrt(1 - 4x(1-x)(1-(1-2p)^(2n))), over n if regularized, up to the cut-off of small eigenvalues. Where the formula used by the test-suite is defined it is the same number.", "quantifier": "all p, q, x in [0,1], all n, dense or sparse objects and histories of earlier uses", "why_tests_cant": "the test samples parameters for a few n; the claim is for every n", "anchors": ["PyQCodes/chan/channel.py:AnalyticQChan.coherent_information", "PyQCodes/chan/tests/test_channel.py:_analytic_solution"]}
{"id": "C127", "title": "Declaring two groups of operators orthogonal does not change the coherent information", "statement": "If the operators before position b are orthogonal to those from b on (K_j^dagger K_i = 0), a dense AnalyticQChan made with orthogonal_krauss=[b] has the same coherent_information as one made without, for every state and every number of uses.", "quantifier": "all Kraus lists, positions b, Hermitian inputs, numbers of uses and histories of earlier uses", "why_tests_cant": "the test uses one channel, with b in the middle", "anchors": ["PyQCodes/chan/channel.py:AnalyticQChan.__init__", "PyQCodes/chan/channel.py:AnalyticQChan.coherent_information", "PyQCodes/chan/_kraus.py:DenseKraus.entropy_exchange"]}
{"id": "C128", "title": "The least fidelity of the bit-flip, amplitude-damping and depolarising channels over pure states", "statement": "For n uses of the bit-flip or amplitude-damping channel with probability p, fidelity_two_states of every pure state of n qubits, entangled ones included, is at least sqrt(1-p)^n, and n copies of |0> (bit flip) or |1> (damping) have exactly this value. For the depolarising channel fidelity_two_states is sqrt(1-2p/3) for every pure qubit, and the n-th power of it for n copies.", "quantifier": "all p in [0,1], n, pure states, dense or sparse objects and histories of earlier uses", "why_tests_cant": "the tests run an optimiser for a hundred values of p and n = 1; the claim is a bound over all states", "anchors": ["PyQCodes/chan/channel.py:AnalyticQChan.fidelity_two_states", "PyQCodes/chan/tests/test_channel.py:test_minimum_fidelity_over_depolarizing_channel", "PyQCodes/chan/tests/test_channel.py:test_minimum_fidelity_over_amplitude_damping"]}
{"id": "C129", "title": "The optimisers cannot report more coherent information, or less fidelity, than the channel has", "statement": "Whatever scipy and the random generator do: when optimize_coherent returns for an erasure, bit-flip or amplitude-damping channel, its 'optimal_val' (times n if regularized) is at most the number of C123 to C125 for n uses; when optimize_fidelity returns with a pool or with differential evolution, 'optimal_val' lies between sqrt(1-p)^n and 1 for bit flip and damping, and is exactly sqrt(1-2p/3) for one use of the depolarising channel.", "quantifier": "all channel parameters, n, ranks, options, histories of earlier uses, random draws and optimiser outcomes", "why_tests_cant": "a bound over all outcomes of the optimiser and the random generator", "anchors": ["PyQCodes/chan/channel.py:AnalyticQChan.optimize_coherent", "PyQCodes/chan/channel.py:AnalyticQChan.optimize_fidelity"]}
{"id": "C130", "title": "The maximally mixed state is best for one use of the dephrasure channel below the test-suite's bound", "statement": "For dephasing probability p in (0,1/2) and erasure probability q at most the number optima_mixed_state_bound(p) of the test-suite, coherent_information with one use of the dephrasure channel is at most (1-2q) - (1-q) h(p) for every state of a qubit. The maximally mixed state reaches this value, and its n-fold product n times this value. So optimize_coherent with n=1 never reports more, whatever scipy and the random generator do.", "quantifier": "all p, q in the range, qubit states, dense or sparse objects, histories of earlier uses, options, random draws and optimiser outcomes", "why_tests_cant": "the test runs one optimiser on a grid of p and q; the claim is a bound over all states and all parameters", "anchors": ["PyQCodes/chan/channel.py:AnalyticQChan.coherent_information", "PyQCodes/chan/channel.py:AnalyticQChan.optimize_coherent", "PyQCodes/chan/tests/test_channel.py:test_maxima_first_coherent_information_dephrasure"]}
{"id": "C131", "title": "The dephrasure channel has no positive coherent information above (1-2p)/(2-2p)", "statement": "For p in [0,1/2] and q at least (1-2p)/(2-2p), coherent_information with n uses of the dephrasure channel is not positive for any state of n qubits, and optimize_coherent cannot report a positive number.", "quantifier": "all p, q in the range, n, states of n qubits, dense or sparse objects, histories of earlier uses, options, random draws and optimiser outcomes", "why_tests_cant": "a bound over all states and any number of uses", "anchors": ["PyQCodes/chan/channel.py:AnalyticQChan.coherent_information", "PyQCodes/chan/channel.py:AnalyticQChan.optimize_coherent", "PyQCodes/chan/tests/test_channel.py:set_up_dephrasure_conditions"]}
{"id": "C132", "title": "The value of random orthogonal unitaries, and of the depolarising channel, on the maximally mixed state", "statement": "When a channel applies one of several pairwise orthogonal unitaries with given probabilities, coherent_information of n copies of the maximally mixed state with n uses is n times (log2 D minus the entropy of the probabilities). For the depolarising channel this is n (1 - h(p) - p log2 3).", "quantifier": "all dimensions, lists of orthogonal unitaries and probabilities, n, dense or sparse objects and histories of earlier uses", "why_tests_cant": "a formula for any dimension, any list of matrices and any number of uses", "anchors": ["PyQCodes/chan/channel.py:AnalyticQChan.coherent_information", "PyQCodes/chan/channel.py:AnalyticQChan.entropy_exchange"]}
{"id": "C133", "title": "A channel given by its Choi matrix has the known values too", "statement": "An AnalyticQChan built from the Choi matrix of a channel, with as many systems at the output as at the input, returns for every state the same coherent_information as an object built from Kraus operators of the channel. So optimize_coherent reports at most max(0,1-2q) log2 D for erasure, 1-h(p) for bit flip, the best diagonal value for amplitude damping and (1-2q)-(1-q)h(p) for dephrasure below the test-suite's bound, which the maximally mixed state reaches; fidelity_two_states of pure qubits is at least sqrt(1-p) for bit flip and damping and equal to sqrt(1-2p/3) for depolarising. With another n than 1 the optimiser raises.", "quantifier": "all channel parameters, states, options, random draws and optimiser outcomes; every Choi matrix the constructor accepts", "why_tests_cant": "the tests run an optimiser on a grid of parameters with two of these channels", "anchors": ["PyQCodes/chan/channel.py:AnalyticQChan.coherent_information", "PyQCodes/chan/channel.py:AnalyticQChan.optimize_coherent", "PyQCodes/chan/_choi.py:ChoiQutip.complementary_channel", "PyQCodes/chan/tests/test_channel.py:test_optimizing_coherent_information_dephrasure_using_choi_matrix"]}
{"id": "C134", "title": "Correcting sparse errors gives the operators of the dense call", "statement": "StabilizerCode.kraus_operators_correcting_errors(errors, sparse=True) with scipy csr matrices returns sparse matrices with the entries of what the call with sparse=False returns for the same errors. False of the code: the test for anticommutation takes the truth value of a sparse matrix, so the call raises ValueError for every code and every non-empty list of errors; only the empty list comes back, as [].", "quantifier": "all codes the constructor accepts, all lists of csr matrices", "why_tests_cant": "the outcome is claimed for every code and every error matrix; the test-suite only passes sparse=False", "anchors": ["PyQCodes/codes.py:StabilizerCode.kraus_operators_correcting_errors", "PyQCodes/codes.py:StabilizerCode.binary_rep_to_pauli_mat"]}
{"id": "C135", "title": "optimize_decoder_stabilizers(sparse=True) optimises the decoder", "statement": "optimize_decoder_stabilizers with sparse=True, documented as a choice of how to store the operators, returns the result of the call with sparse=False. False of the code: with sparse=True it never returns, and for a valid code with at least one logical qubit and a trace-preserving single-qubit channel it raises ValueError, because np.outer of two sparse columns multiplies them as matrices. The columns it would multiply also differ from the dense branch's vectors: the entries of each operator are listed without the transpose.", "quantifier": "all codes, channels, options and solvers", "why_tests_cant": "that no arguments make the call return is a statement about all of them", "anchors": ["PyQCodes/avgfid/avg_fidelity.py:optimize_decoder_stabilizers", "PyQCodes/avgfid/avg_fidelity.py:_optimize_average_entang_fid"]}
{"id": "C136", "title": "The attributes of a code are the arguments it was made from", "statement": "After StabilizerCode(g, n, k, logical_ops) returns: n and k are the arguments, stab_bin_rep holds the given rows (for strings their binary representation), pauli_stab holds the given strings (for rows, strings that convert back to the rows), numb_stab is the number of generators, dim_code_space is n - numb_stab, which is k for arrays and whenever logical_ops is not given; logical_x and logical_z are the arrays given in logical_ops; iterating over the code yields numb_stab commuting rows of 2n bits that generate the same group up to the order of the qubits.", "quantifier": "all codes the constructor accepts, as binary arrays or as strings of length n", "why_tests_cant": "all sizes and all generators", "anchors": ["PyQCodes/codes.py:StabilizerCode.__init__", "PyQCodes/codes.py:StabilizerCode.__iter__", "PyQCodes/codes.py:StabilizerCode.pauli_stab"]}
{"id": "C137", "title": "OverParam changes a density matrix by no more than it drops", "statement": "For every density matrix rho of size below 100000 and every rank from 1 to the size, OverParam.vec_from_rho followed by rho_from_vec returns a density matrix rho' of at most that rank such that rho - w rho' is positive for some 0 < w <= 1 and no entry of rho' differs from rho by more than 2(1-w). If rho has at most the rank asked for, 1-w is at most rank/100000, so no entry moves by more than 2 rank/100000, also when rho has eigenvalues below 1e-5.", "quantifier": "all density matrices of size below 100000, all ranks, all admissible eigh", "why_tests_cant": "the tests only try matrices whose eigenvalues are far from the cut-off", "anchors": ["PyQCodes/chan/param.py:OverParam.vec_from_rho", "PyQCodes/chan/param.py:OverParam.rho_from_vec"]}
{"id": "C138", "title": "Mixing two channels without saying which one acted has at most the mean coherent information", "statement": "For all trace-preserving Kraus operators a and b of the same shape and every q in [0,1], AnalyticQChan accepts the list sqrt(1-q) a followed by sqrt(q) b, and its coherent_information on one use is, for every density matrix, at most (1-q) times that of a plus q times that of b, up to the eigenvalue cut-off, whatever the storage of the three objects and whatever was asked of them before.", "quantifier": "all pairs of channels of the same shape, all probabilities, all density matrices, all histories, all admissible eigvalsh", "why_tests_cant": "an inequality over all channels and states; tests compare a few values", "anchors": ["PyQCodes/chan/channel.py:AnalyticQChan.coherent_information", "PyQCodes/chan/_kraus.py:DenseKraus.channel"]}
{"id": "C139", "title": "On a code that corrects its errors a channel keeps all the information", "statement": "If W embeds d dimensions into the input of n uses of a channel and W^dagger A_j^dagger A_i W is a multiple of the identity for any two of its operators, then coherent_information on W sigma W^dagger is the entropy of sigma, up to the eigenvalue cut-off. In particular, if a stabilizer code of distance 2t+1 without generators that have an odd number of Ys is given, E is what encode_krauss_operators returns for it and each operator of the channel acts on at most t of the n qubits (is a sum of such Paulis), then coherent_information on E sigma E^dagger is the entropy of sigma, and k on the maximally mixed state of the code.", "quantifier": "all channels, all codes, all numbers of uses, all encoded states, all histories of the channel object, all admissible eigh and eigvalsh", "why_tests_cant": "relates the code half of the package to the channel half for every code and every correctable channel", "anchors": ["PyQCodes/codes.py:StabilizerCode.encode_krauss_operators", "PyQCodes/chan/channel.py:AnalyticQChan.coherent_information"]}
{"id": "C140", "title": "Rounding errors of the eigenvalue routine neither reach a logarithm nor move the coherent information noticeably", "statement": "Suppose numpy.linalg.eigvalsh returns each eigenvalue only up to an error eps of at most 1e-10 (so zeros may come out negative). Then for every density matrix the eigenvalues that pass the cut-off of entropy are positive, so no logarithm of zero or of a negative number is taken; entropy differs from the von Neumann entropy of a d by d density matrix by at most d * 6.8e-9; and coherent_information of n uses of a Kraus channel returns the difference of the entropies of the output and of the exchange matrix up to (dimension of the output + number of operators) * 6.8e-9.", "quantifier": "all trace-preserving channels, numbers of uses, density matrices, histories of the channel object, all eigenvalue routines with errors of at most 1e-10", "why_tests_cant": "a test sees one machine's rounding on a few matrices; this covers every pattern of errors on every matrix", "anchors": ["PyQCodes/chan/channel.py:AnalyticQChan.entropy", "PyQCodes/chan/channel.py:AnalyticQChan.coherent_information"]}
{"id": "C141", "title": "What the environment of a channel receives is again a channel, with the opposite coherent information", "statement": "From the operators A_t of a channel into O dimensions form the O operators whose row t is the row x of A_t. AnalyticQChan accepts them. For any number of uses, channel() of that object returns the matrix that entropy_exchange() of the given channel returns, and coherent_information of the two objects on the same state adds up to zero, up to the eigenvalue cut-off.", "quantifier": "all trace-preserving channels, numbers of uses, states, storage formats and histories of both objects, all admissible eigvalsh", "why_tests_cant": "an identity between two objects for every channel and every state", "anchors": ["PyQCodes/chan/channel.py:AnalyticQChan.entropy_exchange", "PyQCodes/chan/channel.py:AnalyticQChan.channel", "PyQCodes/chan/channel.py:AnalyticQChan.coherent_information"]}
{"id": "C142", "title": "Rotating the input of a channel is the same as rotating its operators", "statement": "If V is an isometry, AnalyticQChan accepts the operators A V of a channel A after V, and coherent_information of n uses of that channel on rho is coherent_information of n uses of the channel on V^(x)n rho V^(x)n^dagger, up to the eigenvalue cut-off.", "quantifier": "all trace-preserving channels, isometries, numbers of uses, states, storage formats and histories of both objects, all admissible eigvalsh", "why_tests_cant": "an identity between two objects for every channel, isometry and state", "anchors": ["PyQCodes/chan/channel.py:AnalyticQChan.coherent_information", "PyQCodes/chan/_kraus.py:DenseKraus.update_kraus_operators"]}
{"id": "C143", "title": "A code does not depend on which generators of its stabilizer group are given", "statement": "Two StabilizerCode objects whose generators stabilise the same vectors (with the textbook X, Y, Z) have the same code space: encode_krauss_operators returns as many columns for both, with the same projector, the columns of the one being the columns of the other times a unitary.", "quantifier": "all pairs of accepted codes on the same number of qubits, all admissible eigh", "why_tests_cant": "ranges over all pairs of generating sets of all codes", "anchors": ["PyQCodes/codes.py:StabilizerCode.encode_krauss_operators", "PyQCodes/codes.py:StabilizerCode.binary_rep_to_pauli_mat", "PyQCodes/codes.py:StabilizerCode.__init__"]}
{"id": "C144", "title": "The fidelity estimate is, in expectation, the average fidelity up to epsilon squared", "statement": "Let the channel on n qubits be a unitary. One trial of estimate_average_fidelity(channel, 1, epsilon) counts with a probability p that depends on the random phases. Averaged over the phases, all choices of np.random.choice being equally likely and independent, p differs from the average fidelity of the unitary over all pure states, (d + |tr U|^2)/(d(d+1)) with d = 2^n, by at most epsilon^2. With l = ceiling(log2(1/epsilon)/n) >= 1 it is exactly F + d^(-2l) (F_H - F), where F is the average fidelity and F_H the fidelity averaged over the 2^n states H|z>.", "quantifier": "all numbers of qubits, all epsilon > 0, all channels that act as a unitary, all random phases and measurement outcomes, simulators and real devices in a state in which a trial can start", "why_tests_cant": "an exact average over exponentially many phase choices, for every channel; a test samples a few trials", "anchors": ["PyQCodes/device_adaptor.py:ProjectQDeviceAdaptor.estimate_average_fidelity", "PyQCodes/device_adaptor.py:ProjectQDeviceAdaptor.approximate_unitary_two_design", "PyQCodes/device_adaptor.py:ProjectQDeviceAdaptor.inverse_of_unitary_two_design"]}
{"id": "C145", "title": "The device's fidelity estimate and the analytic entanglement fidelity agree", "statement": "Let a circuit on n qubits apply the unitary U. With d = 2^n let f be what AnalyticQChan, given the Choi matrix of U, returns as average_entanglement_fidelity([1], [I/d]). Then the probability that a trial of estimate_average_fidelity counts, averaged over the random phases, differs from (d f + 1)/(d + 1) by at most epsilon^2.", "quantifier": "all numbers of qubits, all unitaries, all epsilon > 0, all random phases, all states in which a trial can start", "why_tests_cant": "compares two unrelated modules for every unitary, with an average over exponentially many phases", "anchors": ["PyQCodes/find_codes.py:QDeviceChannel.estimate_average_fidelity_channel", "PyQCodes/device_adaptor.py:ProjectQDeviceAdaptor.estimate_average_fidelity", "PyQCodes/chan/channel.py:AnalyticQChan.average_entanglement_fidelity", "PyQCodes/chan/_choi.py:ChoiQutip.average_entanglement_fidelity"]}
{"id": "C146", "title": "The fidelity estimate of a code says how well the message survives", "statement": "estimate_average_fidelity_error_code(encoder, decoder, ntimes, epsilon): if decoder after channel after encoder leaves the k message qubits as they are whenever the other n - k qubits start in |0...0>, the estimate is expected to be at least 1 - epsilon^2.", "quantifier": "all encoders, channels and decoders that act as unitaries, all numbers of qubits, all epsilon > 0, all random phases", "why_tests_cant": "an average over exponentially many phases, for every encoder, channel and decoder", "anchors": ["PyQCodes/find_codes.py:QDeviceChannel.estimate_average_fidelity_error_code", "PyQCodes/device_adaptor.py:ProjectQDeviceAdaptor.estimate_average_fidelity"]}
{"id": "C147", "title": "More trials make the fidelity estimate better at the usual rate", "statement": "On a simulator, for a circuit that applies a unitary and 0 < epsilon < 1: the trials of estimate_average_fidelity(channel, N, epsilon) are independent of each other and all count with the same probability, which is within epsilon^2 of the average fidelity F; the estimate is the fraction that counted, so its mean squared error is at most 1/(4N) + epsilon^4, and it is off by epsilon^2 + delta or more with a probability of at most 1/(4 N delta^2).", "quantifier": "all numbers of qubits and of trials, all unitaries, all epsilon in (0, 1), all delta > 0, with or without cheat, all random phases and measurement outcomes", "why_tests_cant": "a statement about the law of the result, over all random phases and measurement outcomes; a test sees a few samples", "anchors": ["PyQCodes/device_adaptor.py:ProjectQDeviceAdaptor.estimate_average_fidelity", "PyQCodes/device_adaptor.py:ProjectQDeviceAdaptor.set_register_to_zero", "PyQCodes/find_codes.py:QDeviceChannel.estimate_average_fidelity_channel"]}
{"id": "C148", "title": "The fidelity estimate of a noisy circuit estimates the fidelity of its channel", "statement": "For a circuit function that on each call runs one of several unitary circuits at random, circuit i with probability q[i] (the bit flip example of the README): the expected probability that a trial of estimate_average_fidelity counts is within epsilon^2 of (d + sum_i q[i] |tr A[i]|^2) / (d (d + 1)), the average fidelity of the channel with Kraus operators sqrt(q[i]) A[i]. On a simulator and for 0 < epsilon < 1 the N trials are independent, the mean squared error of the estimate is at most 1/(4N) + epsilon^4, and it is off by epsilon^2 + delta or more with a probability of at most 1/(4 N delta^2).", "quantifier": "all numbers of qubits and of trials, all lists of unitary circuits and all distributions on them, all epsilon, all delta > 0, with or without cheat, all random phases, noise and measurement outcomes", "why_tests_cant": "a statement about the law of the result over random phases, noise and outcomes; the test in the repository compares a few samples with a tolerance", "anchors": ["PyQCodes/device_adaptor.py:ProjectQDeviceAdaptor.estimate_average_fidelity", "PyQCodes/README.md:bit_flip", "PyQCodes/tests/test_find_codes.py:test_average_fidelity_on_bit_flip_chanel"]}
{"id": "C149", "title": "The device's estimate for a noisy circuit agrees with the analytic fidelity of its channel", "statement": "A circuit that runs U[i] with probability q[i] and the AnalyticQChan of the Kraus operators sqrt(q[i]) U[i] describe the same channel: the expected estimate of the device is within epsilon^2 of (d f + 1)/(d + 1), f being what average_entanglement_fidelity([1], [I/d]) returns, whether the channel was given by its Choi matrix or by its Kraus operators.", "quantifier": "all numbers of qubits, all lists of unitary circuits and all distributions on them, all epsilon, with or without cheat", "why_tests_cant": "relates two classes over all circuits, distributions and random numbers", "anchors": ["PyQCodes/device_adaptor.py:ProjectQDeviceAdaptor.estimate_average_fidelity", "PyQCodes/chan/channel.py:AnalyticQChan.average_entanglement_fidelity", "PyQCodes/chan/_kraus.py:DenseKraus.average_entanglement_fidelity"]}
{"id": "C150", "title": "The fidelity estimate of a code under noise", "statement": "For a device channel that runs circuit i with probability q[i], estimate_average_fidelity_error_code(encoder, decoder, N, epsilon) estimates the average fidelity of the channel with the Kraus operators sqrt(q[i]) D A[i] E on all qubits: in expectation up to epsilon^2, and on a simulator with mean squared error at most 1/(4N) + epsilon^4. If the decoder undoes the encoder this is the average fidelity without the code.", "quantifier": "all numbers of qubits and of trials, all encoders that draw no random numbers, all decoders, all lists of unitary circuits and distributions on them, all epsilon", "why_tests_cant": "a statement about the law of the result over random phases, noise and outcomes, for all codes", "anchors": ["PyQCodes/find_codes.py:QDeviceChannel.estimate_average_fidelity_error_code", "PyQCodes/device_adaptor.py:ProjectQDeviceAdaptor.estimate_average_fidelity"]}
{"id": "C151", "title": "A channel keeps the operators it was given", "statement": "After AnalyticQChan (DenseKraus, SparseKraus) was constructed from a list or an array of Kraus operators, nothing the caller later writes into that list's matrices or into that array changes what the channel returns.", "quantifier": "all channels, dense or sparse, all arguments, and all histories of in-place writes to the caller's arrays and of update_kraus_operators calls", "why_tests_cant": "ranges over all histories of writes and updates; the effect shows only after certain orders of them", "anchors": ["PyQCodes/chan/_kraus.py:DenseKraus.__init__", "PyQCodes/chan/_kraus.py:SparseKraus.__init__", "PyQCodes/chan/_kraus.py:Kraus.update_kraus_operators"]}
{"id": "C152", "title": "A stabilizer code keeps the generators and logical operators it was given", "statement": "After StabilizerCode(generators, n, k, logical_ops) was constructed, nothing the caller later writes into the arrays passed, or into arrays the code returned, changes the code.", "quantifier": "all codes, with or without logical_ops, and all histories of in-place writes", "why_tests_cant": "ranges over all histories of writes", "anchors": ["PyQCodes/codes.py:StabilizerCode.__init__", "PyQCodes/codes.py:StabilizerCode.stab_bin_rep"]}
{"id": "C153", "title": "Concatenation multiplies distances", "statement": "If every operator on fewer than d1 qubits that commutes with the first code's stabilizers is a stabilizer, and likewise d2 for the second code, which encodes one qubit, then the code that concatenate_codes returns has the same property with d1*d2.", "quantifier": "all outer codes, all inner codes encoding one qubit whose used logical operators commute with its stabilizers and anticommute with each other, and all distances d1, d2", "why_tests_cant": "a distance ranges over all Pauli operators on n*m qubits, and the claim over all pairs of codes", "anchors": ["PyQCodes/codes.py:StabilizerCode.concatenate_codes"]}
{"id": "C154", "title": "The circuits' form of a code has the code's distance", "statement": "The row-reduced generators a StabilizerCode computes and its circuits use have distance at least d exactly when the generators that were given do.", "quantifier": "all codes the constructor accepts, with or without logical_ops, and all d", "why_tests_cant": "ranges over all codes and, for each, over all Pauli operators", "anchors": ["PyQCodes/codes.py:StabilizerCode.__init__", "PyQCodes/codes.py:StabilizerCode._gaussian_elimination_first_block"]}
{"id": "C155", "title": "A concatenated code corrects up to the product of the distances", "statement": "Encode a message with the code that concatenate_codes returns, let any combination of products of arbitrary single-qubit operators on at most t qubits act, measure the stabilizers, and apply any correction on at most t qubits with the measured readings: decoding returns the message, whenever 2t+1 <= d1*d2. And the coherent information of a channel whose operators act on at most t qubits, used on this code, is the entropy of the message up to the documented cut-off.", "quantifier": "all outer and inner codes (the inner encoding one qubit) with even numbers of Ys, all messages, all such errors and channels, all outcomes, all t with 2t+1 <= d1*d2", "why_tests_cant": "the errors form a continuum, and the claim is over all pairs of codes", "anchors": ["PyQCodes/codes.py:StabilizerCode.concatenate_codes", "PyQCodes/codes.py:StabilizerCode.encoding_circuit", "PyQCodes/codes.py:StabilizerCode.decoding_circuit", "PyQCodes/codes.py:StabilizerCode.encode_krauss_operators"]}
{"id": "C156", "title": "Concatenation encodes every qubit of a codeword once more", "statement": "Take a state of the first code, and two codewords of the second, [m,1], code on which the logical operators that concatenate_codes uses act as X and Z. Replacing every qubit of the state by the corresponding superposition of the two codewords gives a state that every generator of the returned code fixes, and keeps inner products when the two codewords are orthonormal. In particular this is so for states and codewords prepared by encoding_circuit, when the generators given fix the states encoding_circuit prepares and the second code's logical X has no Z part.", "quantifier": "all outer codes, all inner codes encoding one qubit, all states of the outer code, all such pairs of codewords, all messages", "why_tests_cant": "the states form a continuum, and the claim is over all pairs of codes", "anchors": ["PyQCodes/codes.py:StabilizerCode.concatenate_codes", "PyQCodes/codes.py:StabilizerCode.encoding_circuit", "PyQCodes/codes.py:StabilizerCode.binary_rep_to_pauli_mat"]}
