{"id": "C01", "title": "MLE evaluation is the multilinear extension", "statement": "Evaluating a multilinear extension built from a table of 2^n field values at a point x returns sum over all indices b of table[b] * prod_i (x_i if bit i of b is set else 1-x_i), bit 0 being the first coordinate; in particular on a boolean point it returns exactly the table entry with that little-endian index.", "quantifier": "every field, every n, every table of length 2^n, every point of length n", "why_tests_cant": "Tests sample random points; the equality is a polynomial identity that must hold at every point because the verifier's points are adversarial/random.", "anchors": ["multilinear_extensions/src/mle.rs: DenseMultilinearExtension::evaluate, fix_variables, from_evaluations_vec"]}
{"id": "C02", "title": "All ways of fixing MLE variables agree", "statement": "Fixing the low variables to a partial point (copying, in place, parallel) and then evaluating the rest equals evaluating at the concatenated point; fixing the high variables equals evaluating with the partial point appended at the end; the in-place and thread-parallel variants return the same table as the copying one.", "quantifier": "every table, every partial point, every split position, every number of worker threads", "why_tests_cant": "Thread counts, split positions and points are unbounded; a wrong index stride only shows for particular sizes.", "anchors": ["multilinear_extensions/src/mle.rs: fix_variables, fix_variables_in_place, fix_high_variables, fix_high_variables_in_place, fix_variables_parallel, fix_variables_in_place_parallel"]}
{"id": "C03", "title": "Equality-polynomial tables", "statement": "The table of eq(x, r) built sequentially, built in parallel with any power-of-two thread count, or built by compute_betas_eval has at index b the value eq_eval(bits(b), r); its inner product with any value table equals the MLE evaluation of that table at r; eq_eval is symmetric and is the identity indicator on boolean points.", "quantifier": "every r, every index, every thread count", "why_tests_cant": "The builders are in-place doubling loops with descending indices; only a for-all proof rules out aliasing or order mistakes at every size.", "anchors": ["multilinear_extensions/src/virtual_poly.rs: build_eq_x_r_vec, build_eq_x_r_vec_sequential, eq_eval", "zkml/src/commit/mod.rs: compute_betas_eval, identity_eval"]}
{"id": "C04", "title": "Ranged MLE views evaluate only their range", "statement": "A ranged view (offset, range) of a multilinear extension evaluates to the extension of the table restricted to that range.", "quantifier": "every table, every aligned range, every point", "why_tests_cant": "The answer differs from the whole table's only for proper sub-ranges and specific points.", "anchors": ["multilinear_extensions/src/mle.rs: RangedMultilinearExtension"]}
{"id": "C05", "title": "Univariate interpolation used by the sumcheck verifier is exact", "statement": "Given the evaluations of any polynomial of degree < len at 0..len-1, the verifier's interpolation returns the polynomial's value at the challenge, for every challenge on which it does not panic; it panics exactly on challenges in {0..len-1}.", "quantifier": "every polynomial, every degree below the characteristic, every challenge", "why_tests_cant": "It is an algebraic identity over the whole field; the panicking challenges have negligible density and are never hit by tests.", "anchors": ["sumcheck/src/util.rs: interpolate_uni_poly, field_factorial"]}
{"id": "C06", "title": "Barycentric extrapolation and batch inversion are exact", "statement": "Batch inversion replaces every non-zero entry by coeff times its inverse and leaves zeros, whatever the chunking over threads; extrapolation from distinct points returns the value of the unique low-degree polynomial at every point, outside the interpolation points.", "quantifier": "every vector including zeros, every chunk size, every set of distinct points, every evaluation point", "why_tests_cant": "Quantifies over all vectors, zero patterns and thread counts.", "anchors": ["sumcheck/src/util.rs: barycentric_weights, batch_inversion_and_mul, serial_batch_inversion_and_mul, extrapolate"]}
{"id": "C07", "title": "Sumcheck completeness", "statement": "For every virtual polynomial (sum of products of multilinear tables, also of fewer variables) the honest prover's messages, under any transcript, are accepted by the verifier for the true sum, and the returned sub-claim is the true value of the polynomial at the transcript's challenge point.", "quantifier": "every virtual polynomial, every transcript/challenge sequence avoiding the interpolation nodes", "why_tests_cant": "Tests fix a few shapes; completeness must hold for every mix of degrees and variable counts.", "anchors": ["sumcheck/src/prover.rs: prove_round_and_update_state, prove_parallel", "sumcheck/src/verifier.rs: IOPVerifierState::verify", "sumcheck_macro/src/lib.rs"]}
{"id": "C08", "title": "Sumcheck soundness", "statement": "If the verifier accepts a claimed sum that is wrong and the final sub-claim is nevertheless true, then in some round the challenge is a root of a non-zero polynomial of degree at most max_degree fixed before the challenge was drawn; hence for every adaptive prover at most n*d*|S|^(n-1) of the |S|^n challenge vectors are bad.", "quantifier": "every adaptive prover strategy, every polynomial, every claimed sum, every challenge set", "why_tests_cant": "Quantifies over all malicious provers; no finite test can.", "anchors": ["sumcheck/src/verifier.rs: verify, check_and_generate_subclaim"]}
{"id": "C09", "title": "Deferred sumcheck checks equal the interactive ones", "statement": "The verifier that collects all rounds and checks at the end accepts exactly the proofs that the round-by-round protocol accepts; a proof with too few rounds, or with a round message of the wrong length, is never accepted; anything after the first n rounds and the point stored in the proof have no influence on the verdict.", "quantifier": "every proof object, including malformed ones, every transcript", "why_tests_cant": "The space of malformed proofs is unbounded.", "anchors": ["sumcheck/src/verifier.rs: verify_round_and_update_state, check_and_generate_subclaim"]}
{"id": "C10", "title": "Parallel sumcheck prover is schedule independent", "statement": "The multi-threaded prover sends the same round messages and final evaluations as the single-threaded prover, for every power-of-two number of threads and every order in which thread results arrive.", "quantifier": "every thread count, every arrival order, every polynomial", "why_tests_cant": "Thread schedules cannot be enumerated by tests.", "anchors": ["sumcheck/src/prover.rs: prove_batch_polys, sumcheck/src/util.rs: merge_sumcheck_polys, AdditiveVec"]}
{"id": "C11", "title": "Same-polynomial claim aggregation is sound", "statement": "When the aggregation verifier accepts several (point, value) claims about one polynomial and returns one claim, then a true returned claim implies all input claims are true, except for few batching challenges; honest proofs are accepted.", "quantifier": "every polynomial, every list of claims, every proof", "why_tests_cant": "Soundness quantifies over all proofs.", "anchors": ["zkml/src/commit/same_poly.rs: Prover::prove, Verifier::verify"]}
{"id": "C12", "title": "LogUp circuit computes the fraction sum", "statement": "The layered fraction circuit maps numerators n_i and denominators d_i (2^k of them) to one fraction N/D with D = prod d_i and, when no d_i is zero, N/D = sum n_i/d_i.", "quantifier": "every k, all numerators and denominators", "why_tests_cant": "All sizes and values.", "anchors": ["zkml/src/lookup/logup_gkr/circuit.rs: LogUpCircuit, structs.rs: fractional_outputs"]}
{"id": "C13", "title": "Honest lookups balance", "statement": "If every looked-up row occurs in the table, the multiplicities computed by the prover (count of lookups divided by count of occurrences of the row) make the total lookup-plus-table fraction sum zero for every challenge that does not hit a pole.", "quantifier": "every table (with duplicate rows), every lookup multiset, every challenge", "why_tests_cant": "Ranges over all tables, inputs and challenges.", "anchors": ["zkml/src/lookup/context.rs: generate_lookup_witnesses", "zkml/src/lookup/witness.rs: LogUpWitness", "zkml/src/iop/verifier.rs: final numerator check"]}
{"id": "C14", "title": "Lookup soundness", "statement": "If some looked-up value is not in the table, then for any multiplicities the fraction identity fails for all but at most (#lookups + table size) values of the constant challenge, provided the number of lookups is below the field characteristic.", "quantifier": "every table, every multiplicity vector, every bad lookup", "why_tests_cant": "Quantifies over malicious multiplicities and all challenges.", "anchors": ["zkml/src/lookup/logup_gkr/structs.rs", "zkml/src/iop/verifier.rs: verify step 8"]}
{"id": "C15", "title": "LogUp-GKR verifier reduces claims correctly", "statement": "When the verifier accepts a LogUp proof whose final claims are true of the committed columns, the claimed output fractions are those of the columns, except for few challenges.", "quantifier": "every proof object, every column set, every transcript", "why_tests_cant": "Quantifies over malicious proofs, including malformed ones.", "anchors": ["zkml/src/lookup/logup_gkr/verifier.rs: verify_logup_proof"]}
{"id": "C16", "title": "Every table fraction counted in the final check is verified", "statement": "The fractions summed in the final lookup check of the model verifier all come from sub-proofs that were verified against the context's tables.", "quantifier": "every proof object", "why_tests_cant": "Only a malformed proof (extra or missing table proofs) distinguishes the cases.", "anchors": ["zkml/src/iop/verifier.rs: Verifier::verify (steps 1,5,8)"]}
{"id": "C17", "title": "Lookup challenges are bound to the witness", "statement": "The lookup challenges are drawn after the prover's witness commitments, so two proofs with different committed witnesses get independent challenges.", "quantifier": "every pair of runs", "why_tests_cant": "A property of what is absorbed, not of any single run's result.", "anchors": ["zkml/src/iop/verifier.rs: ChallengeStorage::initialise", "zkml/src/lookup/witness.rs: write_to_transcript", "zkml/src/lookup/context.rs: generate_lookup_witnesses"]}
{"id": "C18", "title": "Lookup table columns evaluated by the verifier equal the prover's table", "statement": "For each table type the verifier's closed-form column evaluations equal the multilinear extension of the column the prover materialises, at every point.", "quantifier": "every table type and parameter, every evaluation point", "why_tests_cant": "Polynomial identity in all points and all table sizes.", "anchors": ["zkml/src/lookup/context.rs: TableType::get_merged_table_column, evaluate_table_columns"]}
{"id": "C19", "title": "Merged lookup keys identify rows", "statement": "Two (input, output) rows with entries below 2^31 in absolute value have equal merged keys only if they are equal, so counting merged keys counts rows.", "quantifier": "all pairs of rows in range", "why_tests_cant": "2^64 pairs.", "anchors": ["zkml/src/lookup/context.rs: COLUMN_SEPARATOR, get_merged_table_column, count_elements"]}
{"id": "C20", "title": "Lookup tables cover the values honest inference produces", "statement": "Every value an honest layer sends to a lookup (ReLU input, range chunk, clamping input, error-range value) is a row of the table it is looked up in, and every row of the table is a correct input/output pair of the function.", "quantifier": "every quantised input, every layer parameter", "why_tests_cant": "The failing values sit at range boundaries and depend on parameters.", "anchors": ["zkml/src/lookup/context.rs: TableType", "zkml/src/layers/requant.rs: clamping_size", "zkml/src/layers/activation.rs: Relu::apply"]}
{"id": "C21", "title": "Distinct tables have distinct challenge entries", "statement": "Two different tables of a model never share the name under which their challenges are stored.", "quantifier": "all pairs of table types and parameters", "why_tests_cant": "Parameters range over all integers and float scales.", "anchors": ["zkml/src/lookup/context.rs: TableType::name", "zkml/src/iop/mod.rs: ChallengeStorage::initialise"]}
{"id": "C22", "title": "Integer to field embedding is faithful", "statement": "Converting a quantised integer to the field and back returns it, for every |x| <= (p-1)/2; sums and products computed in the field convert back to the integer results as long as these stay in that range; to_element is total and to_field is injective on the range.", "quantifier": "every integer in range, every expression", "why_tests_cant": "2^63 integers; sign handling at the boundaries.", "anchors": ["zkml/src/quantization/mod.rs: Fieldizer::to_field, IntoElement::to_element"]}
{"id": "C23", "title": "Quantisation stays in range and is monotone", "statement": "Quantising any real in the scaling range gives an integer in [MIN, MAX]; quantisation is monotone and dequantise-quantise differs by at most half a step inside the range.", "quantifier": "every float value and every positive scale", "why_tests_cant": "Uncountably many values; rounding boundaries.", "anchors": ["zkml/src/quantization/mod.rs: ScalingFactor::quantize, dequantize"]}
{"id": "C24", "title": "Requantisation is correctly rounded and saturating", "statement": "The integer requantisation of e equals round-half-up(e * fpm / 2^shift) clamped to [-MAX, MAX], is monotone in e, never leaves the range, and differs from exact scaling by at most one half plus the fixed-point error.", "quantifier": "every i64 input in the accepted range, every multiplier and shift produced by the constructor", "why_tests_cant": "2^63 inputs times all multipliers; overflow at the edges.", "anchors": ["zkml/src/layers/requant.rs: Requant::apply, op, from_multiplier"]}
{"id": "C25", "title": "Requantisation witness decomposition is complete and sound", "statement": "The prover's chunks and clamping value recombine to the layer input, and conversely any chunk values accepted by the range and clamping tables that satisfy the recombination equation in the field force the layer output to be the requantisation of the layer input.", "quantifier": "every input, every malicious chunk assignment", "why_tests_cant": "Soundness ranges over all assignments modulo p.", "anchors": ["zkml/src/layers/requant.rs: lookup_witness, recombine_claims, verify_requant", "zkml/src/lookup/context.rs: TableType::Clamping, Range"]}
{"id": "C26", "title": "Declared bit sizes bound layer outputs", "statement": "The output bit size announced by dense, matrix multiplication and addition layers bounds every output value for every in-range input, so the following requantisation accepts it and nothing overflows i64.", "quantifier": "every weight matrix, every quantised input, every size", "why_tests_cant": "Worst case needs extreme weights and all sizes.", "anchors": ["zkml/src/layers/dense.rs: output_bitsize", "zkml/src/tensor.rs: matmul_output_bitsize", "zkml/src/layers/requant.rs: op"]}
{"id": "C27", "title": "Zero padding keeps every entry in place", "statement": "Padding a tensor to a larger shape returns a tensor of that shape whose entry at every old multi-index is the old entry and whose other entries are zero; padding to the next powers of two is the same operation.", "quantifier": "every rank, every shape, every larger shape, every content", "why_tests_cant": "The implementation moves data in place with computed strides; every rank and shape must be right.", "anchors": ["zkml/src/tensor.rs: pad_to_shape, recursive_pad, pad_next_power_of_two"]}
{"id": "C28", "title": "Padded layers compute the unpadded result", "statement": "Evaluating a zero-padded matrix/dense layer on a zero-padded input gives the zero-padded output of the original layer; and the matrix padded to ignore garbage gives the same product on an input with arbitrary garbage in its padding positions.", "quantifier": "every matrix, every input, every garbage content, every shape", "why_tests_cant": "Garbage values are arbitrary; shapes unbounded.", "anchors": ["zkml/src/padding.rs: pad_dense, pad_matmul", "zkml/src/tensor.rs: matvec, matmul, pad_matrix_to_ignore_garbage"]}
{"id": "C29", "title": "Tensor index arithmetic is a bijection", "statement": "Row-major strides map multi-indices of a shape one-to-one onto 0..product; transpose and axis permutation move each entry to its permuted index, transposing twice is the identity, and out-of-range accessors are rejected.", "quantifier": "every rank, shape and index", "why_tests_cant": "All shapes and indices.", "anchors": ["zkml/src/tensor.rs: Shape::strides, transpose, permute3d, get_idx"]}
{"id": "C30", "title": "Concatenation and slicing", "statement": "Concatenating tensors yields a tensor whose shape matches its data length and whose slices along the concatenation axis are the operands; incompatible shapes are rejected.", "quantifier": "all operand pairs including mismatching ones", "why_tests_cant": "Mismatching shapes with equal rank are rarely tested.", "anchors": ["zkml/src/tensor.rs: concat, slice_on_dim, slice_2d, slice_3d"]}
{"id": "C31", "title": "Max pooling", "statement": "2x2 max pooling returns for each window the maximum of its entries, the declared output shape equals the produced one, and the difference columns used in the proof are non-negative with product zero exactly when the output is the maximum.", "quantifier": "every tensor and shape, square or not", "why_tests_cant": "All contents; non-square shapes.", "anchors": ["zkml/src/tensor.rs: maxpool2d", "zkml/src/layers/pooling.rs: maxpool2d_shape, compute_polys"]}
{"id": "C32", "title": "FFT convolution equals direct convolution", "statement": "The FFT is the discrete Fourier transform for the given root, its inverse undoes it, and the convolution computed through it equals the direct convolution.", "quantifier": "every power-of-two length, every pair of inputs", "why_tests_cant": "Algebraic identity for all lengths and inputs.", "anchors": ["zkml/src/tensor.rs: fft, fft_conv, get_root_of_unity"]}
{"id": "C33", "title": "Broadcast shape rule", "statement": "Broadcasting two shapes is commutative, succeeds exactly when every aligned pair of dimensions is equal or one of them is 1, and each resulting dimension is the maximum of the pair.", "quantifier": "all pairs of shapes", "why_tests_cant": "All ranks and dimensions.", "anchors": ["zkml/src/tensor.rs: get_broadcasted_shape, expand"]}
{"id": "C34", "title": "Dense layer proof is sound", "statement": "If the dense-layer verifier accepts and the resulting claims about weights, bias and input are true, the claim about the layer output is true, except for few challenges; honest proofs are accepted.", "quantifier": "every proof object, every weight matrix, bias, input", "why_tests_cant": "Soundness quantifies over all proofs, including ones with unexpected vector lengths.", "anchors": ["zkml/src/layers/dense.rs: prove_step, verify_dense, individual_to_virtual_claim"]}
{"id": "C35", "title": "Matrix multiplication proof is sound", "statement": "Same as the dense layer for products of two matrices, also when one factor is transposed; the stand-alone matrix-vector verifier likewise binds the vector evaluation it returns.", "quantifier": "every proof object, every pair of matrices", "why_tests_cant": "Quantifies over all proofs.", "anchors": ["zkml/src/layers/matrix_mul.rs: verify_matmul", "zkml/src/layers/matvec.rs: verify", "zkml/src/layers/concat_matmul.rs: verify"]}
{"id": "C36", "title": "Pooling proof binds the input", "statement": "The single input claim produced by the pooling verifier is true of an input only if, except for few challenges, all four strided sub-tables used in the max check are those of that input.", "quantifier": "every input, every malicious set of difference columns", "why_tests_cant": "Quantifies over malicious columns.", "anchors": ["zkml/src/layers/pooling.rs: verify_pooling (input batching challenges)"]}
{"id": "C37", "title": "Convolution proof is sound", "statement": "If the convolution verifier accepts, the returned input claim and the filter claim determine the output claim; every intermediate sumcheck sub-claim is checked against the claimed evaluations.", "quantifier": "every proof object", "why_tests_cant": "Only malicious proofs tell the difference.", "anchors": ["zkml/src/layers/convolution.rs: verify_convolution, verify_fft_delegation", "zkml/src/layers/hadamard.rs: verify"]}
{"id": "C38", "title": "Causal mask closed form", "statement": "The closed-form evaluation of the causal (lower-triangular) mask and of the minus-infinity mask equals the multilinear extension of the mask matrix at every point.", "quantifier": "every power-of-two size, every point", "why_tests_cant": "Polynomial identity for all sizes and points.", "anchors": ["zkml/src/layers/transformer/mha.rs: zeroifier, infinitizer, eval_zeroifier_mle, eval_infinitizer_mle"]}
{"id": "C39", "title": "One-hot claims are evaluated correctly", "statement": "The verifier's one-hot evaluation for embeddings inputs and argmax outputs equals the multilinear extension of the one-hot matrix of the tokens, at every point, for tokens below the padded vocabulary size.", "quantifier": "every token list, every vocabulary size, every point", "why_tests_cant": "All token sequences and points.", "anchors": ["zkml/src/layers/transformer/embeddings.rs: verify_input_claim", "zkml/src/layers/transformer/logits.rs: verify_output_evaluation", "zkml/src/lib.rs: to_bit_sequence_le"]}
{"id": "C40", "title": "Activation proof commits to its columns", "statement": "An accepted activation proof adds an opening claim for both the input and the output column.", "quantifier": "every proof object", "why_tests_cant": "Only malformed proofs distinguish.", "anchors": ["zkml/src/layers/activation.rs: verify_activation"]}
{"id": "C41", "title": "Argmax output", "statement": "Argmax returns the first index of a maximal entry of each row, and the padded (provable) evaluation returns the same index as the unpadded one.", "quantifier": "every row content", "why_tests_cant": "Fails only for rows whose real entries are all negative.", "anchors": ["zkml/src/layers/transformer/logits.rs: evaluate_with_argmax_data", "zkml/src/tensor.rs: argmax, max_in_slice", "zkml/src/lib.rs: argmax"]}
{"id": "C42", "title": "Merkle openings are complete and binding", "statement": "The path produced for any leaf pair authenticates against the root; and if two different leaf pairs authenticate at the same index against the same root with paths of equal length, an explicit hash collision is exhibited.", "quantifier": "every tree height, index, path, hash function", "why_tests_cant": "Quantifies over all paths a malicious prover could send.", "anchors": ["mpcs/src/util/merkle_tree.rs: merkelize, merkle_path_without_leaf_sibling_or_root, authenticate_merkle_path_root"]}
{"id": "C43", "title": "All model commitments are opened", "statement": "If the commitment verifier succeeds then every polynomial committed in the setup received exactly one claim and every claim was passed to the opening check; omitting a node's claims makes verification fail.", "quantifier": "every sequence of claim additions", "why_tests_cant": "All histories of claim registration.", "anchors": ["zkml/src/commit/context.rs: CommitmentVerifier::add_common_claims, add_witness_claim, verify"]}
{"id": "C44", "title": "Transcript agreement and message encoding", "statement": "Prover and verifier that perform the same sequence of appends and challenge requests obtain the same challenges; and different messages are absorbed as different field element sequences.", "quantifier": "every sequence of transcript operations, every pair of byte messages", "why_tests_cant": "All message pairs and all histories.", "anchors": ["transcript/src/basic.rs", "ff_ext/src/lib.rs: bytes_to_field_elements", "poseidon/src/challenger.rs"]}
{"id": "C45", "title": "Codeword folding", "statement": "Folding the encoding of a message with a challenge gives the encoding of the folded message at the next level, so honest commit-phase oracles are codewords of the partially evaluated polynomial.", "quantifier": "every message, every level, every challenge", "why_tests_cant": "Identity over the whole field at every level.", "anchors": ["mpcs/src/basefold/encoding", "mpcs/src/basefold/commit_phase.rs", "mpcs/src/util/arithmetic.rs"]}
{"id": "C46", "title": "Graph iteration is a deterministic topological order", "statement": "Forward iteration over a model yields each node at most once, only after all its producers; backward iteration only after all its consumers; on acyclic graphs every node is yielded; the order does not depend on hash-map ordering.", "quantifier": "every graph, every id assignment", "why_tests_cant": "All graphs.", "anchors": ["zkml/src/model/iterator.rs: NodeIterator::next, ToIterator"]}
{"id": "C47", "title": "Graph construction keeps edges consistent and inference follows data flow", "statement": "Adding nodes and inserting requantisation nodes keeps producer and consumer edge lists mutually consistent, and running the model gives every node the outputs of the producers named by its input edges.", "quantifier": "every sequence of construction operations, every model", "why_tests_cant": "All graphs and operation histories.", "anchors": ["zkml/src/model/mod.rs: add_node, add_node_with_id, route_output, add_requant_nodes, run_with_tracker"]}
{"id": "C48", "title": "Every model output is bound to a claim", "statement": "Each model output wire is bound to exactly the node that computes it, so that the verifier checks a claim about every output tensor.", "quantifier": "every graph, including nodes with several model-output wires", "why_tests_cant": "Needs unusual graphs.", "anchors": ["zkml/src/layers/provable/mod.rs: bind_outputs_to_node", "zkml/src/model/mod.rs: output_nodes", "zkml/src/iop/verifier.rs: step 2"]}
{"id": "C49", "title": "Parameter and model store", "statement": "Once parameters for a key are stored, every later read of that key returns exactly those parameters whatever other operations interleave; a second insert does not silently replace them; reads hit the cache or the backend consistently.", "quantifier": "every interleaving of store operations, with or without the file cache, across process restarts", "why_tests_cant": "All interleavings and crash points.", "anchors": ["deep-prove/src/store.rs: S3Store, MemStore, params_key, model_key"]}
{"id": "C50", "title": "Proof service queues", "statement": "Every submitted request is processed, in order of submission; each produced proof is returned exactly once and can be attributed to its request; failures are reported.", "quantifier": "every interleaving of submissions, worker steps and retrievals", "why_tests_cant": "All schedules.", "anchors": ["deep-prove/src/bin/worker/api.rs: AppState, handlers"]}
{"id": "C51", "title": "Batch proving aligns proofs with inputs", "statement": "For a batch of inputs the i-th returned proof is for the i-th input, or the failure of input i is reported.", "quantifier": "every batch, every pattern of failing inputs", "why_tests_cant": "All failure patterns.", "anchors": ["deep-prove/src/bin/worker/main.rs: run_model_v1"]}
{"id": "C52", "title": "Every gateway task gets exactly one reply", "statement": "For each task message received from the gateway the worker sends exactly one reply carrying that task's id.", "quantifier": "every message history, including undecodable tasks", "why_tests_cant": "All histories and failure points.", "anchors": ["deep-prove/src/bin/worker/lpn/grpc.rs: process_message_from_gw", "deep-prove/src/bin/worker/lpn/http.rs"]}
{"id": "C53", "title": "Synchronised transcripts", "statement": "All prover threads sharing a synchronised transcript receive the same challenge in each round, the one the main thread drew for that round, for every schedule.", "quantifier": "every interleaving of threads and rounds", "why_tests_cant": "All schedules.", "anchors": ["transcript/src/synchronized.rs"]}
{"id": "C54", "title": "Inputs and outputs are bound before challenges", "statement": "The random points at which inputs and outputs are checked are drawn after those tensors are fixed in the transcript.", "quantifier": "every pair of runs", "why_tests_cant": "A property of what is absorbed, not of a run's result.", "anchors": ["zkml/src/layers/provable/mod.rs: compute_model_output_claims", "zkml/src/iop/verifier.rs", "zkml/src/iop/context.rs: write_to_transcript"]}
{"id": "C55", "title": "Honest LogUp proofs are accepted", "statement": "For lookup columns of length at least 4 (tables: at least 2) the LogUp prover does not panic, and the verifier, started from the same transcript, accepts the proof and returns the true fractions, claims true of the columns, and the prover's transcript.", "quantifier": "every number of instances and columns, every length, every field values, every thread schedule, every transcript whose challenges avoid the interpolation nodes", "why_tests_cant": "All sizes, values and schedules; prover and verifier compute the claim of each round by different code.", "anchors": ["zkml/src/lookup/logup_gkr/prover.rs: batch_prove", "zkml/src/lookup/logup_gkr/verifier.rs: verify_logup_proof"]}
{"id": "C56", "title": "Honest Basefold openings are accepted", "statement": "For a polynomial with at most the supported number of variables, commit and open do not fail, and verify, started from the same transcript, accepts the polynomial's value at the point and ends in the prover's transcript.", "quantifier": "every polynomial over the extension field, every point, every transcript, both codes, every size up to the setup", "why_tests_cant": "All sizes, values and challenges; prover and verifier compute folding coefficients, query positions and final words by different code.", "anchors": ["mpcs/src/basefold.rs: commit", "mpcs/src/basefold.rs: open", "mpcs/src/basefold.rs: verify", "mpcs/src/basefold/commit_phase.rs: commit_phase", "mpcs/src/basefold/query_phase.rs"]}
{"id": "C57", "title": "A Basefold commitment opens to one value", "statement": "An accepted opening has checked, at each sampled position of every round, that the committed oracles fold to each other; so a commitment cannot be opened to two different values at one point, except with few challenges.", "quantifier": "every commitment, point, value, proof and transcript", "why_tests_cant": "Quantifies over all proofs a dishonest prover may send.", "anchors": ["mpcs/src/basefold.rs: verify", "mpcs/src/basefold.rs: batch_verify", "mpcs/src/basefold.rs: simple_batch_verify", "mpcs/src/basefold/query_phase.rs: verifier_query_phase"]}
{"id": "C58", "title": "Honest convolution proofs are accepted", "statement": "For a padded convolution layer, an input and a true claim about the output, prove_convolution_step does not fail and verify_convolution, started from the same transcript, accepts its proof, returns the prover's claims about input, filter and bias, which are true, and ends in the prover's transcript.", "quantifier": "every filter, bias, input, padding, output claim, transcript and thread schedule", "why_tests_cant": "All shapes, values and challenges; the prover and the verifier compute transforms, delegation tables and filter evaluations by different code.", "anchors": ["zkml/src/layers/convolution.rs: prove_convolution_step, verify_convolution", "zkml/src/layers/convolution.rs: prove_batch_fft_weights", "zkml/src/iop/prover.rs: delegate_matrix_evaluation, prove_batch_fft, prove_batch_ifft", "zkml/src/layers/convolution.rs: step_info"]}
{"id": "C59", "title": "A requantisation proof binds the layer's output to its input", "statement": "If verify_requant accepts, the lookup columns' rows are rows of the clamping and range tables, the claims it adds for the columns are true and the claim it returns is true of an input tensor, then the output claim it was given is true of the requantised tensor (scaled, rounded to nearest, clamped), except for the named challenge events. For every input tensor, the proof made by prove_step is accepted, and both sides derive the same true claims.", "quantifier": "every input tensor, multiplier, shift, number of range chunks, proof, transcript and thread schedule", "why_tests_cant": "Soundness ranges over all proofs a malicious prover can send, including proofs with more evaluations or fewer commitments than expected; completeness over all tensors, chunk counts and challenges.", "anchors": ["zkml/src/layers/requant.rs: verify_requant", "zkml/src/layers/requant.rs: prove_step", "zkml/src/layers/requant.rs: recombine_claims"]}
{"id": "C60", "title": "A layer normalisation proof binds the layer's output to its input", "statement": "If LayerNormCtx::verify accepts, the lookup columns' rows are rows of the inverse-square-root and range tables, and the claims it adds for the columns, for gamma and beta and returns for the input are true, then the output claim it was given is true of the tensor the quantised evaluate computes from that input, gamma and beta, except for the named challenge events. For every input tensor the proof made by prove_step is accepted, and both sides derive the same true claims.", "quantifier": "every input tensor, gamma, beta, dimension, multiplier, number of range chunks, proof, transcript and thread schedule", "why_tests_cant": "Soundness ranges over all proofs a malicious prover can send, including evaluation lists of any length and range columns an honest prover never makes; completeness over all tensors, sizes and challenges.", "anchors": ["zkml/src/layers/transformer/layernorm.rs: verify", "zkml/src/layers/transformer/layernorm.rs: prove_step", "zkml/src/layers/transformer/layernorm.rs: evaluate", "zkml/src/layers/transformer/layernorm.rs: lookup_witness", "zkml/src/layers/transformer/layernorm.rs: quantise"]}
{"id": "C61", "title": "An addition proof binds the output to the inputs", "statement": "If AddCtx::verify accepts and the claims it returns for the inputs, and adds for the static operand, are true, then the output claim it was given is true of the tensor the quantised Add::evaluate computes. For every pair of inputs the proof made by prove_step is accepted and both sides derive the same true claims.", "quantifier": "every tensor size, input, operand, multiplier, claim, proof and schedule", "why_tests_cant": "Tests try honest proofs on a few tensors; soundness ranges over every proof, completeness over every input and multiplier, including multiplier zero.", "anchors": ["zkml/src/layers/add.rs: verify", "zkml/src/layers/add.rs: prove_step", "zkml/src/layers/add.rs: evaluate"]}
{"id": "C62", "title": "A positional encoding proof binds the output to the input and the positional matrix", "statement": "If PositionalCtx::verify accepts and the claims it returns for the inputs and adds for the positional matrix are true, then each output claim is true of the input plus the rows of the positional matrix, scaled as Learned::evaluate does, except for few challenges. For every list of inputs the proof made by prove is accepted and both sides derive the same true claims.", "quantifier": "every matrix and input size, number of inputs, claim, proof, transcript and schedule", "why_tests_cant": "A cheating prover chooses the evaluations of the sub-matrices after seeing the coordinates, and the code path with several inputs keeps only one claim; tests only run honest provers with one input.", "anchors": ["zkml/src/layers/transformer/positional.rs: verify", "zkml/src/layers/transformer/positional.rs: prove", "zkml/src/layers/transformer/positional.rs: sample_random_coordinates", "zkml/src/layers/transformer/positional.rs: compute_positional_matrix_claim", "zkml/src/layers/transformer/positional.rs: evaluate"]}
{"id": "C63", "title": "Quantising an addition keeps both inputs and announces a sufficient size", "statement": "For all input and output scaling factors, QuantInfo::new picks multipliers and a common scale such that multiplier times common scale is close to the scale of each input (neither input is multiplied by zero), the common scale is the output scale when no requantisation follows, and intermediate_bit_size bounds every value the quantised addition can produce, so the requantisation that follows never fails.", "quantifier": "every triple of positive scales, every bit length and every pair of quantised values", "why_tests_cant": "The branches compare logarithms of arbitrary scales and the announced size depends on them; tests fix a few scales with values of magnitude at most one.", "anchors": ["zkml/src/layers/add.rs: QuantInfo::new", "zkml/src/layers/add.rs: intermediate_bit_size", "zkml/src/layers/add.rs: requant_from_add", "zkml/src/layers/requant.rs: op"]}
{"id": "C64", "title": "An accepted QKV proof binds queries, keys and values to one input", "statement": "For every input, weights and biases, if QKVCtx::verify accepts and the claims it returns about the input, the weights and the biases are true, then the claims about queries, keys and values are true of the products of that one input, except for few challenges; and QKV::prove on an honest evaluation is accepted with the same, true claims on both sides.", "quantifier": "every input, weights, biases, proof object, transcript and thread schedule, all power-of-two sizes", "why_tests_cant": "Tests run the honest prover on fixed sizes; soundness ranges over all proof objects, including ones that restate the point of the aggregation.", "anchors": ["zkml/src/layers/transformer/qkv.rs: prove", "zkml/src/layers/transformer/qkv.rs: verify", "zkml/src/layers/transformer/qkv.rs: challenges_for_batched_sumcheck", "zkml/src/layers/transformer/qkv.rs: build_points", "zkml/src/commit/same_poly.rs: verify"]}
{"id": "C65", "title": "Quantised softmax gives every entry its table weight and masked entries none", "statement": "For every input, Softmax::evaluate gives each entry on or below the diagonal the exponential table's value of its shifted input, gives each entry above the diagonal zero, and splits every shifted input into chunks that add up to it and fit their lookup tables, for the chunk sizes chosen by quantise.", "quantifier": "every input tensor, shape, quantisation data, and exponential and logarithm functions", "why_tests_cant": "The sizes at which the mask value or the smallest input hits a power of two depend on the context length and the head dimension; tests use a few fixed ones.", "anchors": ["zkml/src/layers/transformer/softmax.rs: evaluate", "zkml/src/layers/transformer/softmax.rs: calculate_shift_data", "zkml/src/layers/transformer/softmax.rs: quantise", "zkml/src/layers/transformer/softmax.rs: AttentionMask::new", "zkml/src/layers/transformer/softmax.rs: AttentionMask::apply", "zkml/src/lookup/context.rs: table_output"]}
{"id": "C66", "title": "An accepted softmax proof binds the output to the softmax of the input, row by row", "statement": "If SoftmaxCtx::verify accepts, and the claims it returns about the input, the shifts and the lookup columns are true with columns in the lookup tables, then the claim about the output is true of the table values of the masked and shifted input, and every row's sum is within the allowed error, except for few challenges; and prove_step on an honest evaluation is accepted, with true claims on both sides.", "quantifier": "every input, proof object, transcript, number of zero chunks and thread schedule, all power-of-two sizes", "why_tests_cant": "Tests run the honest prover on fixed sizes; soundness ranges over all proof objects, including ones whose error lookup has another number of variables.", "anchors": ["zkml/src/layers/transformer/softmax.rs: prove_step", "zkml/src/layers/transformer/softmax.rs: verify", "zkml/src/layers/transformer/softmax.rs: lookup_witness", "multilinear_extensions/src/virtual_poly.rs: mul_by_mle"]}
{"id": "C67", "title": "An accepted multi-head attention proof binds the output to the attention of queries, keys and values", "statement": "If Mha::verify accepts, and the claims it returns about queries, keys, values and the committed columns are true with columns in the lookup tables, then the claim about the output is true of the attention that evaluate computes from those integers, head by head, except for few challenges; and Mha::prove on an honest evaluation is accepted, with the same true claims on both sides.", "quantifier": "every query, key and value tensor, proof object, transcript and thread schedule, all power-of-two sizes", "why_tests_cant": "Tests run the honest prover on a few sizes; soundness ranges over all proof objects, and the claims that link the three stages are seen by no test.", "anchors": ["zkml/src/layers/transformer/mha.rs: prove", "zkml/src/layers/transformer/mha.rs: verify", "zkml/src/layers/transformer/mha.rs: evaluate_with_intermediate_outputs", "zkml/src/layers/concat_matmul.rs: output_shapes", "zkml/src/layers/reshape.rs: internal_output"]}
{"id": "C68", "title": "The attention layer computes causal attention: no position sees a later one", "statement": "For every number of positions and heads and every head dimension, Mha::evaluate returns, at each position, the weighted sum of the values at positions up to it, with weights that depend only on the scores of those positions; inputs of any lengths that agree on the first positions give outputs that agree there.", "quantifier": "all query, key and value tensors, lengths, numbers of heads, head dimensions, quantisation data, and exponential and logarithm functions", "why_tests_cant": "Causality compares all pairs of inputs that share a prefix, and fails only for quantisation data that tests do not use.", "anchors": ["zkml/src/layers/transformer/mha.rs: evaluate_with_intermediate_outputs", "zkml/src/layers/transformer/mha.rs: evaluate", "zkml/src/layers/transformer/softmax.rs: evaluate", "zkml/src/layers/concat_matmul.rs: evaluate"]}
{"id": "C69", "title": "Text generation is greedy decoding, and one trace contains it all", "statement": "Driver::run_inference returns the trace of a run of the model on the prompt followed by the generated tokens, where each token is the model's last answer to everything before it, none is the end token, and generation stops at the end token or when the window is full; the observer sees each step once and in order; the model is never run beyond its context; for a causal model the outputs of the returned trace hold the whole generated text.", "quantifier": "all models, prompts, end tokens, context lengths and window sizes", "why_tests_cant": "The loop runs for a data-dependent number of steps, and the failing window sizes are not tried by a test that generates a few tokens.", "anchors": ["zkml/src/model/llm.rs: run_inference", "zkml/src/model/llm.rs: with_max_context"]}
{"id": "C70", "title": "The key and value cache holds every row in order", "statement": "After any sequence of calls of CacheQKV::stack with rows of one width, the cache holds all keys and all values in the order of the calls; a row that the first call accepts does not make later calls fail.", "quantifier": "all sequences of calls, widths and values", "why_tests_cant": "It speaks about every history of calls; the failing shape is accepted by the first call.", "anchors": ["zkml/src/layers/transformer/qkv.rs: CacheQKV::stack", "zkml/src/layers/transformer/qkv.rs: CacheQKV::new", "zkml/src/tensor.rs: concat"]}
{"id": "C71", "title": "A transformer decoder is causal, so one inference trace contains a whole generation", "statement": "For a GPT-2 style decoder of any depth and size, evaluated on quantised integers, the output tokens for a prefix of a text are a prefix of the output tokens for the text; the decoder answers every text of known tokens that fits its positional matrix with one token per position; generation with it returns, and the last trace contains every generated token.", "quantifier": "all decoders (number of blocks, widths, heads, weights, tables, requantisations), texts, prompts, windows and end tokens", "why_tests_cant": "Causality compares every pair of texts that share a prefix, through every layer and any number of blocks.", "anchors": ["zkml/src/parser/llm.rs: into_provable_model", "zkml/src/parser/llm.rs: write_to_model", "zkml/src/model/llm.rs: run_inference", "zkml/src/layers/transformer/mha.rs: evaluate", "zkml/src/layers/transformer/logits.rs: evaluate", "zkml/src/layers/transformer/embeddings.rs: evaluate"]}
{"id": "C72", "title": "Inputs are checked, selected, quantised and loaded without loss", "statement": "Input::from_file/from_reader/from_str accept exactly the non-empty sets of rows whose values lie in [-1, 1]; filter returns the selected rows in order and panics for an index out of range; to_elements returns rows of the same lengths with every element in the quantised domain and within half a step of an accepted value; load_input_flat gives one tensor for each model input, of the expected shape, with the data at its unpadded positions and zero elsewhere, and fails for any other number or length of inputs.", "quantifier": "all inputs, index selections, scaling factors, model input shapes and flat inputs", "why_tests_cant": "The claims range over every set of rows, every selection and every pair of shapes; a surplus or ragged row is a case the bundled inputs never have.", "anchors": ["zkml/src/inputs.rs: validate", "zkml/src/inputs.rs: filter", "zkml/src/inputs.rs: to_elements", "zkml/src/model/mod.rs: prepare_inputs", "zkml/src/model/mod.rs: load_input_flat"]}
{"id": "C73", "title": "A worker answers a request with one proof for each input, in order", "statement": "For a request with n rows, the worker's answer is the list of the n proofs, the k-th one for the k-th row, or an error; a row that cannot be proved is reported and does not affect the others.", "quantifier": "all requests, models, outcomes of inference and of proving", "why_tests_cant": "It depends on which of arbitrarily many rows fail and where; a test that proves well-formed rows never takes the failing branches.", "anchors": ["deep-prove/src/bin/worker/main.rs: run_model_v1", "zkml/src/model/mod.rs: load_input_flat", "zkml/src/inputs.rs: to_elements"]}
{"id": "C74", "title": "The unsafe in-place bit reversal is a bit reversal and never leaves the array", "statement": "reverse_index_bits_in_place moves to index i the element whose index is i with its bits reversed, for every element type and every power-of-two length, without reading or writing out of bounds and without exchanging overlapping memory; it panics for other lengths; the table-driven, chunked, aarch64 and copying versions all do the same, and doing it twice is the identity. transpose_in_place_square transposes the square and touches nothing else.", "quantifier": "all element sizes, all lengths below 2^64, all contents", "why_tests_cant": "The branch depends on the size of the element type and the parity of the exponent, the code uses unchecked indices and raw pointers, and an index out of bounds need not show in a test.", "anchors": ["mpcs/src/util/plonky2_util/mod.rs: reverse_index_bits_in_place", "mpcs/src/util/plonky2_util/mod.rs: reverse_index_bits", "mpcs/src/util/plonky2_util/transpose_util.rs: transpose_in_place_square"]}
{"id": "C75", "title": "The scaling factors recorded for a quantised model agree along every wire and cover the calibration values", "statement": "After quantising a model, the scaling factor recorded for each input of each layer is the one recorded for the output (or model input) that feeds it, requantisation layers included; each layer was quantised under exactly those factors; every requantisation a layer asked for is inserted and is the only reader of the output it was asked for; the factor reported for output o of the model is that of the wire routed to output o. Under InferenceObserver, every value a tensor took in the calibration runs is represented to within half a quantisation step, and the range is no wider than those values require.", "quantifier": "all well-formed graphs, all layer quantisers, all calibration runs", "why_tests_cant": "A mismatch only shows on the graph shapes, node ids and insertion orders that produce it, and then only as a loss of accuracy; tests quantise a few small chains.", "anchors": ["zkml/src/quantization/strategy.rs: quantize_model", "zkml/src/quantization/strategy.rs: distribution_info", "zkml/src/quantization/strategy.rs: scaling_factors_for_node", "zkml/src/quantization/metadata.rs: compute_input_scaling", "zkml/src/quantization/metadata.rs: build"]}
