# Formal model of deep-prove

The source modelled is `/repo` (Rust). It is only read, never built or run.
The model is written in Rocq/Coq 8.16.1 under `rocq/theories`.

## 1. Layout

| kind | files | contents |
|---|---|---|
| foundations | `FieldDef`, `FpInst`, `PolyList`, `ListAux` | abstract field as a record, prime-field instances, coefficient polynomials and root counting |
| models | `M_*.v` | Gallina functions, one per modelled Rust function, each with a file and line citation |
| proofs | `P_*.v` | independent specifications, lemmas |
| properties | `Props_*.v` | the property theorems only, each closed by `exact`, with a concrete example and `Print Assumptions` |

Conventions used in the models:

* A Rust panic or `Err` is `None` (or an explicit error constructor when the property is about the error).
* `&mut` arguments are returned.
* `usize` is `nat` or `Z`; `i64` (`Element`) is `Z` with explicit range checks where overflow matters.
* Field elements are an abstract field `K` with decidable Leibniz equality. `E` and `E::BaseField` are not distinguished unless the comment says so.
* The transcript is an arbitrary function from the absorbed history to a challenge. Nothing is assumed about the hash.
* Threads and schedules are modelled as permutations of results or as interleaved step relations.

## 2. Trusted base

* Coq's kernel (8.16.1) and `vm_compute`, which some examples use.
* What `Print Assumptions` lists. It stands below every property theorem in `Props_*.v`. Every one of them prints
  "Closed under the global context": no axiom, of the standard library or otherwise, is used.
* `coqchk` also lists seven constants `Coq.ssr.ssrunder.Under_rel.*`. They are the opaque members of a sealed module of the
  standard library (`ssrunder`) that other library files bring in; no theorem here depends on them.
* The reading of the Rust code. The model is tied to it by citations only.

Section variables are universally quantified parameters of the theorems, not assumptions. The ones that stand for code outside
the model are:

| parameter | stands for | what the theorems assume of it |
|---|---|---|
| `T : hist -> K` | Fiat-Shamir transcript | nothing; "except for few challenges" is an explicit event or a count |
| permutation in `M_Hash`, hash functions in `M_Merkle` | Poseidon, leaf and node hashing | nothing; binding is stated as "or a collision" |
| `gen`, `emb`, `unemb` in `M_Fft`, `M_Conv` | 2-adic generator, `to_field`, `to_element` | stated as hypotheses; shown for Goldilocks |
| `rnd`, record `floats` | f32 rounding and functions | stated where needed (monotone, exact on small integers) |
| commitment scheme in `M_Commit`, `M_Verifier` | `PolynomialCommitmentScheme` | nothing, or the stated completeness/binding |
| schedules (`rsched`, `ptree`, permutations) | rayon, threads | that every task runs once |
| `res`, `decode`, `run`, `net`, `send_ok` | proving, payloads, network of the service | nothing |

Behaviour taken from outside `/repo` and therefore trusted: `p3_challenger::DuplexChallenger` (published code, width 8, rate 4);
crossbeam channels are bounded FIFO queues with atomic operations; `object_store` HEAD/GET/PUT are atomic per key;
`create_dir_all` and `fs::write` are single steps; the `exponential_backoff` iterator yields its number of attempts, the last
one `None`; API handlers holding the mutex are atomic.

What is modelled, per file of the model (each definition carries the lines of the source):

| model | source |
|---|---|
| `M_Mle`, `M_Sumcheck`, `M_ScParallel`, `M_Interp` | `multilinear_extensions`, `sumcheck`, `sumcheck_macro` |
| `M_SamePoly`, `M_Commit`, `M_Verifier` | `zkml/src/commit`, `zkml/src/iop` |
| `M_LogUp`, `M_Lookup`, `M_Tables` | `zkml/src/lookup` |
| `M_Quant`, `M_Requant`, `M_RequantP`, `M_BitSize` | `zkml/src/quantization`, `layers/requant.rs` and announced bit sizes |
| `M_LayerNorm` | `zkml/src/layers/transformer/layernorm.rs`: evaluation, lookup columns, proof |
| `M_AddPos` | `zkml/src/layers/add.rs`, `zkml/src/layers/transformer/positional.rs`: evaluation, provers, verifiers |
| `M_AddQuant` | `zkml/src/layers/add.rs`: quantisation of the addition; f32 operations are exact |
| `M_Qkv` | `zkml/src/layers/transformer/qkv.rs`: prover and verifier |
| `M_Softmax` | `zkml/src/layers/transformer/softmax.rs`: evaluation, mask, chunk sizes, prover and verifier; `virtual_poly.rs`: `mul_by_mle`; no i64 overflow, floats as arbitrary functions |
| `M_Mha` | `zkml/src/layers/transformer/mha.rs`: evaluation, prover, verifier; `reshape.rs`: subspace reshape; `concat_matmul.rs`: padded output shape |
| `M_Driver` | `zkml/src/model/llm.rs`: the generation loop; `qkv.rs`: the cache; `zkml/src/parser/llm.rs`: the order of the layers of a decoder, evaluated on integers |
| `M_Input` | `zkml/src/inputs.rs`, `zkml/src/model/mod.rs` 114-146, `deep-prove/src/bin/worker/main.rs` 76-143 |
| `M_BitRev` | `mpcs/src/util/plonky2_util/mod.rs` 54-266, `mpcs/src/util/plonky2_util/transpose_util.rs`; `C74_model` justifies the short form used in `M_Code` |
| `M_Metadata` | `zkml/src/quantization/metadata.rs`, `zkml/src/quantization/strategy.rs`; left out: the shapes, the random calibration inputs, the float model kept in the metadata |
| `M_Tensor`, `M_Pad`, `M_Fft` | `zkml/src/tensor.rs`, `zkml/src/padding.rs`, evaluation of dense, matmul, convolution, flatten, QKV |
| `M_Layers`, `M_Sop`, `M_Pool`, `M_Pooling`, `M_Conv`, `M_Transformer` | layer protocols: dense, matvec, matmul, concat matmul, hadamard, pooling, activation, convolution, embeddings, logits, masks |
| `M_Graph` | `zkml/src/model` |
| `M_Hash`, `M_Merkle`, `M_Code`, `M_Basefold`, `M_Sync` | `poseidon` wrappers, `transcript`, `mpcs` |
| `M_Store`, `M_Service` | `deep-prove/src/store.rs`, `deep-prove/src/bin/worker` |

Not modelled: the Poseidon permutation itself; serialisation formats; rayon, tokio and the network beyond the step relations
above; parsing of ONNX and GGUF models; binary32 arithmetic (only as exact arithmetic followed by an arbitrary rounding);
time and memory;
overflow of `usize` products of dimensions; the command-line tools.

## 3. Plan per property

| id | model | proof |
|---|---|---|
| C01 | `evaluate`, `fix_variables` on lists of field values | induction on the number of variables against the explicit sum over indices |
| C02 | copying, in place, high, chunked variants | each variant equals the copying one; the copying one composes |
| C03 | in-place doubling loops | loop invariant; inner product by induction |
| C04 | ranged view record | positive on the full range, refuted on proper ranges |
| C05 | verifier interpolation loop | equality with the Lagrange form, uniqueness by root counting; panic set |
| C06 | Montgomery trick and barycentric formula | loop invariants, partial fractions |
| C07 | prover round, verifier | induction on rounds, over any challenge list |
| C08 | verifier against adaptive strategies | root counting plus induction, counting over finite challenge sets |
| C09 | deferred verifier and interactive verifier | equivalence by induction |
| C10 | per-thread round, `AdditiveVec` sum, merge | sum over chunks equals whole, permutation invariance |
| C11 | aggregation prover and verifier | completeness; soundness when the point is the transcript's; refuted for the code's use of the proof's point |
| C12 | layer map | induction on layers |
| C13 | multiplicity computation | counting lemma |
| C14 | rational identity | clear denominators, root counting |
| C15 | verifier loop | layer reduction by induction over rounds when the proof has the expected shape, counting of bad batching challenges; refuted without the shape and for evaluations chosen after the challenges |
| C16 | numerators gathered vs tables verified | refuted by extra table proof; guarded theorem |
| C17 | transcript history | refuted: challenges are a function of model commitments only |
| C18 | table columns and closed forms | MLE identities by induction on variables |
| C19 | merged key | integer arithmetic |
| C20 | tables as lists of rows | membership characterisation, refuted for the error table |
| C21 | names | injectivity per variant, refuted for the parametrised float tables |
| C22 | `to_field`, `to_element` over Z mod p | modular arithmetic |
| C23 | `quantize` over exact reals or rationals | rounding lemmas; with rounded operations a bound from their relative error (partial) |
| C24 | `apply`, `from_multiplier` integer part | floor arithmetic |
| C25 | witness chunks and recombination | base-2^B digits, uniqueness modulo p under bounds |
| C26 | bit sizes | sums of bounded products |
| C27 | `pad_to_shape` in-place swaps, `recursive_pad` | index arithmetic; loop invariant |
| C28 | padded products | sums with zero terms |
| C29 | strides, transpose, permute | mixed-radix bijection |
| C30 | concat, slices | list lemmas; refuted for mismatching trailing dimensions |
| C31 | `maxpool2d` and shape function | max lemmas; refuted for non-square shapes |
| C32 | iterative FFT | DFT specification by induction; convolution theorem |
| C33 | shape rule | list induction |
| C34 | dense prover and verifier | sumcheck soundness plus product of claims; refuted for longer claim vectors |
| C35 | matmul verifier, matvec verifier | the same; refuted for matvec |
| C36 | input batching | sound for independent challenges; refuted because both challenges are equal |
| C37 | convolution prover and verifier | refuted: sub-claims dropped; sound when they are compared, by the delegation identities and the convolution theorem |
| C38 | mask and closed form | induction on bits |
| C39 | one-hot evaluation | MLE of one-hot rows |
| C40 | claims registered | refuted: zip with prover-chosen list |
| C41 | argmax | first-max characterisation; refuted under padding |
| C42 | Merkle tree over abstract hash | completeness by induction; accept twice implies equal or collision |
| C43 | claim registration state machine | invariant over sequences |
| C44 | duplex transcript over abstract permutation; byte packing | determinism; refuted injectivity, proved for equal lengths |
| C45 | both codes, interpolation, commit phase | polynomial even/odd split, foldable-code recursion |
| C46 | iterator | invariant over iteration, completeness from a rank function |
| C47 | model construction and run | invariant over operation sequences |
| C48 | output binding | refuted for several wires; proved for one wire per node |
| C49 | store step relation | invariant over histories; refuted with cache or races |
| C50 | queue step relation | conservation invariant; order and attribution refuted |
| C51 | batch loop | refuted; characterisation of what is returned |
| C52 | worker loop | exactly one reply per decodable task; refuted otherwise |
| C53 | double-buffered channels as a step relation | invariant over interleavings |
| C54 | transcript history | refuted |
| C55 | LogUp prover and verifier | completeness by induction over rounds, on top of the parallel sum-check |
| C56 | Basefold prover and verifier for one polynomial, both codes | induction over rounds, folding lemma, Merkle completeness |
| C57 | the three Basefold verifiers | query checks when openings are at the sampled positions; the chain of sum-check messages, by induction from the last round, against any polynomial the final message agrees with; both for each of the three verifiers; refuted by explicit forgeries otherwise |
| C58 | convolution prover and verifier | the provers are the sums the verifier checks: transform and delegation identities, sum-check completeness, the data of `op` |
| C59 | requantisation prover and verifier | the sum is a batch of evaluation claims: sum-check soundness, then injectivity of small integers in the field; completeness through the lookup and sum-of-products provers; forged with extra evaluations |
| C60 | layer normalisation evaluation, lookup columns, prover and verifier | three sum-checks composed backwards from the input claim; injectivity of small integers in the field and uniqueness of the quotient; completeness through the lookup and sum-of-products provers; forged with free accumulated evaluations, and with a quotient that is one too small |
| C61 | addition evaluation, prover and verifier | linearity of the extension; exact |
| C62 | positional encoding evaluation, prover and verifier, any number of inputs | doubling of the table one coordinate at a time; forged by solving for the last sub-matrix evaluation, and by the overwritten claim |
| C63 | `QuantInfo::new`, the announced bit size and the requantisation after an addition, over exact rationals | case analysis on the branches with linear and nonlinear arithmetic; failure of the requantisation for all large values |
| C64 | the QKV prover and verifier: three products batched in one sumcheck, then aggregation of the three input claims | reduction to the sumcheck and aggregation theorems; an error is hidden only by a root of an equation fixed before the challenge; forgery from the unchecked point |
| C65 | the quantised softmax evaluation, the attention mask, the choice of chunk sizes; the exponential and the logarithm are arbitrary functions | arithmetic of shifts and masks for all inputs; witnesses where a power of two loses its top bit |
| C66 | the softmax prover and verifier: three or four lookups, the accumulation sumcheck and the masking sumcheck | reduction to the lookup and sumcheck theorems; completeness of every stage; runs accepted for any block size |
| C67 | multi-head attention: integer evaluation, prover and verifier over the models of the batched product and the softmax layer | chaining the soundness and completeness theorems of the three stages; a forged run |
| C68 | the integer evaluation of multi-head attention, for all sizes | refinement to a specification of causal attention, from the theorems on the batched product and the softmax evaluation; a witness where the mask leaks |
| C69 | the generation loop around an arbitrary model, with its observer | induction on the loop, to a specification of greedy decoding; windows for which it fails |
| C70 | the cache and its `stack` | induction on the history of calls; a shape for which it fails |
| C71 | a decoder: embedding, positions, any number of blocks, final norm, projection, greedy choice | a relation between inputs that agree on their first rows, kept by every layer, composed by induction on the blocks; totality in the same way; a decoder with a leaking mask |
| C72 | `Input`, `prepare_inputs`, `load_input_flat` | equivalences with an independent description; the padding theorem of C27 for the tensors; surplus inputs and the empty selection refute the rest |
| C73 | the proving loop of `run_model_v1`, inference and proving arbitrary partial functions | equivalence of the answer with the list of outcomes of the rows, by induction on the rows; refuted where a row fails |
| C74 | the reversals of `plonky2_util` and the block transposition, an unchecked access out of bounds or an overlapping exchange being `None` | a general lemma on sequences of exchanges along an involution; the block recursion is a list of pairs that meets each pair once; the composition of chunk reversal, transposition(s) and chunk reversal is the reversal, for even and odd exponents |
| C75 | `MetadataBuilder`, `quantize_model` on the graphs of `M_Graph`, with the quantisation of one layer as a parameter; `InferenceTracker` over an arbitrary list of tracked tensors | induction over the forward order (the recorded factors only grow), then over the inserted requantisations with well-formedness and agreement as invariant; the outputs by the lemma of C47; minimum and maximum of the tracked values with `C23_half_step` |

## 4. Findings

Defects met while proving. Each one is a theorem about the model (name given), so it is as reliable as the reading of the code.
"Forgery" means that for every false claim of the stated kind an accepted proof is exhibited.

### Soundness of proofs

| # | finding | theorems |
|---|---|---|
| 1 | The convolution verifier drops every sum-check sub-claim and uses the points written in the proof, so any output claim is accepted with true input, filter and bias claims; the number of delegation rounds of the filter transform is not checked either | `C37_conv_forge`, `C37_conv_refuted` |
| 1b | The partial filter evaluations of the convolution proof are not put into the transcript before the challenge at which they are compared with the filter | `C37_partial_unbound` |
| 2 | The hadamard verifier evaluates at the proof's own point | `C37_hadamard_forge`, `C37_hadamard_point_refuted` |
| 3 | `same_poly` and LogUp verifiers use the sum-check point written in the proof instead of the drawn one; LogUp's layer counts and evaluation counts are the prover's | `C11_*`, `C15_no_rounds_refuted`, `C15_late_evals_refuted` |
| 4 | The final fraction check sums over all table proofs, but only the first ones are verified | `C16_extra_table_refuted` |
| 5 | `has_proof` is true for layers that no one proves | `C16_unproved_node_refuted` |
| 6 | Lookup challenges depend only on the model, not on witnesses or inputs and outputs; inputs and outputs are never absorbed | `C17_*`, `C54_*` |
| 7 | Entries of one lookup table can stand for entries of another (no table separator) | `C14_cross_table_refuted` |
| 8 | Dense, MatMul and ConcatMatMul verifiers accept claim vectors of any length | `C34_extra_claim_refuted`, `C35_*_extra_claim*` |
| 8b | The requantisation verifier accepts any number of evaluations: two extra ones that cancel in the recombination make every output claim provable, with true opening claims and a true input claim | `C59_forgery`, `C59_refuted` |
| 9 | `matvec::verify` ignores the expected evaluation | `C35_matvec_refuted` |
| 10 | Both pooling batching challenges are the same value | `C36_forgery`, `C36_refuted` |
| 11 | Witness claims are zipped with a commitment list of the prover's choice; missing ones are dropped | `C36_commitments_dropped`, `C40_commitments_dropped`, `C59_commitments_dropped`, `C60_commitments_dropped`, `C40_refuted` |
| 12 | The GELU prover and verifier disagree about the claimed evaluation | `C40_gelu_mismatch` |
| 13 | The one-hot check of embeddings reads tokens modulo the padded vocabulary | `C39_only_modulo`, `C39_out_of_vocabulary_refuted` |
| 14 | Logits: argmax under padding differs for all-negative rows; all-zero logits cannot be proved; declared shape wrong for rank 3 | `C41_padded_refuted`, `C41_zero_logits_rejected`, `C41_declared_shape_refuted` |
| 15 | Two outputs of one node overwrite each other's binding; output challenges follow HashMap order; logits challenges mismatch | `C48_two_outputs_refuted`, `C48_order_refuted`, `C48_logits_refuted` |
| 16 | Basefold: the number of queries is not checked; the opened index is not compared with the sampled one; the trivial batch branch does not check evaluations; a trivial proof is accepted for a non-trivial commitment; evaluations are not absorbed before batching | `C57_no_queries_*_refuted`, `C57_position_refuted`, `C57_trivial_batch_refuted`, `C57_digests_refuted`, `C57_*_malleable` |
| 17 | Merkle: path length, leaf kind and batch width are not checked; short leaves are padded, not hashed; no domain separation | `C42_short_path_refuted`, `C42_kind_forgery`, `C42_width_forgery`, `C42_short_padding`, `C42_no_domain_separation` |
| 18 | Byte packing of the transcript is not injective | `C44_trailing_zeros`, `C44_modulus_refuted`, `C44_messages_refuted` |
| 19 | Claims for unknown polynomial ids are dropped; a failing call leaves the node removed; failed table commitments are dropped | `C43_extra_claim_refuted`, `C43_ignored_error_refuted`, `C43_dropped_table` |

### Correctness of inference and set-up

| # | finding | theorems |
|---|---|---|
| 20 | `pad_conv` sizes the filter grid from the output shape: most kernels panic | `C32_pad_conv_fails`, `C32_pad_conv_refuted` |
| 21 | Requantisation: overflow and shift ranges; clamping table does not cover its inputs; error table has the wrong size | `C24_*_refuted`, `C25_clamp_row_refuted`, `C20_error_*_refuted` |
| 22 | GELU accepts one value past its table; names of parametrised tables drop the parameters | `C20_gelu_9_bits_refuted`, `C21_names_refuted` |
| 23 | Announced bit sizes too small for QKV, Add and large biases | `C26_qkv_refuted`, `C26_add_refuted`, `C26_*` |
| 24 | Padding and shape corner cases: empty tensors, broadcasting of 0, non-square pooling, concatenation and indexing without checks, repeated axes | `C27_empty_refuted`, `C33_zero_refuted`, `C31_declared_refuted`, `C30_unchecked_refuted`, `C29_get_last_refuted`, `C29_permute3d_repeated_refuted`, `C28_*_refuted` |
| 25 | Graph: iteration stops silently on cycles; requant insertion breaks fan-out; failed insertions leave edges; ids overwrite | `C46_cycle_refuted`, `C47_requant_*_refuted`, `C47_failed_add_refuted`, `C47_overwrite_refuted`, `C47_mixed_output_refuted` |
| 26 | An empty registration of polynomials makes every proof rejected | `C43_leftover_rejected`, `C43_empty_registration_refuted` |
| 27 | Ranged MLE views ignore their range in `evaluate`; in-place fixing of a base table at an empty point panics | `C04_*`, `C02_*` |
| 28 | Interpolation panics at its nodes; barycentric evaluation at a node is wrong | `C05_*`, `C06_*` |
| 29 | Lookup columns of length 2 panic | `C12_short_lookup_refuted` |

### Service

| # | finding | theorems |
|---|---|---|
| 30 | The file cache creates a directory at the file's path: nothing is ever served and every cached run fails | `C49_cache_serves_nothing`, `C49_cached_retry` |
| 31 | HEAD followed by PUT races; a HEAD error overwrites; the memory store replaces silently; one model key is a directory of another | `C49_insert_race`, `C49_head_error`, `C49_model_race`, `C49_mem_replaces`, `C49_key_is_directory`, `C49_refuted` |
| 32 | Local API: last in first out, starvation, errors are lost, a panic stops all work | `C50_reversed`, `C50_starvation`, `C50_error_silent`, `C50_dead`, `C50_refuted` |
| 33 | A failed inference shortens the batch without a trace | `C51_silent`, `C51_refuted` |
| 34 | gRPC: an undecodable task ends the worker without a reply; HTTP: retries duplicate submissions, a failed job request ends the worker | `C52_undecodable`, `C52_duplicate`, `C52_no_job`, `C52_refuted` |
| 35 | Layer normalisation: `acc_evals` is neither length-checked nor tied to the opened evaluations nor absorbed: any output is accepted | `C60_forgery`, `C60_forgery_same_length`, `C60_refuted`, `C60_refuted_appended` |
| 36 | Layer normalisation: the scaled top chunk may be any range value, so for small remainders the looked-up quotient may be one too small (-1 for 0) | `C60_low_quotient` |
| 37 | Positional encoding: the evaluations of the sub-matrices are not absorbed before the coordinates are drawn, not counted and not opened: any output is accepted | `C62_forgery`, `C62_refuted` |
| 38 | Positional encoding with several inputs: the claims about the positional matrix share one map key, so only the last is checked | `C62_overwrite`, `C62_overwrite_refuted` |
| 39 | Addition: the size announced to the requantisation assumes that the real values are small; if they add up to about eight, inference fails | `C63_size_fails`, `C63_refuted` |
| 40 | Addition: a scale above one counts as high precision, and the other input can be multiplied by zero | `C63_vanishes` |
| 41 | QKV inherits finding 3: the point stated by the aggregation is not checked, so a proof for one input can be restated for another | `C64_restate`, `C64_forgery`, `C64_refuted` |
| 42 | Softmax without zero chunks: if `(bkm >> 16) + 1` is a power of two, every masked entry gets the largest weight (outside Coq, head dimension 64 and a maximal context of 1085 give such a value) | `C65_mask_refuted` |
| 43 | Softmax `quantise`: the smallest input itself is not covered by the chunks when it is a power of two just beyond the table | `C65_sizes_refuted` |
| 44 | Softmax `verify` takes the row length from the error lookup of the proof, not from the shape: weights normalised over several rows are accepted | `C66_rows`, `C66_rows_refuted` |
| 45 | Softmax `prove_step` passes on a claim that is not divided by `scalar`; the verifier's is | `C66_complete`, `C66_claim_refuted` |
| 46 | `Mha::verify` inherits the unchecked number of evaluations of the batched product: with a fourth evaluation any claim about the attention output is accepted, with true claims about queries, keys, values and columns | `C67_refuted` |
| 47 | Consequence of 42: for such quantisation data the attention layer is not causal, a position's output changes with the values of later positions | `C68_refuted` |
| 48 | `run_inference` with a window (`with_max_context`) not larger than the prompt returns `Ok` with an empty trace; `output.last().unwrap()` on it panics | `C69_empty_refuted` |
| 49 | `with_max_context` may exceed the context length of the configuration; the model is then run on longer sequences than it was made for | `C69_context_refuted` |
| 50 | `CacheQKV::stack` accepts a row of shape `[w]` first, then indexes its second dimension: every later call panics | `C70_flat_refuted` |
| 51 | Consequence of 42: for such mask values the decoder's answer to a prefix changes with the text after it, so the last trace, which is the one proved, does not contain the generated tokens | `C71_refuted` |
| 52 | `load_input_flat` zips the flat inputs with the shapes before counting them, so surplus inputs are dropped and the check of their number never sees them | `C72_extra_refuted` |
| 53 | `Input::filter` with no indices gives an input without rows, which `validate` refuses | `C72_filter_refuted` |
| 54 | A row whose inference fails is only logged (`failed_inputs` is not returned): later proofs move up and the client cannot tell which row a proof is for | `C73_skip_refuted` |
| 55 | A row of another length than the model input passes `validate` and makes the whole request fail (`Tensor::new` panics), also the rows already proved | `C73_length_refuted` |
| 56 | The worker loads each row as the only input of the model, so every request for a model of two or more inputs fails | `C73_inputs_refuted` |
| 57 | `strategy.rs` 70, 114, 127: the inputs are tracked under node id 10000, so in a model with a node 10000 its values widen the range of the inputs (and the other way round) | `C75_observed_tight_refuted` |
| 58 | `strategy.rs` 242-248: under `AbsoluteMax` every output has the factor of the range [-1, 1], so each activation of 1 or more is quantised as 1 | `C75_absolute_max_refuted` |
| 59 | `metadata.rs` 110-121: for a wire routed to two outputs of the model only the first is recorded, so the list of output factors is too short (or `build` fails) | `C75_two_outputs_refuted` |
