{
 "claims": [
  {
   "property": "C01",
   "status": "proved",
   "theorems": [
    "C01_evaluate_is_mle",
    "C01_boolean_point",
    "C01_unique",
    "C01_built_iff",
    "C01_point_length"
   ],
   "note": "Any field, table, point and task order of the parallel folding. Base field embedded implicitly in the extension."
  },
  {
   "property": "C02",
   "status": "partial",
   "theorems": [
    "C02_fix_low_then_evaluate",
    "C02_fix_high_then_evaluate",
    "C02_variants_agree",
    "C02_in_place_base_empty_refuted"
   ],
   "note": "Proved for every table, non-empty partial point and task order. The literal statement fails in one corner: the in-place low-variable variants panic on a base-field table with an empty partial point (refuted theorem)."
  },
  {
   "property": "C03",
   "status": "proved",
   "theorems": [
    "C03_eq_table_sequential",
    "C03_builders_agree",
    "C03_inner_product",
    "C03_eq_eval_symmetric",
    "C03_eq_eval_boolean",
    "C03_identity_eval",
    "C03_identity_eval_truncates_refuted",
    "C03_aggregated_rlc"
   ],
   "note": "identity_eval agrees with eq_eval for equal-length points; the refuted theorem records its truncation on unequal lengths."
  },
  {
   "property": "C04",
   "status": "partial",
   "theorems": [
    "C04_ranged_fix",
    "C04_ranged_fix_partial_point",
    "C04_ranged_evaluate_refuted"
   ],
   "note": "fix_variables/fix_high_variables honour the range for non-empty points; evaluate, fix_variables_parallel and empty-point fixing use the whole inner table (refuted)."
  },
  {
   "property": "C05",
   "status": "proved",
   "theorems": [
    "C05_interpolation_exact",
    "C05_panics_exactly_on_nodes",
    "C05_empty_panics"
   ],
   "note": ""
  },
  {
   "property": "C06",
   "status": "proved",
   "theorems": [
    "C06_batch_inversion",
    "C06_extrapolation_exact",
    "C06_extrapolation_at_node_refuted"
   ],
   "note": "The refuted theorem shows that the restriction to points outside the nodes is needed."
  },
  {
   "property": "C07",
   "status": "proved",
   "theorems": [
    "C07_build",
    "C07_evaluate",
    "C07_completeness",
    "C07_final_evaluations",
    "C07_batch_completeness"
   ],
   "note": "Both provers, any transcript function, any schedule. Challenges outside the interpolation nodes {0..deg}: at a node the verifier panics (C05_panics_exactly_on_nodes)."
  },
  {
   "property": "C08",
   "status": "proved",
   "theorems": [
    "C08_wrong_claim_needs_root",
    "C08_cheating_count",
    "C08_all_vectors",
    "C08_virtual_poly_degree"
   ],
   "note": "Counting is for uniformly sampled challenge vectors; the Fiat-Shamir form names the root event for each transcript function."
  },
  {
   "property": "C09",
   "status": "proved",
   "theorems": [
    "C09_deferred_is_interactive",
    "C09_short_proof_rejected",
    "C09_wrong_length_rejected",
    "C09_extra_rounds_and_point_ignored"
   ],
   "note": ""
  },
  {
   "property": "C10",
   "status": "proved",
   "theorems": [
    "C10_threads_agree"
   ],
   "note": "prove_batch_polys with any power-of-two thread count, any arrival order, and prove_parallel with any rayon schedule."
  },
  {
   "property": "C11",
   "status": "partial",
   "theorems": [
    "C11_soundness_partial",
    "C11_batching_count",
    "C11_challenge_history",
    "C11_completeness",
    "C11_stated_point_refuted"
   ],
   "note": "Completeness is proved in full. Soundness is proved for proofs whose stated point equals the transcript challenges; the verifier does not check this and C11_stated_point_refuted exhibits a forgery."
  },
  {
   "property": "C12",
   "status": "proved",
   "theorems": [
    "C12_lookup_circuit",
    "C12_table_circuit",
    "C12_lookup_value",
    "C12_table_value",
    "C12_short_lookup_refuted"
   ],
   "note": "Proved for every number of columns and every length 2^(k+2) (lookups) or 2^(k+1) (tables). The refuted theorem records that lookup columns of length 2, which the input constructor accepts, make fractional_outputs panic."
  },
  {
   "property": "C13",
   "status": "proved",
   "theorems": [
    "C13_honest_lookups_balance",
    "C13_tables_compose"
   ],
   "note": "For one or two columns (the widths the tables use), first column within 32 signed bits, table size below the characteristic."
  },
  {
   "property": "C14",
   "status": "partial",
   "theorems": [
    "C14_missing_value_caught",
    "C14_rows_told_apart",
    "C14_cross_table_refuted"
   ],
   "note": "Proved when the merged value is a row value of no table. The constant challenge is shared by all tables, so a row missing from its own table can be covered by another one: C14_cross_table_refuted exhibits this for every non-pole challenge."
  },
  {
   "property": "C15",
   "status": "partial",
   "theorems": [
    "C15_lookup_sound_partial",
    "C15_table_sound_partial",
    "C15_round_batch_count",
    "C15_init_batch_count",
    "C15_no_rounds_refuted",
    "C15_late_evals_refuted"
   ],
   "note": "Sound for proofs of the expected shape, except for counted challenges. The code checks no shape (a proof without rounds gives any fraction) and draws the batching challenges before the evaluations are absorbed (a proof of the right shape gives any fraction): both refuted in general."
  },
  {
   "property": "C16",
   "status": "partial",
   "theorems": [
    "C16_counted",
    "C16_extra_table_refuted",
    "C16_unproved_node_refuted"
   ],
   "note": "Proved when the proof has as many table proofs as the context has tables and every layer that carries a proof is verified. Both guards are needed and the verifier checks neither: an extra table proof is never verified (C16_extra_table_refuted), and a Reshape node carries a proof that is never verified (C16_unproved_node_refuted)."
  },
  {
   "property": "C17",
   "status": "partial",
   "theorems": [
    "C17_challenge_history",
    "C17_challenges_fixed_refuted",
    "C17_forged_multiplicities_refuted"
   ],
   "note": "False of the code: the lookup challenges depend on the context only (C17_challenges_fixed_refuted), so multiplicities can be solved for after seeing them (C17_forged_multiplicities_refuted)."
  },
  {
   "property": "C18",
   "status": "proved",
   "theorems": [
    "C18_closed_forms",
    "C18_wrong_length"
   ],
   "note": "Every table type; float table outputs are arbitrary functions."
  },
  {
   "property": "C19",
   "status": "proved",
   "theorems": [
    "C19_merged_keys_injective",
    "C19_no_overflow",
    "C19_bound_tight_refuted"
   ],
   "note": ""
  },
  {
   "property": "C20",
   "status": "partial",
   "theorems": [
    "C20_coverage",
    "C20_relu_inputs",
    "C20_gelu_inputs",
    "C20_error_rows",
    "C20_gelu_9_bits_refuted",
    "C20_error_missing_refuted",
    "C20_error_zero_refuted",
    "C20_error_never_refuted"
   ],
   "note": "Holds for all tables but the error table, whose exact content is proved and shown wrong. GELU inputs are covered up to 8 bits and not at 9 bits."
  },
  {
   "property": "C21",
   "status": "partial",
   "theorems": [
    "C21_names_exact",
    "C21_names_distinct_partial",
    "C21_names_refuted"
   ],
   "note": "The property is false for two GELU tables and for two Softmax tables of one temperature; the exact set of clashes is proved."
  },
  {
   "property": "C22",
   "status": "proved",
   "theorems": [
    "C22_round_trip",
    "C22_injective",
    "C22_field_round_trip",
    "C22_element_range",
    "C22_arithmetic_exact",
    "C22_goldilocks",
    "C22_out_of_range_changes",
    "C22_every_i64_refuted"
   ],
   "note": "Every prime modulus, with Goldilocks (proved prime) as an instance. The range is exact: i64 values beyond 2^63-2^31 change."
  },
  {
   "property": "C23",
   "status": "partial",
   "theorems": [
    "C23_range",
    "C23_monotone",
    "C23_half_step",
    "C23_round_trip",
    "C23_round_trip_rounded",
    "C23_error_rounded"
   ],
   "note": "Range and monotonicity for an arbitrary (monotone) rounding of f32 operations; the half-step bound exactly for exact arithmetic, and within (1/2 + 10 u MAX) steps if the operations have relative error at most u (C23_error_rounded). Missing: NaN, infinities and values outside the normal range are not modelled."
  },
  {
   "property": "C24",
   "status": "partial",
   "theorems": [
    "C24_rounds_and_clamps",
    "C24_rounds_determines",
    "C24_range",
    "C24_monotone",
    "C24_total",
    "C24_constructed_ok",
    "C24_rejects_larger",
    "C24_tensor",
    "C24_error",
    "C24_overflow_refuted",
    "C24_multiplier_above_one_refuted",
    "C24_small_multiplier_refuted"
   ],
   "note": "Proved whenever the operation returns, and it returns when one spare bit is left. The constructor accepts parameters that overflow, treats multipliers of 2 and more as their inverse, and shifts by 64 for multipliers below 2^-31: refuted with witnesses."
  },
  {
   "property": "C25",
   "status": "partial",
   "theorems": [
    "C25_witness",
    "C25_witness_total",
    "C25_witness_output",
    "C25_clamp_row",
    "C25_clamp_row_quarter",
    "C25_clamp_row_refuted",
    "C25_recombine",
    "C25_sound"
   ],
   "note": "Recombination, completeness and soundness proved. The clamping table is too small for some elements the layer accepts (refuted; guarded theorems C25_clamp_row and C25_clamp_row_quarter)."
  },
  {
   "property": "C26",
   "status": "partial",
   "theorems": [
    "C26_dense",
    "C26_convolution",
    "C26_matmul",
    "C26_shape_matmul",
    "C26_add",
    "C26_requant_accepts",
    "C26_dense_bias_refuted",
    "C26_conv_bias_refuted",
    "C26_qkv_refuted",
    "C26_add_refuted"
   ],
   "note": "Proved with a bias bounded by MAX^2 (for dense with two or more columns, by its own range) and, for addition, for power-of-two scales at most 2^-(B-2). Refuted for larger biases, for addition with larger scales, and for the QKV layer, which uses the wrong dimension."
  },
  {
   "property": "C27",
   "status": "proved",
   "theorems": [
    "C27_pad_to_shape",
    "C27_pad_unique",
    "C27_pad_rejects",
    "C27_generic_pad",
    "C27_pad_pow2",
    "C27_pad_twice",
    "C27_fit_2d",
    "C27_empty_refuted"
   ],
   "note": "For every non-empty tensor. C27_empty_refuted shows that the two paddings differ on empty tensors."
  },
  {
   "property": "C28",
   "status": "partial",
   "theorems": [
    "C28_dense",
    "C28_flatten_dense",
    "C28_chain",
    "C28_flatten_chain",
    "C28_small_refuted",
    "C28_no_flatten_refuted",
    "C28_input_weight",
    "C28_input_weight_bias",
    "C28_bias_refuted",
    "C28_weight_input",
    "C28_input_input",
    "C28_input_input_garbage_refuted",
    "C28_transposed_weight_refuted",
    "C28_after_mha",
    "C28_qkv",
    "C28_unfit"
   ],
   "note": "Proved for dense layers (also after Flatten, and whole chains with element-wise layers), matrix products of every operand kind, the projection after multi-head attention and QKV, for every arithmetic with x+0=x and 0*x=x*0=0. Four cases fail in the code and are refuted: padded width below 4, dense on a multi-dimensional input without Flatten, bias rows of a matrix product, transposed weight. Convolution layers are not covered here."
  },
  {
   "property": "C29",
   "status": "partial",
   "theorems": [
    "C29_strides",
    "C29_bijection",
    "C29_transpose",
    "C29_transpose_twice",
    "C29_permute3d",
    "C29_permute3d_back",
    "C29_permute3d_repeated_refuted",
    "C29_get_idx",
    "C29_get_in_range",
    "C29_get_rejects",
    "C29_get_last_refuted"
   ],
   "note": "Index arithmetic, transpose and axis permutation proved in full. The rejection part is false for the last accessor (C29_get_last_refuted) and for repeated axes (C29_permute3d_repeated_refuted)."
  },
  {
   "property": "C30",
   "status": "partial",
   "theorems": [
    "C30_concat",
    "C30_slices_2d",
    "C30_slices_3d",
    "C30_rejects",
    "C30_unchecked_refuted",
    "C30_stack_all",
    "C30_slice_on_dim"
   ],
   "note": "Proved for matching shapes; operands of equal or higher rank are never compared (C30_unchecked_refuted)."
  },
  {
   "property": "C31",
   "status": "partial",
   "theorems": [
    "C31_maxpool",
    "C31_maxpool_rejects",
    "C31_declared_square",
    "C31_declared_refuted",
    "C31_columns",
    "C31_columns_sound",
    "C31_columns_exact"
   ],
   "note": "Pooling and difference columns proved for every shape; the declared output shape is right only for square images (C31_declared_refuted)."
  },
  {
   "property": "C32",
   "status": "partial",
   "theorems": [
    "C32_fft_is_dft",
    "C32_inverse",
    "C32_round_trip",
    "C32_cyclic",
    "C32_direct",
    "C32_layer",
    "C32_pad_conv",
    "C32_goldilocks",
    "C32_small_grid_fails",
    "C32_pad_conv_fails",
    "C32_pad_conv_refuted"
   ],
   "note": "FFT = DFT, inverse and convolution theorem for every length 2^1..2^32; the padded layer equals the direct convolution on every input whenever the filter grid matches the padded input. Partial: pad_conv sizes the grid from the output shape, so exactly the layers outside the condition of C32_pad_conv panic (C32_pad_conv_fails, C32_pad_conv_refuted); i64 overflow is not modelled."
  },
  {
   "property": "C33",
   "status": "proved",
   "theorems": [
    "C33_commutative",
    "C33_succeeds_exactly",
    "C33_maximum",
    "C33_zero_refuted",
    "C33_expand",
    "C33_expand_rejects"
   ],
   "note": "The maximum part for positive dimensions; C33_zero_refuted shows 1 against 0 gives 0."
  },
  {
   "property": "C34",
   "status": "partial",
   "theorems": [
    "C34_sound_partial",
    "C34_complete",
    "C34_evaluate",
    "C34_extra_claim",
    "C34_extra_claim_refuted"
   ],
   "note": "Soundness (up to an explicit root event of this run) and completeness for every shape, schedule and transcript function. Partial: soundness needs exactly two evaluations in the proof, which the verifier does not check; without it every false claim is accepted (C34_extra_claim, concrete case C34_extra_claim_refuted)."
  },
  {
   "property": "C35",
   "status": "partial",
   "theorems": [
    "C35_matmul_sound_partial",
    "C35_matmul_complete",
    "C35_matmul_evaluate",
    "C35_matmul_extra_claim",
    "C35_matmul_extra_claim_refuted",
    "C35_matvec_complete",
    "C35_matvec_guarded_partial",
    "C35_matvec_forge",
    "C35_matvec_refuted",
    "C35_concat_sound_partial",
    "C35_concat_complete",
    "C35_concat_evaluate",
    "C35_concat_evaluate_field",
    "C35_concat_extra_claim",
    "C35_concat_extra_claim_refuted"
   ],
   "note": "Matrix product (plain, transposed, with bias, constant factors) and batched product: soundness and completeness, with the same missing length check as C34 shown to be necessary. The stand-alone matrix-vector verifier drops the final evaluation and accepts everything (C35_matvec_forge); the guarded statement is what a caller would need."
  },
  {
   "property": "C36",
   "status": "partial",
   "theorems": [
    "C36_sound_partial",
    "C36_complete",
    "C36_forgery",
    "C36_refuted",
    "C36_commitments_dropped"
   ],
   "note": "The property is false as stated: one challenge is used for both axes, so only the sum of the sub-tables at offsets (1,0) and (0,1) is bound; C36_forgery and C36_refuted exhibit accepted proofs of wrong outputs with all claims true. What holds is C36_sound_partial, for proofs with five evaluations and lookup claims at one point."
  },
  {
   "property": "C37",
   "status": "partial",
   "theorems": [
    "C37_conv_sound_partial",
    "C37_conv_forge",
    "C37_conv_refuted",
    "C37_partial_unbound",
    "C37_hadamard_sound_partial",
    "C37_hadamard_complete",
    "C37_hadamard_forge",
    "C37_hadamard_point_refuted"
   ],
   "note": "The property is false for the code: the results of the sumchecks are dropped and the points of the proof are used, so every output claim has an accepted proof with true input, filter and bias claims (C37_conv_forge, C37_conv_refuted). Sound up to listed challenge events once the missing comparisons are assumed (C37_conv_sound_partial). The partial filter evaluations are not in the transcript before their challenge, so one listed event can be brought about by the prover (C37_partial_unbound)."
  },
  {
   "property": "C38",
   "status": "proved",
   "theorems": [
    "C38_zeroifier_entries",
    "C38_infinitizer_entries",
    "C38_zeroifier_mle",
    "C38_infinitizer_mle"
   ],
   "note": "Mask entries and closed forms, for every power-of-two size, number of heads and point."
  },
  {
   "property": "C39",
   "status": "proved",
   "theorems": [
    "C39_embeddings_iff",
    "C39_logits_iff",
    "C39_only_modulo",
    "C39_out_of_vocabulary_refuted",
    "C39_embeddings_sound",
    "C39_embeddings_end_to_end",
    "C39_embeddings_complete",
    "C39_embeddings_evaluate",
    "C39_embeddings_rejects",
    "C39_embeddings_integer"
   ],
   "note": "Both one-hot checks accept exactly the true claims for tokens below the padded vocabulary size; tokens are only seen modulo that size (finding). Soundness and completeness of the embeddings proof are included."
  },
  {
   "property": "C40",
   "status": "partial",
   "theorems": [
    "C40_both_partial",
    "C40_sound_partial",
    "C40_commitments_dropped",
    "C40_refuted",
    "C40_relu_complete",
    "C40_gelu_mismatch"
   ],
   "note": "False without a guard: the number of commitments is not checked (C40_commitments_dropped, C40_refuted). With two commitments both columns get a claim (C40_both_partial) and the claims bind the layer (C40_sound_partial). C40_gelu_mismatch: the GELU prover registers a claim that is false of its column."
  },
  {
   "property": "C41",
   "status": "partial",
   "theorems": [
    "C41_max_in_slice",
    "C41_argmax_slice",
    "C41_argmax",
    "C41_first_max_unique",
    "C41_tensor_argmax",
    "C41_evaluate",
    "C41_padded_partial",
    "C41_padded_negative",
    "C41_padded_refuted",
    "C41_declared_shape_refuted",
    "C41_proof_sound_partial",
    "C41_range_means_max",
    "C41_proof_complete",
    "C41_zero_logits_rejected"
   ],
   "note": "The first part (first index of the maximum) is proved. The second part is proved for rows with a non-negative entry and refuted for rows of negative entries. The proof protocol is sound given the length of the lookup claim point, which the code does not check; an all-zero input cannot be proved."
  },
  {
   "property": "C42",
   "status": "proved",
   "theorems": [
    "C42_complete_base",
    "C42_complete_ext",
    "C42_root",
    "C42_binding_base",
    "C42_binding_ext",
    "C42_binding_single_base",
    "C42_binding_single_ext",
    "C42_poseidon_binding_base",
    "C42_poseidon_binding_ext",
    "C42_hash_binding",
    "C42_compress_binding",
    "C42_index_low_bits",
    "C42_short_path_forgery",
    "C42_short_path_refuted",
    "C42_kind_forgery",
    "C42_width_forgery",
    "C42_no_domain_separation",
    "C42_no_padding",
    "C42_short_padding"
   ],
   "note": "Every path the prover extracts is accepted; two accepted openings of the same root at the same position, kind, width and path length are equal or exhibit a collision among the queries of the two runs. The binding theorems carry those guards because the code does not check them: the forgery theorems show that a path of another length, values of another kind and batches of another width can be accepted. The permutation is an arbitrary function; collision resistance of Poseidon itself is not modelled."
  },
  {
   "property": "C43",
   "status": "partial",
   "theorems": [
    "C43_maps",
    "C43_contents",
    "C43_all_opened",
    "C43_checked_exactly",
    "C43_errors",
    "C43_omitted_node",
    "C43_omitted_table",
    "C43_model",
    "C43_foreign_node",
    "C43_complete",
    "C43_extra_claims_ignored",
    "C43_extra_claim_refuted",
    "C43_failed_call_removes",
    "C43_ignored_error_refuted",
    "C43_registered",
    "C43_leftover_rejected",
    "C43_empty_registration_refuted",
    "C43_dropped_table"
   ],
   "note": "Proved for every sequence of operations: exactly one opening per committed polynomial, and every claim for a committed name is checked. Claims for other names are dropped silently (refuted part). The commitment scheme is a parameter."
  },
  {
   "property": "C44",
   "status": "partial",
   "theorems": [
    "C44_history",
    "C44_agreement",
    "C44_total",
    "C44_forks",
    "C44_encoding_length",
    "C44_encoding_no_zero",
    "C44_encoding_ascii",
    "C44_trailing_zeros",
    "C44_modulus_refuted",
    "C44_framing",
    "C44_kinds",
    "C44_partial_block",
    "C44_messages_refuted"
   ],
   "note": "Proved: both sides that run the same operations read the same challenges, a challenge is a function of the absorbed history, no operation panics, forks of distinct index absorb distinct histories, and byte messages without trailing zeros (and ASCII labels) encode injectively. Refuted in general: byte messages differing in trailing zeros or by the modulus, and differently framed histories, give the same transcript."
  },
  {
   "property": "C45",
   "status": "proved",
   "theorems": [
    "C45_fold_codeword",
    "C45_interpolation",
    "C45_rs_encoding",
    "C45_final_word",
    "C45_oracles"
   ],
   "note": "Both codes (Reed-Solomon and base code), every message, level and challenge; table entries and the generator are parameters with the guards that setup gives. Message size log must be positive for the honest commit phase (interpolation of one value panics)."
  },
  {
   "property": "C46",
   "status": "proved",
   "theorems": [
    "C46_order",
    "C46_complete",
    "C46_smallest",
    "C46_deterministic",
    "C46_into",
    "C46_cycle_refuted"
   ],
   "note": "Proved for every node map, both directions and any hash-map order. C46_cycle_refuted: with a cycle both iterators end early without an error (the property is restricted to acyclic graphs)."
  },
  {
   "property": "C47",
   "status": "partial",
   "theorems": [
    "C47_consistent",
    "C47_requant",
    "C47_requant_run",
    "C47_run",
    "C47_outputs",
    "C47_run_deterministic",
    "C47_failed_add_refuted",
    "C47_overwrite_refuted",
    "C47_requant_fanout_refuted",
    "C47_requant_unused_refuted",
    "C47_requant_few_refuted",
    "C47_mixed_output_refuted"
   ],
   "note": "Proved for every history of successful construction calls (fresh ids; requantisation of nodes whose wires each have one edge and with one requantisation per output). Outside those guards the property is false of the code, as the refutations show: failed add_node leaves dangling edges, id reuse drops edges, requantising a wire with zero or several consumers, or mixed output nodes."
  },
  {
   "property": "C48",
   "status": "partial",
   "theorems": [
    "C48_bind",
    "C48_bind_count",
    "C48_claims_routed",
    "C48_out_claims",
    "C48_out_agree",
    "C48_mle_agree_count",
    "C48_verify_sound",
    "C48_two_outputs_refuted",
    "C48_fanout_refuted",
    "C48_order_refuted",
    "C48_logits_refuted"
   ],
   "note": "Binding, claim routing and the composition of layer checks proved when each node has at most one output wire; false otherwise (C48_two_outputs_refuted). A wire with two consumers cannot be proved (C48_fanout_refuted). With several output nodes the hash map order decides whether prover and verifier agree (C48_order_refuted); with a Logits output they never do (C48_logits_refuted). Layer verifiers are parameters here; see C34-C41."
  },
  {
   "property": "C49",
   "status": "partial",
   "theorems": [
    "C49_stable_partial",
    "C49_provenance",
    "C49_acknowledged",
    "C49_keys",
    "C49_run_ok",
    "C49_cache_serves_nothing",
    "C49_cached_retry",
    "C49_insert_race",
    "C49_head_error",
    "C49_model_race",
    "C49_mem_replaces",
    "C49_key_is_directory",
    "C49_refuted"
   ],
   "note": "Stability of a stored value, provenance and presence are proved for every execution of a transition system in which every awaited operation is a step, with errors, lost answers and restarts. The full property is false: two concurrent inserts, a failing HEAD request, the in-memory store and concurrent initialisations replace values, and with the file cache nothing is ever served (all proved)."
  },
  {
   "property": "C50",
   "status": "partial",
   "theorems": [
    "C50_conserve",
    "C50_once",
    "C50_progress",
    "C50_work_bound",
    "C50_drain_partial",
    "C50_fifo_partial",
    "C50_reversed",
    "C50_batch_reversed",
    "C50_starvation",
    "C50_error_silent",
    "C50_dead",
    "C50_refuted"
   ],
   "note": "Conservation of requests and proofs, at-most-once return and progress are proved for every history. Order of submission, fairness and the reporting of failures are false (proved): both queues are stacks and errors are only logged."
  },
  {
   "property": "C51",
   "status": "partial",
   "theorems": [
    "C51_positions_partial",
    "C51_aligned_partial",
    "C51_error",
    "C51_silent",
    "C51_refuted"
   ],
   "note": "Exact characterisation of the answer for every batch; alignment when no inference fails. Failed inferences are skipped without report, which refutes the full property."
  },
  {
   "property": "C52",
   "status": "partial",
   "theorems": [
    "C52_grpc_replies",
    "C52_grpc_complete_partial",
    "C52_http_replies",
    "C52_http_once_partial",
    "C52_undecodable",
    "C52_duplicate",
    "C52_no_job",
    "C52_refuted"
   ],
   "note": "Exact characterisation of the replies of both workers for every history of messages and losses. The full property is false: an undecodable payload ends the gRPC worker without a reply, and a lost answer makes the HTTP worker reply twice."
  },
  {
   "property": "C53",
   "status": "proved",
   "theorems": [
    "C53_same_challenges",
    "C53_drawn_for_the_round",
    "C53_channels",
    "C53_no_deadlock",
    "C53_terminates",
    "C53_length",
    "C53_completes",
    "C53_outcome",
    "C53_sequential"
   ],
   "note": "Transition system with one step per channel operation, any number of workers and rounds. The crossbeam channels are modelled as bounded FIFO queues whose operations are atomic; the unused base-field channels and panics of worker threads are not modelled."
  },
  {
   "property": "C54",
   "status": "partial",
   "theorems": [
    "C54_out_malleable_refuted",
    "C54_in_malleable_refuted",
    "C48_mle_agree_count"
   ],
   "note": "False of the code: outputs and inputs are not absorbed, and an accepted proof is accepted for other outputs and inputs. C48_mle_agree_count bounds the bad points when the tensors are fixed first."
  },
  {
   "property": "C55",
   "status": "proved",
   "theorems": [
    "C55_lookup_complete",
    "C55_table_complete"
   ],
   "note": "For every schedule and thread count; challenges equal to 0, 1, 2 or 3 excluded because the verifier panics there (see C05). The proofs meet the hypotheses of C15."
  },
  {
   "property": "C56",
   "status": "proved",
   "theorems": [
    "C56_complete"
   ],
   "note": "One polynomial over the extension field, both codes, trivial and non-trivial openings, every transcript function and hash. Base-field polynomials and the batched provers are not modelled."
  },
  {
   "property": "C57",
   "status": "partial",
   "theorems": [
    "C57_queries_partial",
    "C57_messages_partial",
    "C57_one_value_partial",
    "C57_batch_queries_partial",
    "C57_batch_messages_partial",
    "C57_general_messages_partial",
    "C57_general_queries_partial",
    "C57_no_queries_refuted",
    "C57_no_queries_simple_batch_refuted",
    "C57_no_queries_batch_refuted",
    "C57_position_refuted",
    "C57_leaf_refuted",
    "C57_trivial_batch_refuted",
    "C57_simple_batch_malleable",
    "C57_batch_malleable",
    "C57_digests_refuted"
   ],
   "note": "False for the code: the number of queries, the positions of the opened leaves, the kind of proof and (in the trivial batched case) the values are not checked. Positive part guarded by these checks, up to fold consistency at all sampled positions; the distance argument is missing. The sum-check messages: the opened value is that of any polynomial the final message agrees with, or some message agrees with the honest one at a challenge without being it. Both parts for all three verifiers; for the general batched one with the messages of its classic sum-check."
  },
  {
   "property": "C58",
   "status": "proved",
   "theorems": [
    "C58_conv_complete"
   ],
   "note": "Completeness up to challenges that are interpolation nodes of the sumchecks (a condition on the run, named in the statement); the prover is the model of prove_convolution_step with arbitrary thread schedules, the data are those of op on any input that fits the shapes; grid side from 2 to 2^15, filter side a smaller power of two, padding zero. Overflow of i64 in op is not modelled: the values are integers."
  },
  {
   "property": "C59",
   "status": "partial",
   "theorems": [
    "C59_sound_partial",
    "C59_layer_partial",
    "C59_layer_output",
    "C59_complete",
    "C59_forgery",
    "C59_refuted",
    "C59_commitments_dropped"
   ],
   "note": "Soundness holds with the number of evaluations as an added hypothesis; the code does not check it, and C59_forgery proves every output claim with two extra evaluations and true opening claims. Completeness holds in full. That rows are table rows is a hypothesis here (C12 for the lookup argument)."
  },
  {
   "property": "C60",
   "status": "partial",
   "theorems": [
    "C60_sound_partial",
    "C60_layer_partial",
    "C60_exact_partial",
    "C60_sizes",
    "C60_complete",
    "C60_forgery",
    "C60_forgery_same_length",
    "C60_refuted",
    "C60_refuted_appended",
    "C60_low_quotient",
    "C60_commitments_dropped"
   ],
   "note": "Soundness holds with three added hypotheses the code does not check: the lengths of acc_evals and evaluations, and that they agree where both exist. Without them C60_forgery and C60_forgery_same_length turn any accepted proof into an accepted proof of any output. The output is exact only when the top range chunk is not scaled (C60_exact_partial); otherwise a quotient one too small is accepted (C60_low_quotient). Completeness holds in full. That rows are table rows is a hypothesis here (C12 for the lookup argument)."
  },
  {
   "property": "C61",
   "status": "proved",
   "theorems": [
    "C61_sound",
    "C61_complete",
    "C61_zero_panics"
   ],
   "note": "Exact, without any condition on challenges. Completeness needs a multiplier of the static operand that is not zero in the field (C61_zero_panics)."
  },
  {
   "property": "C62",
   "status": "partial",
   "theorems": [
    "C62_sound_partial",
    "C62_complete",
    "C62_forgery",
    "C62_refuted",
    "C62_overwrite",
    "C62_overwrite_refuted",
    "C62_binds"
   ],
   "note": "Soundness holds for one input if the evaluations of the sub-matrices are right, which nothing ensures: they are not absorbed before the coordinates are drawn and nothing is opened for them, so any output is accepted (C62_forgery). With several inputs only the last claim about the matrix is kept, so any output of the others is accepted (C62_overwrite). Completeness holds in full."
  },
  {
   "property": "C63",
   "status": "partial",
   "theorems": [
    "C63_multipliers",
    "C63_value",
    "C63_size_partial",
    "C63_size_fails",
    "C63_refuted",
    "C63_vanishes"
   ],
   "note": "The multipliers are right for scales of at most one (f32 rounding left out); for larger scales an input can be dropped (C63_vanishes). The announced size suffices only while the real values add up to at most four; from eight on the requantisation always fails (C63_size_fails)."
  },
  {
   "property": "C64",
   "status": "partial",
   "theorems": [
    "C64_sound_partial",
    "C64_batch_count",
    "C64_complete",
    "C64_integer",
    "C64_restate",
    "C64_forgery",
    "C64_refuted"
   ],
   "note": "Completeness is proved in full. Soundness needs the point stated by the aggregation to be the one of its sumcheck, which the verifier does not check; without it the layer is forged (C64_forgery, C64_refuted)."
  },
  {
   "property": "C65",
   "status": "partial",
   "theorems": [
    "C65_entries",
    "C65_bound",
    "C65_chunks",
    "C65_sizes",
    "C65_mask_refuted",
    "C65_sizes_refuted"
   ],
   "note": "Weights, chunks and bounds are proved for all inputs. The masked entries are zero only if the mask value fits the table or there are zero chunks; otherwise they get the largest weight (C65_mask_refuted). The smallest input itself can fall outside the chunks (C65_sizes_refuted)."
  },
  {
   "property": "C66",
   "status": "partial",
   "theorems": [
    "C66_sound_partial",
    "C66_sound_field",
    "C66_complete",
    "C66_rows",
    "C66_rows_refuted",
    "C66_claim_refuted"
   ],
   "note": "Missing: the block over which the error lookup sums is chosen by the proof, so rows need not be normalised (C66_rows, C66_rows_refuted); soundness assumes that the zero columns are opened, and with fewer commitments in the proof the verifier does not ask for that; completeness is for at most three zero chunks; the claim that the honest prover passes on is scaled (C66_claim_refuted)."
  },
  {
   "property": "C67",
   "status": "partial",
   "theorems": [
    "C67_sound_partial",
    "C67_complete",
    "C67_refuted"
   ],
   "note": "Missing: soundness assumes that the two product proofs carry three evaluations, which the verifier does not check; with a fourth one any output is accepted (C67_refuted). The block of the error lookup and the opening of the zero columns are as for C66."
  },
  {
   "property": "C68",
   "status": "partial",
   "theorems": [
    "C68_causal",
    "C68_total",
    "C68_prefix",
    "C68_refuted"
   ],
   "note": "Proved for all inputs and sizes when the mask value loses no bit in the chunks. Missing: when it is a power of two and there are no zero chunks, causality fails (C68_refuted). Overflow of i64 is not modelled."
  },
  {
   "property": "C69",
   "status": "partial",
   "theorems": [
    "C69_greedy",
    "C69_observed",
    "C69_total",
    "C69_refuses",
    "C69_context",
    "C69_whole",
    "C69_empty_refuted",
    "C69_context_refuted"
   ],
   "note": "Proved for every model, prompt and window. Missing: with a window not larger than the prompt an empty trace is returned as a success (C69_empty_refuted), and a window larger than the context is accepted (C69_context_refuted). The model is any function of its input; the tokenizer and the printing observer are not modelled."
  },
  {
   "property": "C70",
   "status": "partial",
   "theorems": [
    "C70_rows",
    "C70_qkv",
    "C70_flat_refuted"
   ],
   "note": "Proved for every history of rows of shape [1, w], and that the cache filled row by row equals the projections of the whole text. Missing: a row of shape [w] is accepted once and then every call panics (C70_flat_refuted)."
  },
  {
   "property": "C71",
   "status": "partial",
   "theorems": [
    "C71_causal",
    "C71_agree",
    "C71_total",
    "C71_whole",
    "C71_generates",
    "C71_refuted"
   ],
   "note": "Proved for decoders of every depth and size whose masks lose no bit. Missing: with the other mask values it is false (C71_refuted). The composition of the layers is written by hand from parser/llm.rs; every requantisation and activation is any operation on elements; overflow of i64 is not modelled."
  },
  {
   "property": "C72",
   "status": "partial",
   "theorems": [
    "C72_accepts",
    "C72_elements",
    "C72_error",
    "C72_filter",
    "C72_filter_total",
    "C72_filter_panics",
    "C72_filter_valid",
    "C72_filter_refuted",
    "C72_load",
    "C72_load_length",
    "C72_load_count",
    "C72_extra_refuted"
   ],
   "note": "Proved for all inputs and shapes. Missing, because false: surplus flat inputs are dropped instead of refused (C72_extra_refuted), and an empty selection gives an input that validation refuses (C72_filter_refuted). NaN and infinities are not modelled; the half-step bound is for exact arithmetic."
  },
  {
   "property": "C73",
   "status": "partial",
   "theorems": [
    "C73_answer",
    "C73_all",
    "C73_count",
    "C73_skip_refuted",
    "C73_length_refuted",
    "C73_inputs_refuted"
   ],
   "note": "Proved: the answer is the proofs, in order, of the rows whose inference succeeds, and one for each row if none fails. Missing, because false: a failing row is dropped without a mark (C73_skip_refuted), one row of another length fails the whole request (C73_length_refuted), models of several inputs are never proved (C73_inputs_refuted)."
  },
  {
   "property": "C74",
   "status": "proved",
   "theorems": [
    "C74_in_place",
    "C74_total",
    "C74_model",
    "C74_aarch64",
    "C74_copy",
    "C74_involutive",
    "C74_transpose"
   ],
   "note": "For all element sizes and all lengths below 2^64. The memory model is a list of cells: aliasing of the references beyond the overlap check and alignment are not modelled."
  },
  {
   "property": "C75",
   "status": "partial",
   "theorems": [
    "C75_scales",
    "C75_layers",
    "C75_requants",
    "C75_requanted",
    "C75_outputs",
    "C75_total",
    "C75_observed",
    "C75_observer",
    "C75_observed_tight",
    "C75_two_outputs_refuted",
    "C75_observed_tight_refuted",
    "C75_absolute_max_refuted"
   ],
   "note": "Proved for well-formed graphs in which each output of a layer that asks for requantisation has one consumer (see C47 for the others), with the quantisation of one layer as a parameter and exact arithmetic for the calibration bounds. Refuted by the code: a wire routed to two outputs, a node with the id 10000, and AbsoluteMax, which clips every activation to [-1, 1]."
  }
 ]
}