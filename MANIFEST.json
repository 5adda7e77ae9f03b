{
 "claims": [
  {
   "property": "C01",
   "status": "proved",
   "theorems": [
    "C01_add",
    "C01_sub",
    "C01_mul",
    "C01_mac",
    "C01_zero_modulus_refuted",
    "C01_expression"
   ],
   "note": "All four operations are exact for every accepted non-zero modulus, also for whole expressions. The verifier accepts modulus 0, for which the code divides by zero (C01_zero_modulus_refuted)."
  },
  {
   "property": "C02",
   "status": "proved",
   "theorems": [
    "C02_reduce"
   ],
   "note": "Every storage word, read as signed, is mapped to its canonical residue."
  },
  {
   "property": "C03",
   "status": "partial",
   "theorems": [
    "C03_standard_lift",
    "C03_centered_lift_partial",
    "C03_centered_lift_refuted"
   ],
   "note": "Standard lift proved for all accepted types. Centered lift proved for every accepted modulus except q = 2^(w-1)-1; there q+1 overflows and the result is wrong (witness 127 : i8)."
  },
  {
   "property": "C04",
   "status": "partial",
   "theorems": [
    "C04_barrett",
    "C04_subifge",
    "C04_barrett_then_subifge",
    "C04_narrow_attribute_refuted"
   ],
   "note": "Barrett reduction and subifge proved for x < q^2, under the code's requirement that the modulus attribute has at least 3w bits; without it the lowering aborts (refuted lemma gives the witness)."
  },
  {
   "property": "C05",
   "status": "partial",
   "theorems": [
    "C05_mod_switch_partial",
    "C05_mod_switch_refuted",
    "C05_mod_switch_to_rns"
   ],
   "note": "False only at x = (q-1)/2 for odd q (witness q=7, p=5, x=3); proved for all other canonical values. Switching to RNS proved."
  },
  {
   "property": "C06",
   "status": "partial",
   "theorems": [
    "C06_fold_matches_lowering_partial",
    "C06_literal",
    "C06_negative_literal_refuted",
    "C06_fold_matches_lowering_refuted"
   ],
   "note": "Proved for canonical constants. False for literals written with a minus sign (witness -1 : int<17:i32>) and for non-canonical stored words."
  },
  {
   "property": "C07",
   "status": "proved",
   "theorems": [
    "C07_rewrites_preserve"
   ],
   "note": "All 19 canonicalisation patterns, mac formation and the folders, applied anywhere and in any order, for canonical constants."
  },
  {
   "property": "C08",
   "status": "partial",
   "theorems": [
    "C08_convert_basis_partial",
    "C08_shared_limb",
    "C08_inverse_products",
    "C08_three_limbs_refuted",
    "C08_mersenne_modulus_refuted"
   ],
   "note": "Proved for one and two input limbs with odd moduli other than 2^(w-1)-1; the inverse table and the shared-limb shortcut are proved for any number of limbs. From three limbs on the property is false (C08_three_limbs_refuted, witness (3,5,7) -> 11): the Horner constant is the modulus of the current limb."
  },
  {
   "property": "C09",
   "status": "proved",
   "theorems": [
    "C09_crt_interpolation",
    "C09_verifier_wraps_refuted"
   ],
   "note": "Proved for every number of limbs, including that no intermediate value wraps. The op verifier multiplies the moduli modulo 2^width and so accepts wrong big moduli (C09_verifier_wraps_refuted)."
  },
  {
   "property": "C10",
   "status": "proved",
   "theorems": [
    "C10_multiplicative_inverse"
   ],
   "note": "Any width, any modulus; zero is returned exactly for non-invertible arguments."
  },
  {
   "property": "C11",
   "status": "proved",
   "theorems": [
    "C11_modular_multiplication",
    "C11_modular_exponentiation",
    "C11_modulus_one_refuted"
   ],
   "note": "Proved for moduli above 1; modulus 1 with exponent 0 returns 1 (C11_modulus_one_refuted)."
  },
  {
   "property": "C12",
   "status": "proved",
   "theorems": [
    "C12_factorize"
   ],
   "note": "Product, primality and multiplicities of the factorisation."
  },
  {
   "property": "C13",
   "status": "proved",
   "theorems": [
    "C13_primitive_root",
    "C13_primitive_2nth_root"
   ],
   "note": "Soundness and termination for prime moduli up to 2^64."
  },
  {
   "property": "C14",
   "status": "proved",
   "theorems": [
    "C14_isPrime_accepts_primes"
   ],
   "note": "Every prime is accepted, at any width."
  },
  {
   "property": "C15",
   "status": "proved",
   "theorems": [
    "C15_ntt_round_trip",
    "C15_ntt_evaluates",
    "C15_rns_round_trip"
   ],
   "note": "Every power-of-two length, every odd modulus below 2^64 larger than the length, any root of x^n+1; also for RNS polynomials over NTT-friendly primes with the roots the code searches for."
  },
  {
   "property": "C16",
   "status": "proved",
   "theorems": [
    "C16_ntt_product",
    "C16_rns_product",
    "C16_rns_add",
    "C16_rns_sub",
    "C16_rns_add_refuted"
   ],
   "note": "Proved for one limb with any root and for RNSPolynomial::mul over NTT-friendly primes. Also proved: addition for moduli up to 2^63 and subtraction; addition above 2^63 wraps (C16_rns_add_refuted)."
  },
  {
   "property": "C17",
   "status": "proved",
   "theorems": [
    "C17_lowered_ntt_evaluates",
    "C17_lowered_round_trip"
   ],
   "note": "Both directions, every power-of-two degree and accepted modulus."
  },
  {
   "property": "C18",
   "status": "partial",
   "theorems": [
    "C18_fold_is_permuted",
    "C18_fold_small_degree_partial",
    "C18_ntt_fold_refuted",
    "C18_intt_fold_refuted"
   ],
   "note": "False: the folder leaves the result in bit-reversed order (differs from degree 4 on, C18_ntt_fold_refuted) and inverts the already inverted root of polynomial.intt (C18_intt_fold_refuted). Proved: the two forward results are related by bit reversal, hence equal up to degree 2."
  },
  {
   "property": "C19",
   "status": "partial",
   "theorems": [
    "C19_remainder_unique",
    "C19_polymul_partial",
    "C19_negacyclic_partial",
    "C19_zero_product_refuted",
    "C19_constant",
    "C19_constant_truncation_refuted"
   ],
   "note": "Division loop, leading-term search and naive product proved to give the remainder (unique) whenever it is non-zero, for every ideal of degree at least 2 with invertible positive leading coefficient; equal to the negacyclic product for x^n+1. When the product is zero in the ring the leading-term search runs below index 0 (C19_zero_product_refuted). Constants are exact when their coefficients fit the storage width, otherwise truncated (C19_constant_truncation_refuted)."
  },
  {
   "property": "C20",
   "status": "partial",
   "theorems": [
    "C20_preserves_partial",
    "C20_conversions_partial",
    "C20_feasible",
    "C20_constant_refuted",
    "C20_mod_switch_refuted"
   ],
   "note": "Every straight-line function in SSA form that runs, every meaning of the coefficient-only operations and of operations outside the dialect, every feasible solver answer. Partial: constants must not be wanted in evaluation form and there must be no modulus switch; both restrictions are shown necessary (C20_constant_refuted: the pass relabels the type of a constant without transforming it; C20_mod_switch_refuted: elementwise reduction in evaluation form). Optimality of the CP-SAT answer, regions and dead-code elimination are not modelled; dead polynomial results are excluded."
  },
  {
   "property": "C21",
   "status": "proved",
   "theorems": [
    "C21_horner"
   ],
   "note": "Every sparse polynomial over every commutative ring, the empty one included."
  },
  {
   "property": "C22",
   "status": "proved",
   "theorems": [
    "C22_ps_monomial",
    "C22_any_block"
   ],
   "note": "For the block size chosen by the code and for any other."
  },
  {
   "property": "C23",
   "status": "partial",
   "theorems": [
    "C23_exact_partial",
    "C23_error_bound_partial",
    "C23_null_refuted"
   ],
   "note": "Exact when only zeros are dropped (any commutative ring); error bound and domain mapping over the reals, rounding of doubles not modelled. Partial because a series all of whose decomposed coefficients are small yields a null program (C23_null_refuted)."
  },
  {
   "property": "C24",
   "status": "partial",
   "theorems": [
    "C24_to_standard_partial",
    "C24_compose_partial",
    "C24_to_standard_refuted",
    "C24_compose_refuted"
   ],
   "note": "Conversion is right whenever it returns, and can fail (C24_to_standard_refuted). Composition with a linear map proved for every degree except 2, where the code loses a vector (C24_compose_refuted). Rounding is not modelled."
  },
  {
   "property": "C25",
   "status": "partial",
   "theorems": [
    "C25_add_partial",
    "C25_add_nested",
    "C25_sub_partial",
    "C25_scale",
    "C25_monomial_mul",
    "C25_naive_mul",
    "C25_compose_partial",
    "C25_compose_total",
    "C25_from_monomials",
    "C25_from_coefficients",
    "C25_dense",
    "C25_add_refuted",
    "C25_mul_zero_refuted",
    "C25_compose_refuted"
   ],
   "note": "Any commutative ring with a sound zero test; exponents and degrees within the stated widths. Sums are right whenever they are returned; interleaved exponents trip the assertion (C25_add_refuted), and the zero polynomial cannot be multiplied or passed through in a composition (C25_mul_zero_refuted, C25_compose_refuted). Products and compositions with non-constant polynomials over domains are total."
  },
  {
   "property": "C26",
   "status": "proved",
   "theorems": [
    "C26_matvec"
   ],
   "note": "Every size, matrix and vector over any commutative ring."
  },
  {
   "property": "C27",
   "status": "partial",
   "theorems": [
    "C27_rotate_and_reduce_partial",
    "C27_steps_refuted",
    "C27_dot_partial"
   ],
   "note": "Power-of-two step counts, sums and products, rolled and unrolled, any period and vector length; dot product of power-of-two length. Other step counts are wrong (C27_steps_refuted) and are not rejected by the operation's verifier."
  },
  {
   "property": "C28",
   "status": "proved",
   "theorems": [
    "C28_bsgs"
   ],
   "note": "Every step count, period and plaintext list, with skipped diagonals required to be zero."
  },
  {
   "property": "C29",
   "status": "partial",
   "theorems": [
    "C29_rolled_accumulation",
    "C29_rolled_bsgs_partial",
    "C29_false_entry_refuted"
   ],
   "note": "Accumulation for every step count; with plaintexts when the zero-diagonal map only contains true entries. An entry mapped to false makes the two differ (C29_false_entry_refuted)."
  },
  {
   "property": "C30",
   "status": "proved",
   "theorems": [
    "C30_halevi_shoup"
   ],
   "note": "Every row and column count up to 2^62, with padding, partial sums, replication and skipped zero diagonals, rolled and unrolled."
  },
  {
   "property": "C31",
   "status": "partial",
   "theorems": [
    "C31_bicyclic_prefix",
    "C31_bicyclic_kernel",
    "C31_tricyclic_kernel",
    "C31_secret_lhs",
    "C31_secret_rhs",
    "C31_unreplicated_refuted",
    "C31_short_refuted"
   ],
   "note": "Kernels with replication proved for all slots once the slot count leaves room for one period; without replication only the valid prefix holds (C31_unreplicated_refuted). With fewer slots the assertion fails although the layout pass accepts (C31_short_refuted). The final addition of the initial accumulator is not modelled."
  },
  {
   "property": "C32",
   "status": "proved",
   "theorems": [
    "C32_rotate_and_reduce",
    "C32_linear_transform"
   ],
   "note": "Rotate-and-reduce (rolled and unrolled, with and without plaintexts) and linear transforms. Overflow of 64-bit products of indices is not modelled. The simulation of loops by the rotation analysis is not part of this claim."
  },
  {
   "property": "C33",
   "status": "partial",
   "theorems": [
    "C33_canonicalise_partial",
    "C33_extract_partial",
    "C33_normalize_refuted",
    "C33_normalize_width_refuted",
    "C33_combine_refuted",
    "C33_combine_types_refuted",
    "C33_fold_rank_refuted",
    "C33_fold_negative_refuted",
    "C33_extract_refuted"
   ],
   "note": "All tensor patterns and the alignment patterns, anywhere and in any number, for lengths that are powers of two, one shift type whose range exceeds the length, and constants of rank one. Each condition is needed: seven refuted lemmas give witnesses (unsigned remainder of negative shifts, zero divisor, wrapping sums, mixed types, rank-two constants, extraction out of bounds)."
  },
  {
   "property": "C34",
   "status": "proved",
   "theorems": [
    "C34_any_coloring",
    "C34_remap",
    "C34_layout"
   ],
   "note": "Any number of ciphertexts, any power-of-two slot count (asserted by the code), any mapping, any order of the rotations, the greedy colouring and every other proper one; nearest source chosen when a target has several. Elements need only x*1=x, x*0=0 and x+0=0+x=x, so floating-point values must be finite. The default order is computed in 32-bit ints and needs at most 2^31 virtual slots. Caches are not modelled and the enumeration of the layout relation is an input."
  },
  {
   "property": "C35",
   "status": "partial",
   "theorems": [
    "C35_collapse_partial",
    "C35_ends",
    "C35_fork_refuted"
   ],
   "note": "Every block of insertions, any number of applications, every order of the use lists, when no tensor is the destination of two insertions of extracted elements; without this the pattern counts indices of several branches but follows one (C35_fork_refuted). Regions and dynamic lengths are not modelled."
  },
  {
   "property": "C36",
   "status": "partial",
   "theorems": [
    "C36_left_partial",
    "C36_no_merge_partial",
    "C36_chain",
    "C36_right_refuted"
   ],
   "note": "Any block of rotations, extractions, arithmetic and unknown operations on scalars and rank-one tensors: every operation keeps its value when the constant shifts are not negative, or more generally when no rotation merges indices; associativity is assumed of the operations treated. With rotations to the right two names of one element can merge and a wrong sum results (C36_right_refuted). That the chain of all rotations is found is proved for every length. Regions are not modelled."
  },
  {
   "property": "C37",
   "status": "partial",
   "theorems": [
    "C37_insert_partial",
    "C37_program_partial",
    "C37_target_refuted",
    "C37_shapes_refuted"
   ],
   "note": "Insertion for tensors of any common length and target slot inside it; insertion, alignment and canonicalisation together for lengths that are powers of two. The target slot is not checked against the length and the shapes may differ (two refuted lemmas)."
  },
  {
   "property": "C38",
   "status": "proved",
   "theorems": [
    "C38_edges",
    "C38_topological_sort",
    "C38_fails_iff_cyclic"
   ],
   "note": "Kahn's algorithm with the vector used as a stack; order, completeness and failure exactly on cyclic graphs."
  },
  {
   "property": "C39",
   "status": "partial",
   "theorems": [
    "C39_levels",
    "C39_level_is_longest_walk",
    "C39_level_from_inputs_refuted"
   ],
   "note": "Level placement proved, and the level (counted from the last) equals the longest walk leaving the vertex. The comment that levels are distances from inputs is false (refuted theorem). getLongestSourceToSinkPath is an uninstantiable template (calls size() on FailureOr) and is not modelled."
  },
  {
   "property": "C40",
   "status": "partial",
   "theorems": [
    "C40_fails_iff_unreachable",
    "C40_shortest_path_partial",
    "C40_not_a_path_refuted",
    "C40_not_shortest_refuted",
    "C40_nontermination_refuted"
   ],
   "note": "The search decides reachability. The reconstruction is wrong in general: it can return a non-path, a path that is not shortest, or never end (three refuted theorems). Proved correct when no vertex has two successors."
  },
  {
   "property": "C41",
   "status": "proved",
   "theorems": [
    "C41_edges",
    "C41_coloring"
   ],
   "note": "DSatur with stale queue entries; proper, total, colour at most the degree, terminates."
  },
  {
   "property": "C42",
   "status": "partial",
   "theorems": [
    "C42_condense_partial",
    "C42_self_loop_refuted",
    "C42_lost_path_refuted"
   ],
   "note": "Every graph without self loops: the result is acyclic, its vertices are the classes of mutually reachable vertices, reachability is preserved both ways. With self loops both halves fail (C42_self_loop_refuted, C42_lost_path_refuted). Weights and the merge callback are not modelled."
  },
  {
   "property": "C43",
   "status": "partial",
   "theorems": [
    "C43_loop_semantics",
    "C43_static_for_partial",
    "C43_static_bounds",
    "C43_unaligned_refuted"
   ],
   "note": "Positive theorem for static bounds that enclose the secret ones and are aligned with the step; C43_unaligned_refuted shows that an unaligned static lower bound visits other indices. Non-index induction variables (ill-typed body) not modelled."
  },
  {
   "property": "C44",
   "status": "partial",
   "theorems": [
    "C44_static_while_partial",
    "C44_rejects_computed_operands",
    "C44_swapped_operands_refuted"
   ],
   "note": "Proved for the recognised condition shape and loops that stop within max_iter. The recogniser compares defining operations, so operands that are block arguments are confused (C44_swapped_operands_refuted)."
  },
  {
   "property": "C45",
   "status": "proved",
   "theorems": [
    "C45_extract",
    "C45_insert"
   ],
   "note": "Every size and in-range index, for reads and writes."
  },
  {
   "property": "C46",
   "status": "partial",
   "theorems": [
    "C46_if_to_select",
    "C46_impure_rejected",
    "C46_select_int",
    "C46_select_float_partial",
    "C46_if_to_arith_partial",
    "C46_poison_refuted",
    "C46_nonfinite_refuted"
   ],
   "note": "If-to-select proved for pure bodies without poison; select-to-arithmetic proved for integers of any width and for finite floats. False if a branch gives poison, or for infinities and NaN (refuted theorems)."
  },
  {
   "property": "C47",
   "status": "partial",
   "theorems": [
    "C47_cmpf_behaviour",
    "C47_sense_refuted",
    "C47_cmpi_behaviour",
    "C47_cmpi_refuted"
   ],
   "note": "The value the rewrite computes is characterised on all finite floats and on integers exact in f32: the sense is inverted (a < b gives 0, a > b gives poison), so the claim fails (refuted); unsigned greater-than builds an op on a null value."
  },
  {
   "property": "C48",
   "status": "proved",
   "theorems": [
    "C48_tree_shape",
    "C48_balance_block",
    "C48_balance_depth",
    "C48_word_operations"
   ],
   "note": "Trees within one block over any associative and commutative operation, with instances for word operations."
  },
  {
   "property": "C49",
   "status": "partial",
   "theorems": [
    "C49_forward_store_partial",
    "C49_remove_store_partial",
    "C49_dynamic_index_refuted",
    "C49_aliased_memref_refuted",
    "C49_call_refuted",
    "C49_remove_store_refuted",
    "C49_forward_insert_partial",
    "C49_forward_insert_constant_indices",
    "C49_insert_dynamic_refuted"
   ],
   "note": "Proved when no other name reaches the same location in between and there is no call; refuted for dynamic indices, aliasing memrefs and calls, for loads, erased stores and extracts."
  },
  {
   "property": "C50",
   "status": "proved",
   "theorems": [
    "C50_fold_masks",
    "C50_fires_on_masks",
    "C50_float_masks"
   ],
   "note": "Integers of every width; floats elementwise for every precision, rounding mode and value, up to the sign of zero."
  },
  {
   "property": "C51",
   "status": "proved",
   "theorems": [
    "C51_is_power_of_two",
    "C51_next_power_of_two"
   ],
   "note": "All positive 64-bit arguments."
  },
  {
   "property": "C52",
   "status": "proved",
   "theorems": [
    "C52_critical_path"
   ],
   "note": "All graphs built through the interface."
  },
  {
   "property": "C53",
   "status": "proved",
   "theorems": [
    "C53_flatten",
    "C53_unflatten",
    "C53_overflow_refuted"
   ],
   "note": "Flattening proved below 2^31 elements (int accumulators overflow from there, C53_overflow_refuted); unflattening for all sizes."
  },
  {
   "property": "C54",
   "status": "partial",
   "theorems": [
    "C54_broadcasted_reduce_partial",
    "C54_product_refuted"
   ],
   "note": "Sums, any period and power-of-two step count, with the mask that selects the last group. With a product the result is zero (C54_product_refuted)."
  },
  {
   "property": "C55",
   "status": "partial",
   "theorems": [
    "C55_decompose",
    "C55_zero_block_refuted"
   ],
   "note": "Every block size at least 1; block size 0 never ends (C55_zero_block_refuted)."
  },
  {
   "property": "C56",
   "status": "partial",
   "theorems": [
    "C56_powers",
    "C56_chebyshev_values",
    "C56_cached_values",
    "C56_balanced_refuted"
   ],
   "note": "The comment that splitDegree minimises the difference of its parts is false (C56_balanced_refuted)."
  },
  {
   "property": "C57",
   "status": "partial",
   "theorems": [
    "C57_lowered_partial",
    "C57_sound",
    "C57_automatic_refuted",
    "C57_zero_refuted"
   ],
   "note": "Forced methods proved for every non-empty polynomial, the automatic method up to degree 5. From degree 6 on both monomial patterns decline (C57_automatic_refuted), and the zero polynomial has no last term (C57_zero_refuted)."
  },
  {
   "property": "C58",
   "status": "proved",
   "theorems": [
    "C58_components"
   ],
   "note": "Every graph that the public interface can build, self loops and contractions included; indices are unbounded."
  },
  {
   "property": "C59",
   "status": "proved",
   "theorems": [
    "C59_contract",
    "C59_absent"
   ],
   "note": "Every graph, also when source and target coincide. Weights and the merge callback are not modelled."
  },
  {
   "property": "C60",
   "status": "proved",
   "theorems": [
    "C60_attached_roots"
   ],
   "note": "Every list of ntt/intt operations over rings with prime moduli that fit their storage type (and 64 bits), in any order, starting from the empty caches; RNS and single-limb rings mixed. The fuel bounds the trial search of the root, of which C13 proves termination."
  },
  {
   "property": "C61",
   "status": "partial",
   "theorems": [
    "C61_supported_partial",
    "C61_add",
    "C61_mul_iff",
    "C61_mul_refuted",
    "C61_constant_refuted",
    "C61_constant_width",
    "C61_ext_refuted"
   ],
   "note": "Sums of any number of operands are right (C61_add: carries are never lost although chunks become redundant). Partial: products of canonical operands are right exactly when a0*b1+a1*b0 fits 16 bits (C61_mul_iff, C61_mul_refuted); constants with a byte of 128 or more are sign extended wrongly (C61_constant_refuted), constants of a width not a multiple of 8 hit an assertion (C61_constant_width), extsi of a negative number and extui of a redundant sum are wrong (C61_ext_refuted). Ciphertexts are modelled by their plaintext; noise is not modelled."
  },
  {
   "property": "C62",
   "status": "partial",
   "theorems": [
    "C62_terminates",
    "C62_secret_iff",
    "C62_noninterference_partial",
    "C62_condition_refuted",
    "C62_loop_bound_refuted",
    "C62_memory_refuted",
    "C62_region_refuted",
    "C62_generic_refuted"
   ],
   "note": "Termination, order independence and the characterisation of secret values hold for every function. Partial: noninterference needs public conditions and loop bounds, public stores, known secretness of forwarded values and public plaintext operands of secret.generic; each condition is shown necessary by a counterexample (C62_condition_refuted, C62_loop_bound_refuted, C62_memory_refuted, C62_region_refuted, C62_generic_refuted). The steps of the MLIR framework for control flow are modelled from its documented behaviour; dead-code analysis, scf.while and calls of functions with a body are not modelled."
  },
  {
   "property": "C63",
   "status": "partial",
   "theorems": [
    "C63_semantics_partial",
    "C63_pack_refuted",
    "C63_loop_refuted",
    "C63_memref_refuted",
    "C63_debug_refuted",
    "C63_greedy_refuted"
   ],
   "note": "Every block of the fragment, every starting state, every meaning of the operations; with strict = true the statement includes that no in-place operation writes into a storage of greater depth. Partial: outside the fragment the claim is false, each case with a counterexample: tensor.from_elements (C63_pack_refuted), loops running zero times (C63_loop_refuted), the load-operation-store pattern (C63_memref_refuted); debug output may change (C63_debug_refuted); the greedy choice does not use least memory (C63_greedy_refuted). Slices, calls with tensor results that alias their arguments, and blocks nested in regions are not modelled."
  },
  {
   "property": "C64",
   "status": "partial",
   "theorems": [
    "C64_semantics_partial",
    "C64_insert_refuted",
    "C64_extract_refuted",
    "C64_argument_refuted",
    "C64_loop_refuted",
    "C64_after_loop_refuted"
   ],
   "note": "Every block of the fragment (the mutated operand was allocated in the block and has no second name), every starting state and meaning of the operations. Partial: outside it the claim is false, with counterexamples for insertion into a tensor, repeated extraction, function arguments, values read in every iteration of a loop, and values used after a loop. MLIR's Liveness is modelled from its documented behaviour."
  },
  {
   "property": "C65",
   "status": "partial",
   "theorems": [
    "C65_sound",
    "C65_exact",
    "C65_least",
    "C65_bounded_partial",
    "C65_stops_refuted",
    "C65_uninitialized_refuted"
   ],
   "note": "Programs with loops and a constant number of iterations; any execution, also one the backend would reject. Partial: the iteration is bounded only when products are relinearized at once; a loop that squares has no fixed point (C65_stops_refuted). A fixed point must give the loop-carried values a dimension (C65_uninitialized_refuted). The secretness is a parameter (C62)."
  },
  {
   "property": "C66",
   "status": "partial",
   "theorems": [
    "C66_correct_partial",
    "C66_solvable",
    "C66_complete",
    "C66_fewest_partial",
    "C66_equal_degrees_refuted",
    "C66_loop_refuted"
   ],
   "note": "The integer program is modelled constraint by constraint over the rationals; the answer of the solver is any feasible assignment. Partial: the integer program does not relate the inits and yields of a loop to its block arguments and results, so the theorem assumes that the solution agrees there (C66_loop_refuted shows the need). The optimality claim is false if equal degrees are required (C66_equal_degrees_refuted) and needs operations with one result; existence and completeness are for straight-line programs."
  },
  {
   "property": "C67",
   "status": "partial",
   "theorems": [
    "C67_levels",
    "C67_succeeds",
    "C67_values",
    "C67_components",
    "C67_function",
    "C67_other_refuted"
   ],
   "note": "Straight-line bodies, no bootstrapping; handled operations have at most two ciphertext operands. C67_other_refuted: an operation of another dialect with ciphertext operands of different depth gets no matching of levels."
  },
  {
   "property": "C68",
   "status": "partial",
   "theorems": [
    "C68_levels",
    "C68_consistent",
    "C68_budget_refuted"
   ],
   "note": "Hypothesis that a plaintext operand is used at one level. C68_budget_refuted: without a budget the insertion allows 100 levels and the annotation 40."
  },
  {
   "property": "C69",
   "status": "partial",
   "theorems": [
    "C69_depth",
    "C69_annotation",
    "C69_function",
    "C69_depth_refuted"
   ],
   "note": "C69_depth_refuted: at depth 41 the multiplicative depth cannot be read."
  },
  {
   "property": "C70",
   "status": "partial",
   "theorems": [
    "C70_correct",
    "C70_complete",
    "C70_plaintext_refuted",
    "C70_shared_index_refuted",
    "C70_overflow_refuted",
    "C70_truncation_refuted"
   ],
   "note": "C70_plaintext_refuted: a plaintext operand is encoded at scale 1, so x^4 + c fails an assertion or, in a release build, decrypts wrongly. C70_shared_index_refuted: the rotation amount gets the scale of the ciphertext, so sharing it between scales fails an assertion. C70_overflow_refuted: products of scales overflow for t above 2^31.5. C70_truncation_refuted: the annotation truncates scales to 32 bits, wrong for t above 2^31."
  },
  {
   "property": "C71",
   "status": "partial",
   "theorems": [
    "C71_scales",
    "C71_correct",
    "C71_rounding_refuted",
    "C71_growth_refuted"
   ],
   "note": "Moduli are taken as exact powers of two and errors are left out. C71_rounding_refuted: with unequal moduli x^2 * x asks for a scale to be lowered, which is reported as an error; the same moduli in another order are fine. C71_growth_refuted: with a reduction before the first product plaintexts are encoded at twice the default scale, so the scale of c * (c * (c * x)) outgrows the modulus left."
  },
  {
   "property": "C72",
   "status": "partial",
   "theorems": [
    "C72_row_major",
    "C72_diagonal",
    "C72_diagonal_slots_refuted",
    "C72_bicyclic",
    "C72_tricyclic",
    "C72_bicyclic_diagonal",
    "C72_periodic",
    "C72_per_row",
    "C72_float_refuted",
    "C72_product_refuted"
   ],
   "note": "Row-major, diagonal, bicyclic, tricyclic, bicyclic-diagonal, periodic (one ciphertext) and per-row layouts: exact contents, functional, complete, in range. Refuted beyond the stated sizes: C72_float_refuted (2^24+1 elements lose the last one because the number of ciphertexts is computed with float), C72_product_refuted (32-bit product of the shape wraps), C72_diagonal_slots_refuted (fewer slots than the padded columns lose elements although the assertion-free code accepts them)."
  },
  {
   "property": "C73",
   "status": "proved",
   "theorems": [
    "C73_enumerate",
    "C73_box",
    "C73_layouts_found",
    "C73_complement",
    "C73_pack",
    "C73_unpack",
    "C73_roundtrip"
   ],
   "note": "Enumeration, complement, packing, unpacking and their round trip. isl (image of a fixed index, points of a set) and getConstantBound64 are parameters with their specification as hypotheses; for the layouts of C72 the box is always found without getConstantBound64 (C73_layouts_found)."
  },
  {
   "property": "C74",
   "status": "partial",
   "theorems": [
    "C74_loop_nest",
    "C74_reversed",
    "C74_expression",
    "C74_block_refuted",
    "C74_no_loop_refuted",
    "C74_reversed_block_refuted"
   ],
   "note": "Expressions, loops, conditionals, blocks, statements, both directions. The isl tree is the input (isl's own generation is trusted), with C semantics. Refuted in general: a root block of several loops returns only the first loop's results, a tree without loop has nothing to return, and reversal keeps the order within a block."
  },
  {
   "property": "C75",
   "status": "partial",
   "theorems": [
    "C75_assign",
    "C75_unpack",
    "C75_roundtrip",
    "C75_array",
    "C75_array_back",
    "C75_permutation",
    "C75_permutation_beyond",
    "C75_permutation_negative_refuted",
    "C75_single_slot_refuted"
   ],
   "note": "All steps and arrays; isl and the Presburger library are quantified over with their specification (bounds, points, equality, range, sample, a loop nest whose statements are the points in order). Required of the layout: different elements do not share a slot, and all slots lie in the target. Refuted in general: a single element in a single slot of several has no loop nest and fails; negative indices of a permutation pass the bounds check and access out of bounds. tensor.empty inputs are modelled but excluded."
  },
  {
   "property": "C76",
   "status": "partial",
   "theorems": [
    "C76_matvec",
    "C76_matmul",
    "C76_batch_matmul",
    "C76_matmul_plain",
    "C76_dot_partial",
    "C76_accumulator_refuted",
    "C76_computed_lhs_refuted",
    "C76_dot_refuted",
    "C76_batch_rectified_refuted",
    "C76_matmul_diagonal_refuted"
   ],
   "note": "Conversions of layouts are taken as done (C75, C35); isl is quantified over with its specification. Refuted in general: the accumulator of a matmul keeps its own layout and is added as if it had the result's; a secret left operand that is computed instead of an argument is taken for the plaintext; dot products of lengths that are no power of two; batch_matmul operands with different layouts are first converted to the layout of the left one, which loses elements; the remaining matmuls (MatmulDiagonal) pack the transposed shape and have no lowering. vecmat is not modelled beyond that."
  },
  {
   "property": "C77",
   "status": "partial",
   "theorems": [
    "C77_add",
    "C77_sub",
    "C77_scalar",
    "C77_mul",
    "C77_ring_elt",
    "C77_negate_refuted",
    "C77_negate_partial",
    "C77_unsupported_refuted",
    "C77_public_encrypt",
    "C77_public_noise_refuted",
    "C77_secret_encrypt_partial",
    "C77_decrypt_partial",
    "C77_decrypt_refuted",
    "C77_public_roundtrip_refuted",
    "C77_secret_roundtrip_refuted"
   ],
   "note": "Refuted in general: negation multiplies by the word 2^w-1 instead of q-1; RNS ciphertexts cannot be negated and operations with a plaintext operand produce invalid code; the constant T that scales the noise is 0 modulo T, so the noise samples are unused; decryption computes s*c0 + c1 instead of the documented c0 + s*c1, so neither kind of encryption is inverted; secret-key encryption adds u*s twice. Number-theoretic transforms are the subject of C13-C14 and not repeated."
  },
  {
   "property": "C78",
   "status": "partial",
   "theorems": [
    "C78_mod_down_partial",
    "C78_three_primes_refuted",
    "C78_key_switch_partial",
    "C78_relinearize_partial"
   ],
   "note": "Refuted for three key-switch primes (the base conversion of C08 is wrong there). Key generation is not part of the code: the key is any key meeting the documented relation."
  },
  {
   "property": "C79",
   "status": "partial",
   "theorems": [
    "C79_collapse",
    "C79_remove_unused_yields",
    "C79_remove_unused_args_partial",
    "C79_remove_public_args",
    "C79_dedupe",
    "C79_capture_ambient_partial",
    "C79_merge_partial",
    "C79_hoist_before_partial",
    "C79_hoist_plaintext",
    "C79_hoist_after_partial",
    "C79_conceal_then_generic",
    "C79_conceal_insert_partial",
    "C79_nested",
    "C79_canonicalize",
    "C79_remove_unused_args_refuted",
    "C79_capture_ambient_refuted",
    "C79_merge_refuted",
    "C79_hoist_before_refuted",
    "C79_hoist_after_twice_refuted",
    "C79_hoist_after_capture_refuted",
    "C79_hoist_after_unused_refuted",
    "C79_conceal_insert_refuted"
   ],
   "note": "Refuted in general: RemoveUnusedGenericArgs replaces a secret result by a plaintext operand; HoistOpBeforeGeneric and HoistOpAfterGeneric ignore values captured by the regions of the operation; HoistOpAfterGeneric loses a result yielded twice and dereferences the end of the use list of an unused result; MergeAdjacentGenerics moves a capture of a result into the operation defining it; CaptureAmbientScope makes secret block arguments of captured secrets; ConcealPlaintextInsert changes tensor.insert operations outside the generic. The partial theorems exclude these cases. Memory effects, attributes, affine loads and stores, and constants absorbed or extracted into functions are not modelled."
  },
  {
   "property": "C80",
   "status": "proved",
   "theorems": [
    "C80_split",
    "C80_split_where",
    "C80_split_first",
    "C80_split_applies",
    "C80_separator"
   ],
   "note": "Operations are taken to define plaintexts inside the generic. A generic without any operation, and attributes, are not modelled."
  },
  {
   "property": "C81",
   "status": "partial",
   "theorems": [
    "C81_if",
    "C81_for_partial",
    "C81_secret_bound",
    "C81_secret_condition",
    "C81_for_repeated_refuted",
    "C81_for_read_refuted",
    "C81_for_direct_refuted",
    "C81_for_bound_refuted",
    "C81_for_unmarked_refuted"
   ],
   "note": "Refuted for loops in general: if a block argument initializes two loop-carried values, the later block arguments are shifted and the loop silently computes something else; a carried block argument that is also read in the loop is replaced by the secret itself; a secret operand that the loop also reads directly becomes a plaintext; a loop bound that is a block argument for a plaintext is left dangling; a result with an unmarked plaintext initial value becomes a plaintext. The partial theorem excludes these cases. A loop that yields a value without an entry in the mapping, or a generic that yields a block argument, is no result in the model (failed lookup). The order of the concealed initial values, which the code takes from a hash map, is fixed. MakeNonSecretIterArgsPublic, CleanUpConcealedLoopYields and the attributes that mark the initial values are not modelled."
  },
  {
   "property": "C82",
   "status": "partial",
   "theorems": [
    "C82_import",
    "C82_backends",
    "C82_lut2",
    "C82_netlist",
    "C82_gates",
    "C82_lincomb_partial",
    "C82_lincomb_refuted",
    "C82_narrow_refuted",
    "C82_plain_exact",
    "C82_plain_refuted",
    "C82_packed_gates",
    "C82_pmap_exact",
    "C82_pmap_refuted"
   ],
   "note": "Refuted in four places. The lowering of a truth table on plaintext inputs reads the table with all inputs negated and in opposite order. The packed three-input table of the jaxite back end gets its inputs in opposite order to the single one. The verifier of lut_lincomb bounds each coefficient but not their sum, which may wrap. A three-input table on a two-bit plaintext drops its first input when it is expanded. The partial theorem on linear combinations assumes that the largest sum of coefficients fits the plaintext. Encryption is not modelled: a ciphertext is its message modulo the plaintext modulus and a bootstrap is its function on messages. Cells with five or more inputs are imported with shifts of a signed 32-bit int and have no result in the model for rows from 31 on."
  },
  {
   "property": "C83",
   "status": "partial",
   "theorems": [
    "C83_boolean",
    "C83_straight",
    "C83_packs",
    "C83_lut3_types_refuted",
    "C83_result_type_refuted"
   ],
   "note": "Refuted with respect to types: three-input lookup tables on different ciphertext types are considered compatible, and the straight line vectorizer gives the vectors of operands the result type of the operation, which is wrong for comparisons. An operation has one result, nested regions capture no value of the block (the backward slice leaves captured values out), and the groups of compatible operations are visited in the order of their creation instead of that of a hash map. That sortTopologically finds an SSA order if there is one is taken from MLIR. The packed three-input table means the table on the operands in their order; what the back end makes of it is C82."
  },
  {
   "property": "C84",
   "status": "partial",
   "theorems": [
    "C84_sound",
    "C84_import",
    "C84_copy_refuted",
    "C84_split_refuted"
   ],
   "note": "Refuted in two cases: an output that copies an input as a whole reads as 0 when its bits are used later, and a connection from one whole wire to several parts has no result. Yosys itself, the parsing of the topological order from its log, and constants of several bits are not modelled; wires are identified by name and port numbers are distinct."
  },
  {
   "property": "C85",
   "status": "partial",
   "theorems": [
    "C85_integer_bits",
    "C85_wide_refuted",
    "C85_tensor_bits",
    "C85_roundtrip_refuted",
    "C85_conceal",
    "C85_conceal_vector",
    "C85_conceal_tensor_refuted",
    "C85_unflatten",
    "C85_access",
    "C85_cast",
    "C85_cast_bit_refuted"
   ],
   "note": "Refuted: taking an integer apart into bits and putting it together again does not return it, because the bits are sign extended (1 becomes 255 for eight bits); integers of more than 32 bits have no tensor of bits, because the mask is computed on int; secret.conceal of a vector conceals its first element again and again, and of a matrix may extract out of bounds, because unflattenIndex is given the shape instead of the strides; a tensor with a single bit cannot be cast to a bit. Writing a plaintext of several bits into a secret tensor happens in a loop that does not carry the tensor; this is not modelled. Ciphertexts are represented by the bits they hold."
  },
  {
   "property": "C86",
   "status": "partial",
   "theorems": [
    "C86_modulus",
    "C86_natural_partial",
    "C86_extension_partial",
    "C86_natural_refuted",
    "C86_extension_refuted",
    "C86_constant_refuted",
    "C86_secret",
    "C86_execute",
    "C86_negative_result_refuted",
    "C86_negative_plain_refuted",
    "C86_large_plain_refuted"
   ],
   "note": "Refuted: without a given modulus the highest bit is lost (100 + 100 = 72 for i8) and extensions are wrong outside the middle half of the range; the constant -1 does not become -1 modulo q; with secret-to-mod-arith negative results are not returned, negative plaintexts are multiplied as 2^64 - 1 (3 * -1 = 0 modulo 65537), and subtracting a plaintext of q or more is wrong. Operations of mod_arith are the ones of C01 to C05, tensors are elementwise; memrefs, loops and insert_slice are not modelled, neither are floating point types."
  },
  {
   "property": "C87",
   "status": "partial",
   "theorems": [
    "C87_scalar_results_partial",
    "C87_tensor_results_partial",
    "C87_thin_partial",
    "C87_constants_refuted",
    "C87_matrix_refuted",
    "C87_other_operation_refuted",
    "C87_degenerate_refuted"
   ],
   "note": "Refuted: constants, from_elements and operands of other operations are in row-major order, so for every shape with two dimensions above 1 some element of a constant is read from another position; results of other operations without dimensions or with a dimension 0 before another one are not handled. Control flow (converted structurally by MLIR) and dynamic indices (they behave as other operations) are not modelled."
  },
  {
   "property": "C88",
   "status": "partial",
   "theorems": [
    "C88_insertion_exact",
    "C88_extraction_partial",
    "C88_unit_dimension_refuted",
    "C88_padding",
    "C88_shift",
    "C88_forward_partial",
    "C88_dynamic_offset_refuted",
    "C88_overlapping_rows_refuted"
   ],
   "note": "Refuted: a slice tensor<1x4> is related as if it had one element, so overlapping parts of a row are taken to be disjoint, and an insertion at a dynamic offset is taken to be disjoint from every slice (kDynamic is used as offset). Shapes, sizes and strides are static; MLIR's emptiness test is exact in the model."
  },
  {
   "property": "C89",
   "status": "partial",
   "theorems": [
    "C89_extract",
    "C89_insert_cleartext",
    "C89_insert_secret",
    "C89_insert_dynamic",
    "C89_extract_slice_partial",
    "C89_slice_layout_partial",
    "C89_row_refuted",
    "C89_recorded_layout_refuted",
    "C89_pad",
    "C89_pad_layout",
    "C89_insert_slice_partial"
   ],
   "note": "Slices with dimensions of size 1 before others are excluded (refuted: every point gets the first element), as are inserted slices that span several ciphertexts. Refuted: the layout recorded for a lowered extract_slice is the map between points, not the layout of the slice."
  },
  {
   "property": "C90",
   "status": "partial",
   "theorems": [
    "C90_unambiguous",
    "C90_conv1d",
    "C90_conv2d",
    "C90_conv1d_channels",
    "C90_conv2d_channels",
    "C90_interchange",
    "C90_result_layout",
    "C90_lowered_conv",
    "C90_divisible_needed_refuted"
   ],
   "note": "The interchange needs the number of output channels to be divisible by the stride (1-D) or its square (2-D), which layout propagation checks before it uses these relations; without it the matrix loses rows (refuted witness about the relation alone). The recorded layout is proved for results that fit into one ciphertext. Not modelled: data in a gapped layout (accumulated gap factor), diagonalize2dMatrix for the 1-D and channel-free relations, the accumulator, and the text parser of isl, whose strings are taken by their meaning."
  },
  {
   "property": "C91",
   "status": "partial",
   "theorems": [
    "C91_fusion_partial",
    "C91_folded",
    "C91_in_bounds",
    "C91_in_bounds_width",
    "C91_generic_input_refuted",
    "C91_generic_yield_refuted",
    "C91_generic_map_refuted",
    "C91_pool_as_conv_2d_partial",
    "C91_pool_as_conv_1d_partial",
    "C91_average_folded",
    "C91_average_folded_1d",
    "C91_divisor_refuted",
    "C91_average_init_refuted",
    "C91_undilate_2d",
    "C91_undilate_1d"
   ],
   "note": "Refuted: a linalg.generic that has the pooling as output, yields something other than the scaled value, or reads through another map is taken for a scaling; an average pooling with a non-zero initial value, or a constant divided by the pooling, is replaced by something else. The general theorems carry the conditions that exclude these. Not modelled: rounding of floats, overflow of sizes, insertion points, the checks for static shapes and constants."
  },
  {
   "property": "C92",
   "status": "partial",
   "theorems": [
    "C92_sound_partial",
    "C92_one_pass",
    "C92_all_known",
    "C92_subtraction_refuted",
    "C92_dense_integers_refuted",
    "C92_unknown_refuted",
    "C92_loop_refuted"
   ],
   "note": "Refuted: arith.subf and arith.subi get the range of their first operand; dense integer constants lose their sign bit instead of their sign (-127 of 8 bits gets range 1); a value without a range counts as not reached when it is merged with others; with a sum carried around a loop no state is stable, so the solver does not stop. The theorem needs dense integers that are not negative, merged values with ranges, and other operations whose elements are bounded by those of their first operand with a range. Not modelled: logarithms as doubles, wrap-around, external calls."
  },
  {
   "property": "C93",
   "status": "partial",
   "theorems": [
    "C93_digits",
    "C93_digits_refuted",
    "C93_sound_partial",
    "C93_repaired",
    "C93_validated",
    "C93_mod_reduce_refuted",
    "C93_budget_refuted",
    "C93_insert_slice_refuted",
    "C93_generic_refuted"
   ],
   "note": "partial: C93_sound_partial leaves out modulus reductions, insert_slice, arguments of a secret.generic that are not fresh encryptions and extended encryption, for which the bound is wrong: C93_mod_reduce_refuted (the rounding of the message is forgotten), C93_insert_slice_refuted (noise of the destination is ignored), C93_generic_refuted (block arguments are taken for fresh), C93_digits_refuted (primes per digit counted as digits when the parameters come from an attribute), C93_budget_refuted (a validated bound leaves no room for the message); C93_repaired shows that correcting the first three makes the analysis sound for all programs. Doubles are modelled by rationals, logarithms by the numbers themselves; average case variant, loops and calls not modelled"
  },
  {
   "property": "C94",
   "status": "partial",
   "theorems": [
    "C94_loop_free",
    "C94_count_partial",
    "C94_carried_refuted",
    "C94_iterations_refuted",
    "C94_conversion_paths",
    "C94_conversion_refuted"
   ],
   "note": "partial: C94_loop_free is the full claim for graphs without loops; C94_count_partial covers loops unless secrets reach a rotation only through values that the loop carries (C94_carried_refuted: the rolled rotate-and-reduce kernel costs 0), bounds are not apart by a multiple of the step or the loop does not run (C94_iterations_refuted: rounded down, negative), or a rotation is shared by places that are evaluated differently often. C94_conversion_paths says what the cost of a conversion is; C94_conversion_refuted: it is not the number of rotations performed, since shared rotations count for every use. Counts are unbounded integers in place of int64_t; both branches of a conditional count"
  },
  {
   "property": "C95",
   "status": "partial",
   "theorems": [
    "C95_constant",
    "C95_keys_partial",
    "C95_argument_refuted",
    "C95_remainder_refuted",
    "C95_condition_refuted",
    "C95_unused_refuted",
    "C95_unsigned_refuted",
    "C95_division_refuted"
   ],
   "note": "partial: C95_constant is the full claim for rotations by constants; C95_keys_partial covers loops that use no integers from outside or from operations the builder does not know, compare signed, and yield what they rotate. Each condition is needed: C95_argument_refuted and C95_remainder_refuted (unknown shifts are taken to be 0), C95_condition_refuted (only the else branch of an unknown condition is analysed), C95_unused_refuted (rotations that do not reach the yield are marked visited but not recorded), C95_unsigned_refuted (unsigned comparisons evaluated as signed). C95_division_refuted: a dividend of 0 makes the analysis fail. Cleartext tensors are not modelled; bounds and constants outside 32 bits are failures of the model"
  },
  {
   "property": "C96",
   "status": "partial",
   "theorems": [
    "C96_primes",
    "C96_special",
    "C96_security_partial",
    "C96_security_refuted",
    "C96_gap_sizes",
    "C96_gap_refuted",
    "C96_ckks",
    "C96_ckks_level_refuted",
    "C96_ckks_special_refuted"
   ],
   "note": "partial: C96_primes is the claim about primes of BGV parameters, C96_special that the special primes exceed every digit if OpenFHE returns least primes, C96_gap_sizes that sizes follow the noise analysis if every level is reduced. The claim about security is false: C96_security_refuted (the logarithm is truncated), with C96_security_partial off by one bit. C96_gap_refuted: a level without modulus reduction makes the sizes be written out of bounds. C96_ckks is the claim about primes of CKKS parameters, whichever floating-point scaling factors a reduced error uses; C96_ckks_special_refuted: special primes below a digit; C96_ckks_level_refuted: level is the number of moduli rather than one less. Rounding of floating-point logarithms is not modelled"
  }
 ]
}