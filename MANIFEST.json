{
 "claims": [
  {
   "property": "C01",
   "status": "proved",
   "theorems": [
    "C01_canonicalized_words",
    "C01_contains",
    "C01_canonicalized_rref",
    "C01_rank_dimension"
   ],
   "note": "for every code object whose cached fields are right"
  },
  {
   "property": "C02",
   "status": "proved",
   "theorems": [
    "C02_equiv"
   ],
   "note": ""
  },
  {
   "property": "C03",
   "status": "proved",
   "theorems": [
    "C03_generator_basis",
    "C03_iter_words"
   ],
   "note": "any list of all field elements that starts with 0"
  },
  {
   "property": "C04",
   "status": "proved",
   "theorems": [
    "C04_dual_words",
    "C04_dual_dual",
    "C04_dual_dimension"
   ],
   "note": ""
  },
  {
   "property": "C05",
   "status": "proved",
   "theorems": [
    "C05_tensor_words",
    "C05_tensor_dimension"
   ],
   "note": ""
  },
  {
   "property": "C06",
   "status": "proved",
   "theorems": [
    "C06_puncture_words"
   ],
   "note": ""
  },
  {
   "property": "C07",
   "status": "partial",
   "theorems": [
    "C07_shorten_refuted",
    "C07_shorten_repeated_bit_refuted",
    "C07_shorten_words_partial"
   ],
   "note": "as documented the property is false (bit that is zero in all code words; repeated bits); proved when the code words take all values on the shortened bits"
  },
  {
   "property": "C08",
   "status": "proved",
   "theorems": [
    "C08_stack_words",
    "C08_stack_dimension",
    "C08_stack_distance"
   ],
   "note": ""
  },
  {
   "property": "C09",
   "status": "partial",
   "theorems": [
    "C09_set_generator_refuted",
    "C09_set_generator_partial",
    "C09_set_generator_accepts_bases"
   ],
   "note": "set_generator accepts redundant rows (refuted with a witness); what is accepted spans the code, and is a basis if it has no more rows than the dimension"
  },
  {
   "property": "C10",
   "status": "partial",
   "theorems": [
    "C10_distance_exact_partial",
    "C10_trivial_code",
    "C10_distance_to_vector",
    "C10_distance_exact_refuted"
   ],
   "note": "Proved for all codes over all finite fields (binary Gray-code search and q-ary iteration, vector variant, NaN for trivial codes), except binary codes of length >= 256 with np.bitwise_count, where the faithful model raises an exception (refuted)."
  },
  {
   "property": "C11",
   "status": "proved",
   "theorems": [
    "C11_search"
   ],
   "note": "For every block size, back end and list of operators whose number of columns fits the count type (for 256 columns and np.bitwise_count see C14)."
  },
  {
   "property": "C12",
   "status": "proved",
   "theorems": [
    "C12_hamming_weight",
    "C12_symplectic_weight"
   ],
   "note": ""
  },
  {
   "property": "C13",
   "status": "proved",
   "theorems": [
    "C13_packing_weight",
    "C13_packing_injective",
    "C13_packing_xor",
    "C13_packing_words",
    "C13_riffle_weight"
   ],
   "note": ""
  },
  {
   "property": "C14",
   "status": "partial",
   "theorems": [
    "C14_row_weight_partial",
    "C14_overflow_refuted"
   ],
   "note": "False of the code: np.bitwise_count returns 8-bit counts, so sums wrap at 256 and the search raises OverflowError; proved below that size and for the other back ends."
  },
  {
   "property": "C15",
   "status": "proved",
   "theorems": [
    "C15_one_bound",
    "C15_bound"
   ],
   "note": ""
  },
  {
   "property": "C16",
   "status": "partial",
   "theorems": [
    "C16_vector_bound_partial",
    "C16_vector_bound_refuted"
   ],
   "note": "False as stated (the correction is not validated); proved for decoders whose corrections have the right syndrome."
  },
  {
   "property": "C17",
   "status": "partial",
   "theorems": [
    "C17_round_trip_partial",
    "C17_round_trip_refuted"
   ],
   "note": "Round trip returns the matrix exactly when it has no zero row and no zero column; refuted otherwise (IndexError, or lost columns)."
  },
  {
   "property": "C18",
   "status": "partial",
   "theorems": [
    "C18_round_trip_partial",
    "C18_round_trip_refuted"
   ],
   "note": "Round trip returns the matrix exactly when every check and every qudit has an edge; refuted otherwise."
  },
  {
   "property": "C19",
   "status": "proved",
   "theorems": [
    "C19_pauli",
    "C19_qudit_operator",
    "C19_code",
    "C19_no_checks_refuted",
    "C19_negative_refuted"
   ],
   "note": "ASCII strings. Negative values and codes without checks cannot be read back (refutations)."
  },
  {
   "property": "C20",
   "status": "proved",
   "theorems": [
    "C20_membership",
    "C20_accepted",
    "C20_undirected",
    "C20_undirected_accepted"
   ],
   "note": "Directed and undirected graphs with strictly ordered edges at every check node; construction also shown to succeed."
  },
  {
   "property": "C21",
   "status": "partial",
   "theorems": [
    "C21_twice_partial",
    "C21_twice_refuted"
   ],
   "note": "False when edges carry sort data (the attribute is popped from the caller's graph); true without it."
  },
  {
   "property": "C22",
   "status": "proved",
   "theorems": [
    "C22_classification",
    "C22_objects_ok"
   ],
   "note": "QuditCode(matrix) without an explicit flag."
  },
  {
   "property": "C23",
   "status": "proved",
   "theorems": [
    "C23_stabilizers",
    "C23_state",
    "C23_css_stabilizers"
   ],
   "note": "For valid objects, including cached or preset stabilizers, any flags; also for CSS codes."
  },
  {
   "property": "C24",
   "status": "partial",
   "theorems": [
    "C24_minimal",
    "C24_rref_partial",
    "C24_rref_refuted"
   ],
   "note": "Minimality is proved in general and the reduced row echelon form when stabilizers are not preset; refuted for preset stabilizers (as SHPCode does), because _is_canonicalized accepts pivots out of order."
  },
  {
   "property": "C25",
   "status": "proved",
   "theorems": [
    "C25_bookkeeping",
    "C25_unique",
    "C25_exact"
   ],
   "note": "counts is an independent specification, shown to have exactly one solution."
  },
  {
   "property": "C26",
   "status": "proved",
   "theorems": [
    "C26_logicals"
   ],
   "note": "All stabilizer codes over all fields; the computation never fails."
  },
  {
   "property": "C27",
   "status": "partial",
   "theorems": [
    "C27_exception_refuted",
    "C27_gauge_refuted",
    "C27_pairs_refuted",
    "C28_css_logicals",
    "C27_duality_partial",
    "C27_criterion"
   ],
   "note": "False of the code: for non-CSS subsystem codes get_logical_ops may raise an exception, return operators that violate gauge operators, or return X-type operators that do not commute. CSS subsystem codes are covered by C28. For every other subsystem code and every returned value the shape, the X-Z duality and the Z-type operators are right, and the answer is valid exactly if the X-type operators commute and all operators commute with the gauge operators. Missing: a description of those codes in terms of the gauge matrix only."
  },
  {
   "property": "C28",
   "status": "proved",
   "theorems": [
    "C28_objects_ok",
    "C28_css_logicals",
    "C28_dimension",
    "C28_by_type",
    "C28_set_xz"
   ],
   "note": "For every valid CSSCode object; objects built from check matrices are valid (C28_objects_ok)."
  },
  {
   "property": "C29",
   "status": "partial",
   "theorems": [
    "C29_validation_partial",
    "C29_accepts_valid",
    "C29_validation_refuted"
   ],
   "note": "Proved: X-Z duality, commutation with checks, number of operators, and valid operators are accepted. Refuted: relations among X-type operators are not validated."
  },
  {
   "property": "C30",
   "status": "partial",
   "theorems": [
    "C30_css_gauge_ops",
    "C30_qudit_gauge_ops_partial"
   ],
   "note": "Proved for CSS codes; for other subsystem codes whenever the logical operators of the code and of its dual code are right (which C27 refutes in general)."
  },
  {
   "property": "C31",
   "status": "partial",
   "theorems": [
    "C31_conjugated_partial",
    "C31_conjugated_refuted"
   ],
   "note": "Proved in characteristic 2 (all qubit codes), refuted in odd characteristic: conjugated() does not negate, so two qutrit checks X1Z2, Z1X2 conjugated on one qutrit no longer commute although the result is flagged as stabilizer code."
  },
  {
   "property": "C32",
   "status": "proved",
   "theorems": [
    "C32_deformed",
    "C32_circuit",
    "C32_gates",
    "C32_preserve"
   ],
   "note": "Any symplectic action; in particular all circuits of H, S, CX, whose action is shown to be conjugation by the gate matrices up to phase. With preserve_logicals the call either keeps the old logical operators (then valid) or fails."
  },
  {
   "property": "C33",
   "status": "proved",
   "theorems": [
    "C33_stack",
    "C33_inherit",
    "C33_inherit_stabilizer",
    "C33_distance"
   ],
   "note": "QuditCode.stack; inherited logical operators valid whenever those of the parts are, in particular for all stabilizer codes; the distance is the smallest distance of the parts with logical qudits."
  },
  {
   "property": "C34",
   "status": "partial",
   "theorems": [
    "C34_concatenate_partial",
    "C34_stabilizer_partial",
    "C34_wiring_refuted"
   ],
   "note": "Proved for all codes with valid logical operators and all wirings that are permutations (including the default). A wiring that is not injective is accepted and can give a code flagged as stabilizer code with non-commuting checks."
  },
  {
   "property": "C35",
   "status": "partial",
   "theorems": [
    "C35_inputs_partial",
    "C35_inner_valid",
    "C35_inputs_refuted"
   ],
   "note": "Holds when blocks of the inner code are stacked; with a single inner block the logical operators cached in the caller's inner code are overwritten by a permutation."
  },
  {
   "property": "C36",
   "status": "proved",
   "theorems": [
    "C36_one_bound",
    "C36_one_bound_upper",
    "C36_bound"
   ],
   "note": "For every decoder, random stream and choice; None models a random draw or decoder that never succeeds."
  },
  {
   "property": "C37",
   "status": "partial",
   "theorems": [
    "C37_reduce",
    "C37_reduce_one",
    "C37_weights_partial",
    "C37_weights_refuted"
   ],
   "note": "Commutation, duality and equivalence modulo stabilizers hold for every decoder; the weight claim holds for decoders returning minimum-weight solutions and is refuted for other decoders (Steane code: weight 3 becomes 7)."
  },
  {
   "property": "C38",
   "status": "proved",
   "theorems": [
    "C38_commutes",
    "C38_nontrivial"
   ],
   "note": ""
  },
  {
   "property": "C39",
   "status": "partial",
   "theorems": [
    "C39_css",
    "C39_css_trivial",
    "C39_css_fresh",
    "C39_stabilizer",
    "C39_subsystem_partial"
   ],
   "note": "CSS codes (stabilizer and subsystem) and stabilizer codes over every finite field; over F2 the number of bits must be below the modulus of the installed weight function (the overflow is C14). Subsystem codes that are not CSS: conditional on their logical and gauge operators being right, which C27 refutes in general."
  },
  {
   "property": "C40",
   "status": "proved",
   "theorems": [
    "C40_validation",
    "C40_tensor_product",
    "C40_boundary",
    "C40_transpose",
    "C40_surface_codes"
   ],
   "note": "Every field, every pair of complexes with at least one operator: the constructor accepts exactly the sequences whose consecutive operators compose to zero; the tensor product is accepted, its length is the sum, and its boundary operator is given entry by entry by the Leibniz rule with the sign (-1)^i; transposing reverses and transposes the operators; generalized surface codes of every size and dimension are valid stabilizer codes."
  },
  {
   "property": "C41",
   "status": "partial",
   "theorems": [
    "C41_abelian",
    "C41_transpose",
    "C41_validation",
    "C41_nonabelian_refuted"
   ],
   "note": "Proved for every commutative group (tensor products) and for every group (transposes). For nonabelian groups the claim is false: C41_nonabelian_refuted exhibits two complexes over F_2[S_3] whose tensor product does not compose to zero."
  },
  {
   "property": "C42",
   "status": "partial",
   "theorems": [
    "C42_hgp_code",
    "C42_hgp_logicals",
    "C42_hgp_checks",
    "C42_redundant_generator_refuted"
   ],
   "note": "Proved for all codes whose stored generator is a basis (code_ok): commuting checks, dimension ka*kb+kaT*kbT, checks entry by entry, canonical logical operators form a logical basis. Refuted for codes with a redundant generator set by set_generator: the HGPCode reports a wrong dimension and wrong logical operators."
  },
  {
   "property": "C43",
   "status": "partial",
   "theorems": [
    "C43_product_partial",
    "C43_product_refuted"
   ],
   "note": "Proved for all matrices without zero rows and columns over every field, and every order in which networkx lists edges; refuted with a zero column (Tanner graphs have no isolated nodes, cf. C17)"
  },
  {
   "property": "C44",
   "status": "proved",
   "theorems": [
    "C44_shp_code",
    "C44_shp_logicals",
    "C44_shp_checks"
   ],
   "note": "For all codes whose stored generator is a basis."
  },
  {
   "property": "C45",
   "status": "proved",
   "theorems": [
    "C45_tb_accepts",
    "C45_tb_commute",
    "C45_quasi_cyclic",
    "C45_evaluation"
   ],
   "note": "TBCode: acceptance and commutation; QCCode: the polynomial evaluates to the stated group-ring element and the code is always a valid stabilizer code, over any field and any integer-to-field conversion. Sympy expressions are modelled as lists of (coefficient, exponents)."
  },
  {
   "property": "C46",
   "status": "partial",
   "theorems": [
    "C46_lifted_product_abelian",
    "C46_lifted_product_iff",
    "C46_regular_iff",
    "C46_subsystem",
    "C46_two_block",
    "C46_hypergraph",
    "C46_nonabelian_refuted"
   ],
   "note": "Proved for abelian groups (any representation as lift) and characterised exactly for all groups; REFUTED for nonabelian groups: LPCode marks itself as a stabilizer code (is_subsystem_code=False) over S3 although its checks do not commute. SLPCode is valid for all groups. One-entry arrays give two-block codes (up to the sign of the Z checks) and 1 x 1 lifts give hypergraph product codes."
  },
  {
   "property": "C47",
   "status": "proved",
   "theorems": [
    "C47_equal_weights",
    "C47_equal_distances"
   ],
   "note": "Logical words of the two types of a QCCode have the same set of weights over any field, hence equal minimum weights."
  },
  {
   "property": "C48",
   "status": "proved",
   "theorems": [
    "C48_label_inj",
    "C48_label_total",
    "C48_label_surj",
    "C48_position_inj",
    "C48_position_range",
    "C48_position_surj"
   ],
   "note": "Node labels and grid positions, both layouts, all orders."
  },
  {
   "property": "C49",
   "status": "proved",
   "theorems": [
    "C49_order",
    "C49_valid_basis",
    "C49_inverse",
    "C49_change_basis",
    "C49_change_basis_total"
   ],
   "note": "Orders, valid bases, modular inverses and the change of basis of a monomial."
  },
  {
   "property": "C50",
   "status": "partial",
   "theorems": [
    "C50_canonical_partial",
    "C50_binary_partial",
    "C50_range",
    "C50_canonical_refuted",
    "C50_single_refuted"
   ],
   "note": "Holds for expressions with other than one term whose coefficients equal their k-th power (always over the binary field); refuted for other coefficients and for single-term expressions."
  },
  {
   "property": "C51",
   "status": "proved",
   "theorems": [
    "C51_surface",
    "C51_surface_thin",
    "C51_toric",
    "C51_toric_none"
   ],
   "note": "Rotated surface and toric codes of every size over every field: checks commute, number of logical qudits, X-, Z- and overall distance. Thin surface codes (one row or column) cannot be constructed."
  },
  {
   "property": "C52",
   "status": "partial",
   "theorems": [
    "C52_repetition",
    "C52_ring",
    "C52_hamming",
    "C52_hamming_rank1",
    "C52_extended_hamming",
    "C52_reed_muller",
    "C52_simplex",
    "C52_simplex_none",
    "C52_ring_refuted",
    "C52_reed_muller_refuted"
   ],
   "note": "Proved for repetition codes (n>=1), ring codes (n>=2), Hamming codes over every field (rank>=2; rank 1 reports NaN), extended Hamming codes, Reed-Muller codes with order>=1 over every field, and simplex codes for every admitted dimension 2..7. False at two boundary sizes: RingCode(1) stores dimension 1 and distance 1 although its only word is 0, and ReedMullerCode(0, m) cannot be constructed because the null space of a one-dimensional array is requested (the latter rests on the modelled behaviour of galois)."
  },
  {
   "property": "C53",
   "status": "proved",
   "theorems": [
    "C53_iceberg",
    "C53_iceberg_trivial",
    "C53_iceberg_alternative",
    "C53_c4",
    "C53_steane",
    "C53_c6",
    "C53_five_qubit"
   ],
   "note": "IcebergCode for every size from 2 on (size 1 separately), with either choice of logical operators; Steane, C4, C6 and five-qubit codes with stored dimension, distances and logical operators"
  },
  {
   "property": "C54",
   "status": "partial",
   "theorems": [
    "C54_commute",
    "C54_local",
    "C54_accepted",
    "C54_lengths_refuted"
   ],
   "note": "The checks commute for every group, pair of symmetric subsets (without conjugates when bipartite), set iteration order and pair of local codes whose lengths are the sizes of the subsets; such input is accepted (the loop ends), and the code is the one described in the documentation (faces, nodes and local codes). Refuted without the condition on the lengths: only the product of the lengths is checked, and for other lengths a QTCode is built, declared a stabilizer code, with checks that do not commute."
  },
  {
   "property": "C55",
   "status": "partial",
   "theorems": [
    "C55_reflexive",
    "C55_refuted"
   ],
   "note": "False of the code: QTCode.__eq__ compares the other code with itself, so any two quantum Tanner codes are equal (C55_refuted). What holds: equal data compare equal and other objects are different."
  },
  {
   "property": "C56",
   "status": "partial",
   "theorems": [
    "C56_round_trip",
    "C56_no_checks_refuted"
   ],
   "note": "Proved for all headers and all codes whose subsets and local code matrices have at least one row and column. A local code without parity checks is saved but cannot be loaded (C56_no_checks_refuted)."
  },
  {
   "property": "C57",
   "status": "proved",
   "theorems": [
    "C57_permutation_matrices",
    "C57_regular_lift",
    "C57_abelian",
    "C57_cyclic",
    "C57_quaternion",
    "C57_abelian_regular"
   ],
   "note": "Permutation matrices, the regular lift, AbelianGroup (both lifts), CyclicGroup and QuaternionGroup; the lift of an AbelianGroup is its regular representation."
  },
  {
   "property": "C58",
   "status": "partial",
   "theorems": [
    "C58_from_table",
    "C58_group_table",
    "C58_from_table_refuted",
    "C58_generating_mats",
    "C58_generating_mats_refuted",
    "C58_repeated_generator_refuted",
    "C58_terminates",
    "C58_fuel",
    "C58_finite_field",
    "C58_members"
   ],
   "note": "Refuted as stated: both constructors reverse products (C58_from_table_refuted, C58_generating_mats_refuted); the exact behaviour is proved for all tables and matrices. A repeated generating matrix breaks from_generating_mats. For distinct invertible matrices the loop ends exactly when they generate a finite group (C58_terminates), in particular over finite fields."
  },
  {
   "property": "C59",
   "status": "proved",
   "theorems": [
    "C59_coefficients",
    "C59_operations",
    "C59_closed",
    "C59_ring",
    "C59_transpose",
    "C59_lift",
    "C59_regular_faithful",
    "C59_vectors",
    "C59_inverse",
    "C59_inverse_order_refuted"
   ],
   "note": "The inverse is correct when the identity is listed first (which is up to SymPy); C59_inverse_order_refuted shows that this is needed."
  },
  {
   "property": "C60",
   "status": "partial",
   "theorems": [
    "C60_null_space",
    "C60_reduced_rows",
    "C60_row_space_abelian",
    "C60_null_space_complete",
    "C60_row_space_nonabelian_refuted",
    "C60_null_space_nonabelian_refuted",
    "C60_echelon_refuted",
    "C60_independent_refuted"
   ],
   "note": "The null space is annihilated and the reduced rows lie in the row space over every group; row space equality and completeness of the null space hold over abelian groups. Over nonabelian groups both are false: row_reduce loses rows, and null_space() of a 2 by 2 matrix over F_2[S_3] does not generate a null vector (witnesses). The documented echelon form and independence of rows are refuted too."
  },
  {
   "property": "C61",
   "status": "proved",
   "theorems": [
    "C61_subset",
    "C61_terminates",
    "C61_endless"
   ],
   "note": "For all groups, random draws and random numbers; termination under draws that cover the group, and a proof that the documented non-termination occurs."
  },
  {
   "property": "C62",
   "status": "partial",
   "theorems": [
    "C62_lookup_partial",
    "C62_zero",
    "C62_untabulated",
    "C62_corrects",
    "C62_corrects_symplectic",
    "C62_lookup_refuted"
   ],
   "note": "Minimum-weight corrections for every matrix, every field, classical and symplectic, except the zero syndrome when max_weight reaches the distance: there decode returns a nonzero error (refuted; C62_zero says exactly when)."
  },
  {
   "property": "C63",
   "status": "partial",
   "theorems": [
    "C63_alias_partial",
    "C63_alias_refuted"
   ],
   "note": "decode returns the stored array itself; writing to it changes later results (refuted). Syndromes whose array was not written to are unaffected."
  },
  {
   "property": "C64",
   "status": "proved",
   "theorems": [
    "C64_guf",
    "C64_unachievable"
   ],
   "note": "Classical and symplectic decoders, with or without max_weight; includes termination."
  },
  {
   "property": "C65",
   "status": "partial",
   "theorems": [
    "C65_sound",
    "C65_exact_partial",
    "C65_exact_refuted"
   ],
   "note": "Exact for q = 2 and for light checks; for q = 3 the boolean slack variables cannot represent 2q, so the program can be infeasible although a solution exists (refuted). Solutions always have the right syndrome."
  },
  {
   "property": "C66",
   "status": "proved",
   "theorems": [
    "C66_block",
    "C66_block_stack",
    "C66_direct",
    "C66_direct_int"
   ],
   "note": "Any underlying decoder, fields and integer arrays modulo 2."
  },
  {
   "property": "C67",
   "status": "partial",
   "theorems": [
    "C67_probabilities",
    "C67_allocation",
    "C67_allocation_ends",
    "C67_rate",
    "C67_zero_rate_refuted"
   ],
   "note": "Over exact rational arithmetic (floating point rounding is not modelled). A maximal error rate of zero leads to a division by zero (refuted); everything else is proved."
  },
  {
   "property": "C68",
   "status": "partial",
   "theorems": [
    "C68_cache_partial",
    "C68_default_key_partial",
    "C68_default_key_refuted",
    "C68_eviction_refuted"
   ],
   "note": "Holds for any key function that separates calls with different results, up to KeyErrors caused by evictions; refuted for the default key and for evictions."
  },
  {
   "property": "C69",
   "status": "proved",
   "theorems": [
    "C69_gap",
    "C69_groupnames"
   ],
   "note": "GAP's own printing is modelled by its documented cycle notation (the same as GroupMember.to_gap_cycles)."
  },
  {
   "property": "C70",
   "status": "partial",
   "theorems": [
    "C70_stabilizer_codes",
    "C70_css_exact",
    "C70_css_sound",
    "C70_css_codes",
    "C70_subsystem_partial",
    "C70_refuted"
   ],
   "note": "All stabilizer codes (also non-CSS); CSS subsystem codes: exact condition (unit pivots of the stabilizers) and correctness of every result; non-CSS subsystem codes conditionally. Refuted for SHPCode with parity checks that are not ordered by pivots: the preset stabilizers are taken to be canonical and stim raises."
  },
  {
   "property": "C71",
   "status": "proved",
   "theorems": [
    "C71_swap_circuit",
    "C72_transversal_circuit"
   ],
   "note": "All permutations of any size; sympy's cyclic_form is part of the model."
  },
  {
   "property": "C72",
   "status": "proved",
   "theorems": [
    "C72_pauli_gates",
    "C72_transversal_circuit"
   ],
   "note": "All automorphisms in the group generated by the allowed gates, all subsets of local gates; signs are not modelled (Pauli corrections fix them)."
  },
  {
   "property": "C73",
   "status": "partial",
   "theorems": [
    "C73_set_logical_ops_refuted",
    "C28_set_xz"
   ],
   "note": "False: the validation accepts operators that are not of X type and Z type, after which get_logical_ops(Pauli.X) returns the identity. set_logical_ops_xz is right (C28_set_xz)."
  },
  {
   "property": "C74",
   "status": "partial",
   "theorems": [
    "C74_product_refuted"
   ],
   "note": "Refuted: later factors overwrite earlier ones."
  },
  {
   "property": "C75",
   "status": "partial",
   "theorems": [
    "C75_symbols_partial",
    "C75_symbols_refuted",
    "C75_stuck"
   ],
   "note": "Holds with at most one order more than symbols; with two or more the constructor loops forever."
  },
  {
   "property": "C76",
   "status": "partial",
   "theorems": [
    "C76_sl_lift",
    "C76_sl_lift_refuted"
   ],
   "note": "Refuted: the lift reverses products; the exact behaviour is proved."
  },
  {
   "property": "C77",
   "status": "partial",
   "theorems": [
    "C77_cyclic_shift",
    "C77_cyclic_doc_refuted"
   ],
   "note": "Refuted: the shift is in the other direction; the exact behaviour is proved."
  },
  {
   "property": "C78",
   "status": "proved",
   "theorems": [
    "C78_code",
    "C78_no_checks"
   ],
   "note": "GAP's own printing of fields and lists is modelled; ast.literal_eval on lists of integers."
  },
  {
   "property": "C79",
   "status": "partial",
   "theorems": [
    "C79_subfield_refuted",
    "C79_whole_field_partial"
   ],
   "note": "False for fields with proper non-prime subfields (GF(16)): the integer of an element of the subfield is used as an element of the field. Products are kept when the coefficient lies in the whole field or GF(2) (proved for GF(2) .. GF(16))."
  },
  {
   "property": "C80",
   "status": "proved",
   "theorems": [
    "C80_stack",
    "C80_inherit",
    "C80_distance",
    "C80_distance_xz",
    "C80_parameters",
    "C80_trivial_part",
    "C80_promise"
   ],
   "note": "CSSCode.stack never raises; distances exactly the minimum over the parts with logical qudits (equivalences for the distance and for X- and Z-type distances). Codes over one common field."
  },
  {
   "property": "C81",
   "status": "partial",
   "theorems": [
    "C81_concatenate_partial",
    "C81_stabilizer",
    "C81_wiring_refuted",
    "C81_inputs_partial",
    "C81_inputs_refuted"
   ],
   "note": "Proved for wirings that are permutations (in particular the default one). Refuted in general: a wiring that sends two outer qudits to one inner logical qudit is accepted and gives invalid inherited logical operators; a single inner block has its logical operators permuted in place."
  },
  {
   "property": "C82",
   "status": "partial",
   "theorems": [
    "C82_sampled_error",
    "C82_bias",
    "C82_failure",
    "C82_correctable",
    "C82_rate",
    "C82_classical",
    "C82_lookup",
    "C82_classical_rate",
    "C82_invalid_decoder_refuted"
   ],
   "note": "Proved for all classical codes and decoders, and for all CSS codes with decoders that return errors with the given syndrome (the union-find decoder always does); decoders of least weight never fail below half of the distance. Refuted for decoders that do not (lookup decoders with incomplete tables): errors that are left outside the code space are counted or not depending on the choice of logical operators. Indirect decoders only; exact rational arithmetic."
  },
  {
   "property": "C83",
   "status": "proved",
   "theorems": [
    "C83_distance_xz",
    "C83_parameters",
    "C83_trivial",
    "C83_words",
    "C83_bacon_shor",
    "C83_bacon_shor_none",
    "C83_shyps"
   ],
   "note": "Closed under the global context. X- and Z-distances in terms of the distances of the two classical codes, for any codes over any field; Bacon-Shor and SHYPS codes as corollaries (SHYPS: the stored dimension and distances are true, and get_distance returns them)."
  },
  {
   "property": "C84",
   "status": "proved",
   "theorems": [
    "C84_distance_xz",
    "C84_parameters",
    "C84_redundant",
    "C84_trivial",
    "C84_surface",
    "C84_toric"
   ],
   "note": "Closed under the global context. Exact X- and Z-distances for all pairs of parity check matrices over any field (the classical formula of Tillich and Zemor), with the usual special cases."
  },
  {
   "property": "C85",
   "status": "proved",
   "theorems": [
    "C85_surface",
    "C85_toric",
    "C85_single_site",
    "C85_none",
    "C85_stored",
    "C85_single_site_distance"
   ],
   "note": "n, k and both distances of open and periodic lattices of every size and dimension over every field; the stored distances are right; single-site rings and rejected arguments included"
  },
  {
   "property": "C86",
   "status": "proved",
   "theorems": [
    "C86_generators",
    "C86_linear",
    "C86_regular",
    "C86_iter"
   ],
   "note": "For all finite fields and dimensions >= 2; the primitive element is any element whose powers are all nonzero elements."
  },
  {
   "property": "C87",
   "status": "partial",
   "theorems": [
    "C87_roots",
    "C87_linear",
    "C87_lift",
    "C87_lift_trivial",
    "C87_lift_refuted",
    "C87_iter",
    "C87_regular_binary",
    "C87_regular_two",
    "C87_regular_refuted"
   ],
   "note": "linear_rep=True: proved for all fields and dimensions and all choices of representatives (C87_linear); the lift is refuted (ValueError, or wrong columns; right if gcd(d, q-1) = 1). linear_rep=False: proved for d = 2 and for q = 2, refuted for (d, q) = (3, 5). iter_mats: one matrix of every class, but flattened to d*d entries. Missing: which other (d, q) the regular representation is wrong for."
  },
  {
   "property": "C88",
   "status": "partial",
   "theorems": [
    "C88_encoder",
    "C88_encoder_css",
    "C88_inverse",
    "C88_logical",
    "C88_unique",
    "C88_defined",
    "C88_compose",
    "C88_code_refuted",
    "C88_compose_refuted"
   ],
   "note": "Proved: result exact, unique and defined exactly when stabilizers and gauge operators are preserved up to signs; composition if stabilizer signs are preserved. Refuted: the code space is preserved / composition in general (signs of stabilizers are not checked)."
  },
  {
   "property": "C89",
   "status": "proved",
   "theorems": [
    "C89_correction",
    "C89_defined",
    "C89_equiv",
    "C89_pauli",
    "C89_ops",
    "C89_ops_all",
    "C89_circuits"
   ],
   "note": "For all encoders and all lists of automorphism circuits."
  },
  {
   "property": "C90",
   "status": "partial",
   "theorems": [
    "C90_defined",
    "C90_complete",
    "C90_form",
    "C90_equivalent_partial",
    "C90_parameters_partial",
    "C90_qubits_partial",
    "C90_monomial_refuted",
    "C90_symbols_refuted",
    "C90_coefficients_refuted"
   ],
   "note": "Proved for polynomials with at least two terms (any field; coefficients with c^2 = c in the field, in particular all qubit codes) and sorted symbols: equivalence up to permutations, same parameters, form of the polynomials, no exception, no duplicates, completeness. Refuted in the other cases: factors of a single monomial are taken for terms; orders from a dictionary with unsorted symbols are assigned to the wrong symbols when the data are used; coefficients are squared (2 becomes 4 over GF(3))."
  },
  {
   "property": "C91",
   "status": "proved",
   "theorems": [
    "C91_connections",
    "C91_neighbours"
   ],
   "note": "All orders, polynomials and fields; the neighbour theorem for polynomials 1 + x + ... and 1 + y + ... with terms at different plaquettes."
  },
  {
   "property": "C92",
   "status": "partial",
   "theorems": [
    "C92_words",
    "C92_dual",
    "C92_dual_words",
    "C92_dual_characteristic",
    "C92_dual_refuted"
   ],
   "note": "Words proved over every field; the dual code proved in characteristic 2 and refuted in every other characteristic (C92_dual_characteristic is an equivalence). Over GF(3), ~ReedMullerCode(1, 3) is not ReedMullerCode(1, 3)."
  },
  {
   "property": "C93",
   "status": "partial",
   "theorems": [
    "C93_equiv",
    "C93_parameters",
    "C93_eq",
    "C93_eq_equivalence",
    "C93_eq_equiv",
    "C93_eq_class_refuted",
    "C93_eq_qudit_refuted",
    "C93_eq_symmetric_refuted"
   ],
   "note": "Equivalence proved in full. Equality proved to be decided by the check matrices and, among CSS codes, the classes; the claim that codes with the same checks are equal is refuted, as is symmetry in presence of further classes derived from QuditCode."
  },
  {
   "property": "C94",
   "status": "partial",
   "theorems": [
    "C94_member",
    "C94_uniform_partial",
    "C94_reaches",
    "C94_small_group_refuted",
    "C94_subset_endless_refuted",
    "C94_subset_found"
   ],
   "note": "The random methods are uniform except SmallGroup.random with index 1, which always returns the identity (refuted, for every such group of order above one); random_symmetric_subset then never ends."
  },
  {
   "property": "C95",
   "status": "partial",
   "theorems": [
    "C95_given",
    "C95_char",
    "C95_single_partial",
    "C95_default",
    "C95_false_flag_refuted",
    "C95_BP_OSD_refuted"
   ],
   "note": "Choice and arguments characterised for all inputs. Refuted: flags that are False are not ignored if they come after the chosen one; with_BP_OSD=True raises for non-binary matrices."
  },
  {
   "property": "C96",
   "status": "partial",
   "theorems": [
    "C96_accepts_partial",
    "C96_default",
    "C96_large_refuted",
    "C96_GF16_refuted"
   ],
   "note": "Proved for fields of at most ten elements. Refuted above: every block length is refused."
  },
  {
   "property": "C97",
   "status": "proved",
   "theorems": [
    "C97_classical",
    "C97_quantum",
    "C97_raises",
    "C97_css",
    "C97_hgp",
    "C97_bb"
   ],
   "note": "Exact check weights of arbitrary codes, CSS codes, hypergraph product codes and bivariate bicycle codes."
  },
  {
   "property": "C98",
   "status": "partial",
   "theorems": [
    "C98_first",
    "C98_shape",
    "C98_reproducible",
    "C98_possible",
    "C98_endless_refuted",
    "C98_word",
    "C98_words_once"
   ],
   "note": "Everything is proved for the ideal source of random arrays; that the call always can end is refuted: with bits but no checks (or the reverse) it never ends. The generator of galois is not modelled."
  },
  {
   "property": "C99",
   "status": "partial",
   "theorems": [
    "C99_ints",
    "C99_code",
    "C99_copy",
    "C99_not_cached",
    "C99_css",
    "C99_css_parts",
    "C99_array_field_refuted",
    "C99_classical_dimension_refuted",
    "C99_qudit_dimension_refuted",
    "C99_from_css_refuted"
   ],
   "note": "Right for integers, and for codes of the same kind or without cached attributes. Refuted: the requested field is ignored for galois arrays; cached dimensions are copied between classical and quantum codes; a CSSCode as argument raises AttributeError."
  },
  {
   "property": "C100",
   "status": "partial",
   "theorems": [
    "C100_url",
    "C100_no_link",
    "C100_no_label",
    "C100_labels",
    "C100_number",
    "C100_number_missing",
    "C100_sources",
    "C100_name",
    "C100_recognised",
    "C100_prefix_refuted",
    "C100_first_line_refuted",
    "C100_last_line_refuted"
   ],
   "note": "Proved for lines that have a newline on both sides, for all numbers of groups and the order of the sources. Refuted: the first (last) line of a page loses the part before (after) the label; a name that only begins with SmallGroup(o,i) is taken for that group."
  },
  {
   "property": "C101",
   "status": "partial",
   "theorems": [
    "C101_same",
    "C101_distinct",
    "C101_fields",
    "C101_no_checks_refuted"
   ],
   "note": "Proved for all codes that do not contain all vectors. Refuted for codes without independent parity checks: CheckMatCode([],GF(q)) does not contain the number of bits, so codes of all lengths share one text. What GAP computes for the text is not modelled."
  },
  {
   "property": "C102",
   "status": "partial",
   "theorems": [
    "C102_classical",
    "C102_qudit",
    "C102_set_order",
    "C102_stored",
    "C102_product",
    "C102_default_refuted",
    "C102_product_refuted"
   ],
   "note": "The field is preserved for all matrices over finite fields, and a graph is only converted over the field stored on it. Refuted: graphs without a stored order raise TypeError instead of using GF(2); products of graphs over different fields are not refused (only the attribute of the product is modelled)."
  },
  {
   "property": "C103",
   "status": "partial",
   "theorems": [
    "C103_qubits_only_partial",
    "C103_qubits",
    "C103_keyword_refuted"
   ],
   "note": "Refused in all cases except get_encoding_tableau(code=...) and get_transversal_automorphism_group(code=...), where a code over any field is accepted (refuted)."
  },
  {
   "property": "C104",
   "status": "partial",
   "theorems": [
    "C104_round_trip_partial",
    "C104_distinct",
    "C104_notation_refuted"
   ],
   "note": "Reading inverts printing for all lists of sums over permutations. Refuted for other output: terms in another notation are left out without an error."
  },
  {
   "property": "C105",
   "status": "proved",
   "theorems": [
    "C105_ordinary"
   ],
   "note": "Acceptance of a product of allowed gates is equivalent to its circuit preserving commutation with all checks; GAP's automorphism groups and intersection are external."
  },
  {
   "property": "C106",
   "status": "partial",
   "theorems": [
    "C106_deform_partial",
    "C106_exact",
    "C106_deform_refuted"
   ],
   "note": "Equivalence holds for the local gates SWAP and H; for all gates the exact condition is proved (X and Z exchanged around the circuit). False as stated for the default gates (refuted with the check XX: S on one qubit is accepted and invalidates the logical operators)."
  },
  {
   "property": "C107",
   "status": "partial",
   "theorems": [
    "C107_complete_partial",
    "C107_gates_partial",
    "C107_sound",
    "C107_complete_refuted"
   ],
   "note": "Sound for all codes; complete whenever some automorphism of the instrumental code moves its last column (also stated through circuits and commutation with checks). Refuted otherwise: sympy's contains is False for permutations of another degree, so only the identity is found (check IZ, gate H on the other qubit)."
  },
  {
   "property": "C108",
   "status": "partial",
   "theorems": [
    "C108_calls_partial",
    "C108_calls_refuted"
   ],
   "note": "No exception whenever some automorphism of the instrumental code moves its last column. Refuted otherwise: for a code of seven qubits with three checks the default gates give an exception, for all generators GAP may print."
  },
  {
   "property": "C109",
   "status": "proved",
   "theorems": [
    "C109_with_gap",
    "C109_without_gap"
   ],
   "note": "All histories of calls and evictions; GAP's output is an arbitrary function of the group."
  }
 ]
}
