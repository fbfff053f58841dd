{"id": "C01", "title": "Canonicalized classical code is the same code in reduced form", "statement": "For every parity check matrix, `code.canonicalized` has exactly the same set of code words, its matrix is in reduced row echelon form without zero rows, and the number of its rows is `code.rank` while `code.dimension` is n minus that number.", "quantifier": "all matrices over all fields", "why_tests_cant": "The claim ranges over infinitely many matrices and fields; a test picks a handful of them.", "anchors": ["qldpc/codes/common.py:ClassicalCode.canonicalized", "qldpc/codes/common.py:ClassicalCode.rank", "qldpc/codes/common.py:ClassicalCode.dimension"]}
{"id": "C02", "title": "Code equivalence decides equality of code word sets", "statement": "`ClassicalCode.equiv(a, b)` returns True exactly when a and b have the same block length and the same set of code words.", "quantifier": "all pairs of matrices over the same field", "why_tests_cant": "A test can only try pairs whose answer is known; both directions of the iff are universal.", "anchors": ["qldpc/codes/common.py:AbstractCode.equiv", "qldpc/codes/common.py:ClassicalCode.canonicalized"]}
{"id": "C03", "title": "Generator rows are a basis of the code; iter_words lists every code word once", "statement": "The rows of `code.generator` are linearly independent, every vector is `in code` iff it is a linear combination of them, and `iter_words()` yields each code word exactly once (and with `skip_zero=True` each nonzero code word exactly once).", "quantifier": "all parity check matrices over all finite fields, all vectors", "why_tests_cant": "The claim ranges over infinitely many matrices and fields; a test picks a handful of them.", "anchors": ["qldpc/codes/common.py:ClassicalCode.generator", "qldpc/codes/common.py:ClassicalCode.iter_words", "qldpc/codes/common.py:ClassicalCode.__contains__"]}
{"id": "C04", "title": "Dual code is the orthogonal complement", "statement": "A vector belongs to `~code` iff it is orthogonal to every code word of `code`; `~~code` is equivalent to `code`; the dimensions of a code and its dual add up to the block length.", "quantifier": "all matrices over all fields, all vectors", "why_tests_cant": "The claim ranges over infinitely many matrices and fields; a test picks a handful of them.", "anchors": ["qldpc/codes/common.py:ClassicalCode.dual"]}
{"id": "C05", "title": "Tensor product of classical codes", "statement": "`ClassicalCode.tensor_product(a, b)` has as code words exactly the matrices whose columns lie in a and whose rows lie in b, and its dimension is dim(a)*dim(b).", "quantifier": "all pairs of codes over a field, all words", "why_tests_cant": "The claim ranges over infinitely many matrices and fields; a test picks a handful of them.", "anchors": ["qldpc/codes/common.py:ClassicalCode.tensor_product"]}
{"id": "C06", "title": "Puncturing", "statement": "The code words of `code.puncture(*bits)` are exactly the restrictions of code words of `code` to the remaining bits, in order.", "quantifier": "all codes, all sets of bits, all words", "why_tests_cant": "The claim ranges over infinitely many matrices and fields; a test picks a handful of them.", "anchors": ["qldpc/codes/common.py:ClassicalCode.puncture", "qldpc/codes/common.py:ClassicalCode.from_generator"]}
{"id": "C07", "title": "Shortening", "statement": "The code words of `code.shorten(*bits)` are exactly the restrictions to the remaining bits of those code words of `code` that vanish on the given bits.", "quantifier": "all codes, all sequences of bits, all words", "why_tests_cant": "Fails only for codes with a bit that is zero in every code word, or for repeated bits, which the tests do not contain.", "anchors": ["qldpc/codes/common.py:ClassicalCode.shorten"]}
{"id": "C08", "title": "Stacking classical codes", "statement": "The code words of `ClassicalCode.stack(*codes)` are exactly the concatenations of one code word from each code; dimensions add up; the minimum distance is the minimum of the distances.", "quantifier": "all finite sequences of codes", "why_tests_cant": "The claim ranges over infinitely many matrices and fields; a test picks a handful of them.", "anchors": ["qldpc/codes/common.py:ClassicalCode.stack"]}
{"id": "C09", "title": "set_generator accepts only bases", "statement": "If `code.set_generator(G)` does not raise, then the rows of G form a basis of the code, so that `iter_words` and exact distances computed from it stay correct.", "quantifier": "all codes and all matrices G", "why_tests_cant": "Wrong only for generators with redundant rows of the right rank.", "anchors": ["qldpc/codes/common.py:ClassicalCode.set_generator"]}
{"id": "C10", "title": "Exact classical distance", "statement": "`code.get_distance_exact()` equals the minimum Hamming weight of a nonzero code word (and is NaN for a trivial code), for binary codes (bit-packed Gray-code enumeration) and for q-ary codes (word iteration).", "quantifier": "all codes over all finite fields of any length", "why_tests_cant": "An exhaustive enumeration over 2^k words with bit tricks can go wrong on particular lengths and ranks that no finite suite covers.", "anchors": ["qldpc/codes/common.py:ClassicalCode.get_distance_exact", "qldpc/codes/distance.py:get_distance_classical"]}
{"id": "C11", "title": "Gray-code enumeration visits every logical coset member", "statement": "`get_distance_quantum(logical_ops, stabilizers)` returns the minimum weight over all sums of a nonempty subset of logical operators and any subset of stabilizers, for every block size used for vectorisation, and never counts pure stabilizers.", "quantifier": "all lists of packed operators, all block sizes", "why_tests_cant": "The enumeration order depends on the trailing zeros of every counter value; only induction covers all of them.", "anchors": ["qldpc/codes/distance.py:get_distance_quantum"]}
{"id": "C12", "title": "Bit-twiddling weights are exact on 64-bit words", "statement": "The Hamming (resp. symplectic) weight routines return the number of one bits (resp. the number of nonzero bit pairs) for every 64-bit word, both in the vectorised and the single-word variant.", "quantifier": "all 2^64 words", "why_tests_cant": "2^64 inputs cannot be tested.", "anchors": ["qldpc/codes/distance.py:_hamming_weight", "qldpc/codes/distance.py:_symplectic_weight", "qldpc/codes/distance.py:_hamming_weight_single", "qldpc/codes/distance.py:_symplectic_weight_single"]}
{"id": "C13", "title": "Packing rows into 64-bit words loses nothing", "statement": "The packed representation used by the distance routines has the same number of ones as the row, distinct rows have distinct packings, and XOR of packings is the packing of the sum; riffling makes the symplectic weight of the packing the symplectic weight of the row.", "quantifier": "all binary rows of any length", "why_tests_cant": "All lengths, including the ones that are not multiples of 64.", "anchors": ["qldpc/codes/distance.py:_rows_to_ints", "qldpc/codes/distance.py:_riffle"]}
{"id": "C14", "title": "Multi-word weight accumulation does not overflow", "statement": "When an operator spans several 64-bit words, the total weight computed by the distance routines is the true weight of the operator, for all block lengths.", "quantifier": "all block lengths", "why_tests_cant": "The overflow needs operators of weight at least 256, and depends on the dtype returned by the installed numpy.", "anchors": ["qldpc/codes/distance.py:_inplace_rowsum", "qldpc/codes/distance.py:_hamming_weight", "qldpc/codes/distance.py:get_distance_quantum"]}
{"id": "C15", "title": "Classical distance bound is an upper bound for every decoder", "statement": "Without a target vector, `get_one_distance_bound`/`get_distance_bound` never return a number smaller than the true distance, whatever the decoder returns and whatever the random choices are.", "quantifier": "all codes, all decoders (also wrong ones), all random choices", "why_tests_cant": "Decoders are external and randomised; a test sees one run.", "anchors": ["qldpc/codes/common.py:ClassicalCode.get_one_distance_bound", "qldpc/codes/common.py:ClassicalCode.get_distance_bound"]}
{"id": "C16", "title": "Distance bound to a given vector is an upper bound for every decoder", "statement": "`get_one_distance_bound(vector=v)` never returns a number smaller than the distance of v from the code, whatever the decoder returns.", "quantifier": "all codes, vectors and decoders", "why_tests_cant": "Wrong only if the decoder returns a correction that does not match the syndrome.", "anchors": ["qldpc/codes/common.py:ClassicalCode.get_one_distance_bound"]}
{"id": "C17", "title": "Tanner graph round trip (classical)", "statement": "`graph_to_matrix(matrix_to_graph(H)) == H` for every parity check matrix H.", "quantifier": "all matrices over all fields", "why_tests_cant": "Fails only for matrices with an all-zero row or column, which the tests do not use.", "anchors": ["qldpc/codes/common.py:ClassicalCode.matrix_to_graph", "qldpc/codes/common.py:ClassicalCode.graph_to_matrix"]}
{"id": "C18", "title": "Tanner graph round trip (qudit codes)", "statement": "`QuditCode.graph_to_matrix(QuditCode.matrix_to_graph(H)) == H` for every parity check matrix H.", "quantifier": "all matrices over all fields", "why_tests_cant": "Fails only for matrices with zero rows or untouched qudits.", "anchors": ["qldpc/codes/common.py:QuditCode.matrix_to_graph", "qldpc/codes/common.py:QuditCode.graph_to_matrix"]}
{"id": "C19", "title": "Text form of qudit operators and codes round-trips", "statement": "`QuditOperator.from_string(str(op)) == op` for every operator with nonnegative integer values, `Pauli.from_string(str(p)) == p`, and `QuditCode.from_strings(*code.get_strings(), field=q)` has the same parity check matrix as code, for a code over GF(q) with at least one check.", "quantifier": "all operators, all codes over all fields", "why_tests_cant": "Infinitely many strings.", "anchors": ["qldpc/objects.py:QuditOperator.from_string", "qldpc/objects.py:QuditOperator.__str__", "qldpc/objects.py:Pauli", "qldpc/codes/common.py:QuditCode.get_strings", "qldpc/codes/common.py:QuditCode.from_strings"]}
{"id": "C20", "title": "Tanner code membership", "statement": "A word belongs to `TannerCode(graph, subcode)` iff for every source node the sequence of its incident bits, in the node's order, is a word of the subcode.", "quantifier": "all graphs, subcodes, words", "why_tests_cant": "The claim ranges over infinitely many matrices and fields; a test picks a handful of them.", "anchors": ["qldpc/codes/classical.py:TannerCode"]}
{"id": "C21", "title": "Building a Tanner code does not change its input graph", "statement": "Constructing `TannerCode(graph, subcode)` twice from the same (undirected, sorted) graph gives the same code.", "quantifier": "all graphs", "why_tests_cant": "Needs two constructions from the same object with sort data.", "anchors": ["qldpc/codes/classical.py:TannerCode.as_directed_subgraph"]}
{"id": "C22", "title": "Stabilizer/subsystem classification", "statement": "`QuditCode(matrix).is_subsystem_code` is False iff all rows commute pairwise (symplectic products vanish).", "quantifier": "all matrices over all fields", "why_tests_cant": "The claim ranges over infinitely many matrices and fields; a test picks a handful of them.", "anchors": ["qldpc/codes/common.py:QuditCode.__init__", "qldpc/math.py:symplectic_conjugate"]}
{"id": "C23", "title": "Stabilizer group of a subsystem code", "statement": "For every gauge matrix, the rows of `get_stabilizer_ops()` span exactly the centre of the gauge group: the combinations of gauge generators that commute with all gauge generators.", "quantifier": "all gauge matrices over all fields", "why_tests_cant": "The claim ranges over infinitely many matrices and fields; a test picks a handful of them.", "anchors": ["qldpc/codes/common.py:QuditCode.get_stabilizer_ops"]}
{"id": "C24", "title": "canonicalized=True really returns a row reduced stabilizer matrix", "statement": "`get_stabilizer_ops(canonicalized=True)` returns a matrix in reduced row echelon form whose rows are a minimal generating set of the stabilizer group.", "quantifier": "all codes, including codes that preset their stabilizers", "why_tests_cant": "The acceptance test for preset stabilizers is wrong only for some row orders.", "anchors": ["qldpc/codes/common.py:QuditCode.get_stabilizer_ops", "qldpc/codes/common.py:_is_canonicalized", "qldpc/codes/quantum.py:SHPCode"]}
{"id": "C25", "title": "Dimension bookkeeping", "statement": "For every code: number of qudits = logical qudits + gauge qudits + rank of the stabilizer group, and rank of the gauge group = stabilizer rank + 2 * gauge qudits (in particular the integer divisions in `dimension` and `gauge_dimension` are exact).", "quantifier": "all gauge matrices over all fields", "why_tests_cant": "The claim ranges over infinitely many matrices and fields; a test picks a handful of them.", "anchors": ["qldpc/codes/common.py:QuditCode.dimension", "qldpc/codes/common.py:QuditCode.gauge_dimension"]}
{"id": "C26", "title": "Logical operators of stabilizer codes", "statement": "For every stabilizer code `get_logical_ops()` returns 2k rows, k = dimension, which commute with all parity checks, and such that rows j and j+k are dual and all other pairs commute.", "quantifier": "all commuting parity check matrices over all fields", "why_tests_cant": "The claim ranges over infinitely many matrices and fields; a test picks a handful of them.", "anchors": ["qldpc/codes/common.py:QuditCode.get_logical_ops", "qldpc/codes/common.py:QuditCode.get_standard_form_data"]}
{"id": "C27", "title": "Logical operators of (non-CSS) subsystem codes", "statement": "For every subsystem code `get_logical_ops()` returns 2k rows which commute with all gauge operators, rows j and j+k are dual and all other pairs commute.", "quantifier": "all gauge matrices over all fields", "why_tests_cant": "The tests only contain subsystem codes of CSS type and their images.", "anchors": ["qldpc/codes/common.py:QuditCode.get_logical_ops", "qldpc/codes/common.py:QuditCode.get_standard_form_data"]}
{"id": "C28", "title": "Logical operators of CSS codes", "statement": "For every CSS code (stabilizer or subsystem) `get_logical_ops()` returns X-type and Z-type operators that commute with all gauge operators, satisfy X_i Z_j = delta_ij, and number k each.", "quantifier": "all pairs of check matrices over all fields", "why_tests_cant": "The claim ranges over infinitely many matrices and fields; a test picks a handful of them.", "anchors": ["qldpc/codes/common.py:CSSCode.get_logical_ops", "qldpc/codes/common.py:CSSCode.get_standard_form_data_xz"]}
{"id": "C29", "title": "set_logical_ops validation is sound", "statement": "If `set_logical_ops(ops)` with validation does not raise, then ops satisfy the documented commutation relations: row j commutes with all rows except its partner.", "quantifier": "all codes and all candidate matrices", "why_tests_cant": "Only X-Z products are validated; violating inputs are not in the tests.", "anchors": ["qldpc/codes/common.py:QuditCode.set_logical_ops"]}
{"id": "C30", "title": "Gauge operators", "statement": "`get_gauge_ops()` returns 2g rows in dual pairs that commute with all stabilizers and all logical operators and, together with the stabilizers, generate the gauge group.", "quantifier": "all gauge matrices", "why_tests_cant": "The claim ranges over infinitely many matrices and fields; a test picks a handful of them.", "anchors": ["qldpc/codes/common.py:QuditCode.get_gauge_ops", "qldpc/codes/common.py:QuditCode.get_dual_subsystem_code", "qldpc/codes/common.py:CSSCode.get_gauge_ops"]}
{"id": "C31", "title": "Local Fourier transform (conjugated) preserves commutation", "statement": "`code.conjugated(qudits)` of a stabilizer code is a stabilizer code with the same dimension, for every subset of qudits and every field.", "quantifier": "all codes, fields and subsets", "why_tests_cant": "Tests conjugate qubit codes; the sign matters only in odd characteristic.", "anchors": ["qldpc/codes/common.py:QuditCode.conjugated"]}
{"id": "C32", "title": "Clifford deformation preserves the code structure", "statement": "`code.deformed(circuit)` maps checks and logical operators by the circuit's symplectic action and keeps all commutation relations and the dimension.", "quantifier": "all codes and all Clifford circuits", "why_tests_cant": "Infinitely many circuits.", "anchors": ["qldpc/codes/common.py:QuditCode.deformed"]}
{"id": "C33", "title": "Stacking quantum codes", "statement": "`QuditCode.stack(codes)` has the checks of every code on its own qudits: its dimension is the sum of dimensions, it is a stabilizer code iff all are, and inherited logical operators are valid and dual.", "quantifier": "all sequences of codes", "why_tests_cant": "The claim ranges over infinitely many matrices and fields; a test picks a handful of them.", "anchors": ["qldpc/codes/common.py:QuditCode.stack", "qldpc/codes/common.py:CSSCode.stack"]}
{"id": "C34", "title": "Concatenation", "statement": "`QuditCode.concatenate(inner, outer)` of stabilizer codes has commuting checks, encodes the number of qudits of the outer blocks, and inherited logical operators commute with all checks and are dual.", "quantifier": "all inner and outer codes, all wirings", "why_tests_cant": "The claim ranges over infinitely many matrices and fields; a test picks a handful of them.", "anchors": ["qldpc/codes/common.py:QuditCode.concatenate", "qldpc/codes/common.py:CSSCode.concatenate"]}
{"id": "C35", "title": "Concatenation leaves its inputs unchanged", "statement": "`concatenate(inner, outer, wiring)` does not change the logical operators reported by the inner and outer codes passed to it.", "quantifier": "all inner and outer codes, all wirings", "why_tests_cant": "Needs a second use of the same object after a non-trivial wiring.", "anchors": ["qldpc/codes/common.py:QuditCode._standardize_concatenation_inputs"]}
{"id": "C36", "title": "CSS distance bound is an upper bound for every decoder", "statement": "`get_one_distance_bound`/`get_distance_bound` of a CSS code never return less than the true distance, whatever the decoder returns and whatever the random choices are.", "quantifier": "all CSS codes, decoders, random choices", "why_tests_cant": "Decoders are external and randomised.", "anchors": ["qldpc/codes/common.py:CSSCode.get_one_distance_bound", "qldpc/codes/common.py:CSSCode.get_distance_bound"]}
{"id": "C37", "title": "Reducing logical operators preserves the logical basis", "statement": "`reduce_logical_op(s)` replaces a logical operator by an equivalent one: afterwards all logical operators still commute with the checks and are still dual, and the weight did not increase, whatever the decoder returns.", "quantifier": "all CSS codes, decoders", "why_tests_cant": "Decoders are external.", "anchors": ["qldpc/codes/common.py:CSSCode.reduce_logical_op", "qldpc/codes/common.py:CSSCode.reduce_logical_ops"]}
{"id": "C38", "title": "Random logical operators", "statement": "`get_random_logical_op(pauli)` returns an operator that commutes with all checks; with `ensure_nontrivial=True` it never returns an operator that acts trivially on the logical qudits.", "quantifier": "all CSS codes, all random choices", "why_tests_cant": "Only sampled by tests.", "anchors": ["qldpc/codes/common.py:CSSCode.get_random_logical_op"]}
{"id": "C39", "title": "Exact quantum distance", "statement": "`get_distance_exact` of a stabilizer or subsystem code equals the minimum weight of a nontrivial logical operator (for subsystem codes: dressed by stabilizers and gauge operators), for both CSS and general codes and every field.", "quantifier": "all codes", "why_tests_cant": "The claim ranges over infinitely many matrices and fields; a test picks a handful of them.", "anchors": ["qldpc/codes/common.py:QuditCode.get_distance_exact", "qldpc/codes/common.py:CSSCode.get_distance_exact"]}
{"id": "C40", "title": "Chain complexes", "statement": "The tensor product of two chain complexes over a field is a chain complex (consecutive boundary maps compose to zero), and so is the transpose; hence the CSS codes built from them have commuting checks.", "quantifier": "all chain complexes over all fields, of any length", "why_tests_cant": "The claim ranges over infinitely many matrices and fields; a test picks a handful of them.", "anchors": ["qldpc/objects.py:ChainComplex.tensor_product", "qldpc/objects.py:ChainComplex.T"]}
{"id": "C41", "title": "Chain complexes over group rings", "statement": "The tensor product of two chain complexes over a group ring is a chain complex, for abelian and nonabelian groups.", "quantifier": "all groups and protographs", "why_tests_cant": "Fails only for nonabelian groups; tests use cyclic groups.", "anchors": ["qldpc/objects.py:ChainComplex.tensor_product"]}
{"id": "C42", "title": "Hypergraph product codes are valid stabilizer codes", "statement": "For all classical codes a, b the checks of `HGPCode(a, b)` commute, and the canonical logical operators are valid: they commute with all checks, are dual, and their number ka*kb + ka^T*kb^T equals the dimension of the code.", "quantifier": "all pairs of parity check matrices over all fields", "why_tests_cant": "The claim ranges over infinitely many matrices and fields; a test picks a handful of them.", "anchors": ["qldpc/codes/quantum.py:HGPCode", "qldpc/codes/quantum.py:HGPCode.get_canonical_logical_ops"]}
{"id": "C43", "title": "Hypergraph product: graph and matrix constructions agree", "statement": "The Tanner graph produced by `HGPCode.get_graph_product` describes the same parity checks (up to the documented relabelling) as the matrix product.", "quantifier": "all pairs of matrices", "why_tests_cant": "The claim ranges over infinitely many matrices and fields; a test picks a handful of them.", "anchors": ["qldpc/codes/quantum.py:HGPCode.get_graph_product", "qldpc/codes/quantum.py:HGPCode.get_product_node_map"]}
{"id": "C44", "title": "Subsystem hypergraph product codes", "statement": "For all classical codes a, b: the stabilizers preset by `SHPCode(a, b)` commute with all gauge operators, lie in the gauge group and span its centre; the preset logical operators commute with the gauge operators and are dual; the dimension is ka*kb.", "quantifier": "all pairs of matrices over all fields", "why_tests_cant": "The claim ranges over infinitely many matrices and fields; a test picks a handful of them.", "anchors": ["qldpc/codes/quantum.py:SHPCode"]}
{"id": "C45", "title": "Two-block and quasi-cyclic codes commute", "statement": "`TBCode(A, B)` with commuting A, B has commuting checks; every `QCCode(orders, poly_a, poly_b)` has commuting checks.", "quantifier": "all commuting matrices, all orders and polynomials, all fields", "why_tests_cant": "The claim ranges over infinitely many matrices and fields; a test picks a handful of them.", "anchors": ["qldpc/codes/quantum.py:TBCode", "qldpc/codes/quantum.py:QCCode"]}
{"id": "C46", "title": "Lifted product codes are valid stabilizer codes", "statement": "Every `LPCode(A, B)` has commuting checks, as it claims by marking itself as a stabilizer code without checking.", "quantifier": "all groups and all protographs", "why_tests_cant": "Tests use cyclic groups only.", "anchors": ["qldpc/codes/quantum.py:LPCode"]}
{"id": "C47", "title": "Quasi-cyclic codes have equal X and Z distance", "statement": "For every `QCCode` the minimum weights of X-type and Z-type nontrivial logical operators agree, as promised by `promise_equal_distance_xz=True`.", "quantifier": "all orders, polynomials, fields", "why_tests_cant": "Minimum distances of arbitrary codes.", "anchors": ["qldpc/codes/quantum.py:QCCode.__init__"]}
{"id": "C48", "title": "BBCode qubit layout is a bijection", "statement": "`get_qubit_pos` maps the qubits of a bivariate bicycle code to distinct positions of the (folded or unfolded) grid; labels and nodes correspond one to one.", "quantifier": "all orders, all nodes, both layouts", "why_tests_cant": "All grid sizes.", "anchors": ["qldpc/codes/quantum.py:BBCode.get_node_label", "qldpc/codes/quantum.py:BBCode.get_qubit_pos_from_orders", "qldpc/codes/quantum.py:BBCode.get_qubit_pos"]}
{"id": "C49", "title": "BBCode basis arithmetic", "statement": "`get_order(vec)` is the least positive multiple that vanishes on the torus; `is_valid_basis(v, w)` holds iff every torus point is reached by exactly one coefficient pair within the orders; `modular_inverse(v, w)` returns for every unit vector coefficients that reproduce it.", "quantifier": "all orders and basis vectors", "why_tests_cant": "All grid sizes and vectors.", "anchors": ["qldpc/codes/quantum.py:BBCode.get_order", "qldpc/codes/quantum.py:BBCode.is_valid_basis", "qldpc/codes/quantum.py:BBCode.modular_inverse"]}
{"id": "C50", "title": "Canonical form of quasi-cyclic polynomials", "statement": "`get_canonical_form(poly, orders)` is equal to poly as an element of the group algebra: same coefficients, exponents reduced modulo the orders.", "quantifier": "all polynomials over all fields", "why_tests_cant": "Wrong only for coefficients other than 1, i.e. outside the binary field.", "anchors": ["qldpc/codes/quantum.py:QCCode.get_canonical_form"]}
{"id": "C51", "title": "Rotated surface code checks commute", "statement": "For all rows, cols and fields the checks of the rotated `SurfaceCode` and rotated `ToricCode` (even sizes) commute; each code encodes the claimed number of logical qudits and has the claimed distances.", "quantifier": "all sizes and fields", "why_tests_cant": "All sizes and fields.", "anchors": ["qldpc/codes/quantum.py:SurfaceCode.get_rotated_checks", "qldpc/codes/quantum.py:ToricCode.get_rotated_checks", "qldpc/codes/quantum.py:SurfaceCode", "qldpc/codes/quantum.py:ToricCode"]}
{"id": "C52", "title": "Elementary classical families have the claimed parameters", "statement": "RepetitionCode(n), RingCode(n), HammingCode(r), ExtendedHammingCode(r), ReedMullerCode(r, m), SimplexCode(m) have the dimension and distance that they store.", "quantifier": "all sizes and fields admitted by the constructors", "why_tests_cant": "All sizes; boundary sizes are not tested.", "anchors": ["qldpc/codes/classical.py:RepetitionCode", "qldpc/codes/classical.py:RingCode", "qldpc/codes/classical.py:HammingCode", "qldpc/codes/classical.py:ExtendedHammingCode", "qldpc/codes/classical.py:ReedMullerCode", "qldpc/codes/classical.py:SimplexCode"]}
{"id": "C53", "title": "Iceberg, Steane, C4, C6 and five-qubit codes", "statement": "These codes have commuting checks and the claimed dimension, distance and logical operators; IcebergCode(n) for every even n.", "quantifier": "all sizes", "why_tests_cant": "IcebergCode is a family over all n.", "anchors": ["qldpc/codes/quantum.py:IcebergCode", "qldpc/codes/quantum.py:SteaneCode", "qldpc/codes/quantum.py:FiveQubitCode", "qldpc/codes/quantum.py:C6Code"]}
{"id": "C54", "title": "Quantum Tanner codes commute", "statement": "For every group, symmetric subsets satisfying total no-conjugacy (or any symmetric subsets in the bipartite cover), and local codes, the checks of `QTCode` commute.", "quantifier": "all groups, subsets, local codes", "why_tests_cant": "All groups.", "anchors": ["qldpc/codes/quantum.py:QTCode", "qldpc/codes/quantum.py:QTCode.get_subgraphs", "qldpc/objects.py:CayleyComplex"]}
{"id": "C55", "title": "Quantum Tanner code equality", "statement": "`QTCode.__eq__` returns True only for codes that were built from the same complex and local codes.", "quantifier": "all pairs of QTCodes", "why_tests_cant": "Needs two different codes to be compared.", "anchors": ["qldpc/codes/quantum.py:QTCode.__eq__"]}
{"id": "C56", "title": "Quantum Tanner code save/load round trip", "statement": "`QTCode.load(path)` after `code.save(path)` gives back the same subsets, local code matrices, field and bipartiteness.", "quantifier": "all codes and headers", "why_tests_cant": "Infinitely many files.", "anchors": ["qldpc/codes/quantum.py:QTCode.save", "qldpc/codes/quantum.py:QTCode.load"]}
{"id": "C57", "title": "Group representations are homomorphisms", "statement": "For every finite permutation group with the default (permutation or regular) lift, lift(g*h) = lift(g) @ lift(h); lift of the identity is the identity; lift of an inverse is the transpose.", "quantifier": "all permutation groups and members", "why_tests_cant": "All groups.", "anchors": ["qldpc/abstract.py:GroupMember.to_matrix", "qldpc/abstract.py:Group.lift", "qldpc/abstract.py:Group.regular_lift"]}
{"id": "C58", "title": "Groups built from multiplication tables or matrices", "statement": "`Group.from_table(t)` is a group whose product agrees with the table, and `Group.from_generating_mats(mats)` lifts a product of members to the product of their matrices.", "quantifier": "all tables / generating matrices", "why_tests_cant": "All (in particular nonabelian) groups.", "anchors": ["qldpc/abstract.py:Group.from_table", "qldpc/abstract.py:Group.from_generating_mats"]}
{"id": "C59", "title": "Group algebra arithmetic", "statement": "RingMember addition and multiplication satisfy the ring axioms, transposition is an anti-automorphism, lift is a ring homomorphism for homomorphic lifts, to_vector/from_vector are inverse to each other.", "quantifier": "all groups, fields and members", "why_tests_cant": "All groups and members.", "anchors": ["qldpc/abstract.py:RingMember", "qldpc/abstract.py:RingMember.T", "qldpc/abstract.py:RingMember.to_vector"]}
{"id": "C60", "title": "Null space and row reduction of group-ring matrices", "statement": "Every row of `RingArray.null_space()` is annihilated by the matrix, and its rows generate every vector that is; `row_reduce` returns a matrix with the same row space.", "quantifier": "all matrices over all group rings", "why_tests_cant": "All groups and matrices.", "anchors": ["qldpc/abstract.py:RingArray.null_space", "qldpc/abstract.py:RingArray.row_reduce"]}
{"id": "C61", "title": "random_symmetric_subset", "statement": "`group.random_symmetric_subset(size)` only returns subsets of exactly that size, closed under inverse, and without the identity if asked.", "quantifier": "all groups, sizes, random choices", "why_tests_cant": "Random choices.", "anchors": ["qldpc/abstract.py:Group.random_symmetric_subset"]}
{"id": "C62", "title": "Lookup decoder returns minimum-weight corrections", "statement": "For every syndrome produced by an error of weight at most max_weight, `LookupDecoder.decode` returns an error with that syndrome of minimum weight.", "quantifier": "all matrices, syndromes and weights", "why_tests_cant": "All matrices.", "anchors": ["qldpc/decoders.py:LookupDecoder"]}
{"id": "C63", "title": "Lookup decoder table is not corrupted by callers", "statement": "`decode` is a function of the syndrome: the result for a syndrome does not depend on what callers do to previously returned arrays.", "quantifier": "all histories of decode calls and caller mutations", "why_tests_cant": "Histories.", "anchors": ["qldpc/decoders.py:LookupDecoder.decode"]}
{"id": "C64", "title": "Generalized union-find decoder", "statement": "Whenever the syndrome is achievable, `GUFDecoder.decode` terminates and returns an error with exactly that syndrome.", "quantifier": "all matrices and achievable syndromes", "why_tests_cant": "All matrices.", "anchors": ["qldpc/decoders.py:GUFDecoder.decode"]}
{"id": "C65", "title": "ILP decoder constraints are exact", "statement": "The integer program of `ILPDecoder` is feasible for exactly the errors that satisfy the parity check equations modulo q, with the Hamming weight as objective.", "quantifier": "all matrices over prime fields, all syndromes", "why_tests_cant": "Only q = 2 is exact.", "anchors": ["qldpc/decoders.py:ILPDecoder"]}
{"id": "C66", "title": "Block and direct decoders", "statement": "`BlockDecoder` decodes each block of a stacked syndrome independently; `DirectDecoder.from_indirect` returns a word of the code whenever the underlying decoder returns a correct error.", "quantifier": "all decoders, matrices and inputs", "why_tests_cant": "All inputs.", "anchors": ["qldpc/decoders.py:BlockDecoder", "qldpc/decoders.py:DirectDecoder"]}
{"id": "C67", "title": "Logical error-rate estimator bookkeeping", "statement": "The sample allocation of the error-rate estimators uses at least the requested number of samples, never fewer, and the binomial weights of all error weights sum to one.", "quantifier": "all block lengths, rates, numbers of samples", "why_tests_cant": "All parameters.", "anchors": ["qldpc/codes/common.py:_get_sample_allocation", "qldpc/codes/common.py:_get_error_probs_by_weight"]}
{"id": "C68", "title": "Disk cache is transparent", "statement": "A function decorated with `use_disk_cache` returns for every history of calls (including evictions between calls and process restarts) the value the undecorated function returns.", "quantifier": "all call histories, evictions, arguments", "why_tests_cant": "The decorator disables itself under pytest.", "anchors": ["qldpc/cache.py:use_disk_cache"]}
{"id": "C69", "title": "GAP cycle notation parsing", "statement": "The permutation parsed from GAP's cycle notation is the permutation printed by GAP (indices shifted by one), for all permutations.", "quantifier": "all permutations", "why_tests_cant": "All permutations.", "anchors": ["qldpc/external/groups.py:get_generators_with_gap"]}
{"id": "C70", "title": "Encoding tableau is a symplectic basis", "statement": "The rows of the tableau built by `get_encoding_tableau` (logical, gauge and destabilizer X; logical, gauge and stabilizer Z) form a symplectic basis, for every code.", "quantifier": "all qubit codes", "why_tests_cant": "All codes; invalid only for certain preset stabilizers.", "anchors": ["qldpc/circuits.py:get_encoding_tableau"]}
{"id": "C71", "title": "SWAP circuits realise their permutation", "statement": "The circuit of SWAP gates built for a qubit permutation maps every qubit to its image.", "quantifier": "all permutations of any size", "why_tests_cant": "n! permutations.", "anchors": ["qldpc/circuits.py:_get_swap_circuit"]}
{"id": "C72", "title": "Single-qubit Clifford for a Pauli permutation", "statement": "The gates chosen for a permutation of the (Z, X, Y) sectors of a qubit realise that permutation of Paulis.", "quantifier": "all automorphisms, all qubits", "why_tests_cant": "All automorphisms.", "anchors": ["qldpc/circuits.py:_get_pauli_permutation_circuit"]}
{"id": "C73", "title": "Validated logical operators of CSS codes are of X and Z type", "statement": "After `CSSCode.set_logical_ops(ops)` succeeds with validation, `get_logical_ops(Pauli.X)` and `get_logical_ops(Pauli.Z)` return the nontrivial logical operators that were set.", "quantifier": "all CSS codes and all arrays of operators", "why_tests_cant": "The validation must reject every unsuitable array; tests only try a few.", "anchors": ["qldpc/codes/common.py:QuditCode.set_logical_ops", "qldpc/codes/common.py:CSSCode.get_logical_ops"]}
{"id": "C74", "title": "Product strings are read as products", "statement": "If `QuditOperator.from_string` accepts `s`, `t` and `s*t`, the value of `s*t` is the sum of the values of `s` and `t`.", "quantifier": "all strings", "why_tests_cant": "Infinitely many strings; the tests only use strings produced by str().", "anchors": ["qldpc/objects.py:QuditOperator.from_string"]}
{"id": "C75", "title": "QCCode construction terminates for every number of orders", "statement": "`QCCode(orders, poly_a, poly_b)` with at least as many orders as there are symbols returns (assigning one distinct symbol to every order), and raises ValueError when there are fewer orders than symbols.", "quantifier": "all sets of symbols and all sequences of orders", "why_tests_cant": "Non-termination cannot be observed by a test, and the number of orders is unbounded.", "anchors": ["qldpc/codes/quantum.py:QCCode.__init__"]}
{"id": "C76", "title": "The lift of special linear groups is a representation", "statement": "For `SpecialLinearGroup(d, q)` (linear_rep=True) the lift of a product of members is the product of their lifts.", "quantifier": "all dimensions, prime fields and members", "why_tests_cant": "Only the lift of single generators is tested; products of members in infinitely many groups are not.", "anchors": ["qldpc/abstract.py:SpecialLinearGroup"]}
{"id": "C77", "title": "Direction of the shift of a cyclic group", "statement": "The lift of the power g^p of the generator of `CyclicGroup(R)` satisfies <i| L(g^p) = <i + p mod R|, as documented.", "quantifier": "all orders, powers and indices", "why_tests_cant": "Not observable with the symmetric or order-two examples in the tests.", "anchors": ["qldpc/abstract.py:CyclicGroup"]}
{"id": "C78", "title": "Codes read from GAP", "statement": "The parity checks and the field order returned by `external.codes.get_code` are those that GAP printed, for all prime powers and all nonempty check matrices.", "quantifier": "all fields and check matrices", "why_tests_cant": "Tests mock the GAP output of one or two codes.", "anchors": ["qldpc/external/codes.py:get_code"]}
{"id": "C79", "title": "Coefficients of primitive central idempotents", "statement": "The coefficients returned by `get_primitive_central_idempotents(group, field)` are the elements of GF(field) that GAP printed.", "quantifier": "all fields and coefficients", "why_tests_cant": "Requires GAP and fields with proper non-prime subfields.", "anchors": ["qldpc/external/groups.py:get_primitive_central_idempotents"]}
{"id": "C80", "title": "Stacking CSS codes", "statement": "`CSSCode.stack(codes)` has the checks of all codes on disjoint qudits; its logical and gauge dimensions are the sums of theirs; with `inherit_logicals` its logical operators are theirs; its distance (and its X- and Z-distance) is the smallest distance among the codes with logical qudits; a promise of equal X- and Z-distances is only recorded if it is true.", "quantifier": "all lists of CSS codes, stabilizer or subsystem, over all finite fields", "why_tests_cant": "Tests stack one or two small codes; distances of stacked codes are never compared with those of the parts.", "anchors": ["qldpc/codes/common.py:CSSCode.stack", "qldpc/codes/common.py:QuditCode.stack"]}
{"id": "C81", "title": "Concatenating CSS codes", "statement": "`CSSCode.concatenate(inner, outer)` is a CSS code whose checks are those of the inner blocks, followed by those of the outer blocks expanded in the logical operators of the inner blocks; its dimensions are those expected, inherited logical operators are valid, and neither input is changed.", "quantifier": "all pairs of CSS codes, all wirings", "why_tests_cant": "Tests concatenate two particular pairs of codes and compare dimensions.", "anchors": ["qldpc/codes/common.py:CSSCode.concatenate", "qldpc/codes/common.py:QuditCode._standardize_concatenation_inputs"]}
{"id": "C82", "title": "What logical error rates count", "statement": "`get_logical_error_rate_func` samples errors of the stated weight and Pauli bias, and counts a sample as a failure exactly if the decoder leaves a nontrivial logical operator (for classical codes: if it does not return the error); the reported rate is the binomial average of the observed fractions, whatever logical operators the code has stored.", "quantifier": "all codes, decoders, error weights and samples", "why_tests_cant": "Tests check one or two rates of small codes, and that a biased rate can be computed.", "anchors": ["qldpc/codes/common.py:ClassicalCode.get_logical_error_rate_func", "qldpc/codes/common.py:CSSCode.get_logical_error_rate_func", "qldpc/decoders.py:DirectDecoder"]}
{"id": "C83", "title": "Distances of subsystem hypergraph product, Bacon-Shor and SHYPS codes", "statement": "If `code_x` is an [n1, k1, d1] and `code_z` an [n2, k2, d2] code with k1, k2 > 0, then `SHPCode(code_x, code_z)` is an [n1 n2, k1 k2, min(d1, d2)] code with (n1 - k1)(n2 - k2) gauge qudits; its X-distance is d2 and its Z-distance is d1. If k1 k2 = 0 it has no nontrivial logical operator. The gauge group depends only on the words of the two codes, not on the parity check matrices that are passed. `BaconShorCode(rows, cols)` is a [rows cols, 1, min(rows, cols)] code with X-distance `cols` and Z-distance `rows`. The dimension and the distances that `SHYPSCode` stores, without computing them, are those of the code.", "quantifier": "all fields, all pairs of classical codes with any parity check matrices (also redundant ones), all sizes of Bacon-Shor codes, all admissible pairs of dimensions of SHYPS codes, with and without preset logical operators", "why_tests_cant": "The distance of a subsystem code is a minimum over exponentially many operators modulo gauge operators; the tests compare a handful of small instances, and SHYPS codes have up to 127 * 127 qubits, beyond any search.", "anchors": ["qldpc/codes/quantum.py:881-961", "qldpc/codes/quantum.py:1567-1609"]}
{"id": "C84", "title": "Distances of hypergraph product codes", "statement": "The X-distance of `HGPCode(a, b)` is the smallest weight among the nonzero words of `b` (if `a` has nonzero words) and the nonzero words of the transposed code of `a` (if the transposed code of `b` has nonzero words); the Z-distance is the same with `a` and `b` exchanged. In particular [n1, k1, d1] and [n2, k2, d2] codes given by independent checks make an [n1 n2 + (n1-k1)(n2-k2), k1 k2, min(d1, d2)] code, with redundant checks the distances of the transposed codes enter, a product without logical qudits has no nontrivial operator, the product of two repetition codes is a surface code with X-distance cols and Z-distance rows, and the product of two rings is a toric code with two logical qudits and distance min(rows, cols).", "quantifier": "all fields, all pairs of classical codes with any parity check matrices, redundant or not, with and without preset logical operators", "why_tests_cant": "The distance is a minimum over exponentially many operators modulo stabilizers; tests compare single small instances with known values.", "anchors": ["qldpc/codes/quantum.py:635-878"]}
{"id": "C85", "title": "Parameters of generalized surface codes", "statement": "`GeneralizedSurfaceCode(size, dim, field, periodic=False)` has size**dim + (dim-1)*(size-1)**2*size**(dim-2) qudits and one logical qudit; with `periodic=True` and size >= 2 it has dim*size**dim qudits and dim logical qudits. In both cases the distances that the constructor stores without computing them are those of the code: the smallest weight of a nontrivial X-type operator is size**(dim-1), that of a nontrivial Z-type operator is size, and `get_distance()` reports size. A periodic lattice of size 1 has no logical qudits, and reports no distance; a dimension below 2, or an open lattice of size 0, is an error.", "quantifier": "all fields, all lattice sizes, all dimensions >= 2, open and periodic boundaries", "why_tests_cant": "The distances are stored as formulas with a note that their source is missing; checking one instance means a search over exponentially many operators, and the formulas range over all sizes and dimensions.", "anchors": ["qldpc/codes/quantum.py:1525-1564", "qldpc/objects.py:464-551"]}
{"id": "C86", "title": "SpecialLinearGroup(d, q) is the special linear group", "statement": "For every d >= 2 and every field, the products of the two matrices of `SpecialLinearGroup.get_generating_mats(d, q)` are exactly the d x d matrices with determinant one. Hence `SpecialLinearGroup(d, q)` has as many members as there are such matrices: with `linear_rep=True` its members are the permutations of the nonzero vectors by these matrices, each matrix giving a different one; with `linear_rep=False` the construction ends and lifts its members to exactly these matrices, each to a different one. `SpecialLinearGroup.iter_mats(d, q)` yields every matrix of determinant one exactly once.", "quantifier": "all finite fields (entries of one byte), all primitive elements, all dimensions >= 2, all orders of the field elements", "why_tests_cant": "That two matrices generate SL(d, q) is a theorem about all dimensions and fields; a test can only enumerate a few tiny groups.", "anchors": ["qldpc/abstract.py:1284-1374"]}
{"id": "C87", "title": "ProjectiveSpecialLinearGroup(d, q) is SL(d, q) modulo roots of unity", "statement": "For every d >= 2 and every field, the members of `ProjectiveSpecialLinearGroup(d, q)` correspond to the matrices of determinant one modulo d-th roots of unity, so its order is that of SL(d, q) divided by gcd(d, q-1), whichever representatives the set iteration picks; both `linear_rep=True` and `linear_rep=False` construct this group, `lift` maps members to matrices of their class and preserves products up to roots of unity, and `iter_mats` yields one d x d matrix of every class.", "quantifier": "all finite fields (entries of one byte), all primitive elements, all dimensions >= 2, all iteration orders of sets", "why_tests_cant": "The result depends on the iteration order of hash sets, which differs between runs, and is a statement about all dimensions and fields; the groups are too large to enumerate beyond tiny cases.", "anchors": ["qldpc/abstract.py:1377-1491"]}
{"id": "C88", "title": "get_logical_tableau returns the logical action of a circuit", "statement": "`get_logical_tableau(code, circuit)` returns a tableau exactly if the circuit maps stabilizers of the code to stabilizers and gauge operators to gauge operators (times stabilizers); the tableau is valid, acts on the logical qubits only, and is the unique one such that the circuit maps every logical operator P to the logical operator L(P) times stabilizers, with the right sign. The circuit then preserves the code space, the tableau does not depend on the choice of logical operators' stabilizer factors, and tableaus of consecutive circuits compose. The same holds with `deform_code=True` for the encoder of the deformed code.", "quantifier": "all encoders, all Clifford circuits, all numbers of logical, gauge and stabilizer qubits, all logical operators with phases", "why_tests_cant": "Tests compare a few gates on a few codes; the statement is about all Clifford circuits and codes, with gauge qubits and signs.", "anchors": ["qldpc/circuits.py:379-449"]}
{"id": "C89", "title": "Sign corrections of transversal gates are right", "statement": "A circuit returned by `get_transversal_ops` or `get_transversal_circuits` preserves the signs of all stabilizers, i.e. maps the code space to the code space (of the deformed code if `deform_code=True`), and implements the returned tableau or the requested logical gate exactly, including all signs; it is the circuit of an automorphism up to Pauli gates. `get_transversal_circuits` returns None for a gate only if no automorphism implements it up to Pauli operators, and `get_transversal_ops` drops a generator only if it is a Pauli operator or agrees with an earlier one up to Pauli operators.", "quantifier": "all encoders, all automorphism circuits in any order, all lists of requested gates", "why_tests_cant": "Signs of stabilizers and logical operators are wrong for half of the inputs if one correction is missed; the two sign branches of get_transversal_circuits are marked `no cover` in the repository because no test reaches them.", "anchors": ["qldpc/circuits.py:102-164", "qldpc/circuits.py:264-304", "qldpc/circuits.py:453-520"]}
{"id": "C90", "title": "Toric layouts of bivariate bicycle codes are equivalent codes", "statement": "For every entry (orders, poly_a, poly_b) of `code.get_equivalent_toric_layout_code_data()`, `BBCode(orders, poly_a, poly_b)` is the code up to a permutation of the qudits and of the checks, hence has the same number of logical qudits and nontrivial logical operators of the same weights; the polynomials look like 1 + x + ... and 1 + y + ..., the torus has the same number of plaquettes and is at least as wide as tall. The method raises no error, lists no entry twice, and misses no pair of quotients of monomials that is a basis of the torus.", "quantifier": "all orders, all polynomials, all fields", "why_tests_cant": "Tests compare the dimension for the entries of one code; the statement is about all codes, and equivalence is not checked at all.", "anchors": ["qldpc/codes/quantum.py:466-628", "qldpc/codes/quantum.py:297-318"]}
{"id": "C91", "title": "Connections of bivariate bicycle codes are read off the polynomials", "statement": "In the layout of `get_node_label` and `get_qubit_pos`, an X-type check addresses the L (R) data qubit that is (i, j) plaquettes (right, up) with the coefficient A_ij (B_ij), and a Z-type check the R (L) data qubit that is (i, j) plaquettes (left, down). If the polynomials are 1 + x + ... and 1 + y + ..., the four nearest neighbours of every check qubit on the torus of qubits are data qubits that it addresses, and they are at distance at most 2 in the folded layout.", "quantifier": "all orders, polynomials, fields, check and data qubits", "why_tests_cant": "A test checks distances for one code; an error in the direction of a displacement or at the boundary of the torus would show up for other codes only.", "anchors": ["qldpc/codes/quantum.py:338-369", "qldpc/codes/quantum.py:410-464"]}
{"id": "C92", "title": "Reed-Muller codes are evaluation codes and their duals are Reed-Muller codes", "statement": "The words of `ReedMullerCode(r, m, field)` are exactly the lists of values, at the 2^m points of {0,1}^m, of polynomials of degree at most r in m variables. `~ReedMullerCode(r, m, field) == ReedMullerCode(m - r - 1, m, field)`, with equal parity check matrices.", "quantifier": "all orders and sizes the constructor accepts, all fields", "why_tests_cant": "A single case (r, m, q) = (1, 3, 2) is tested; the identity depends on the characteristic of the field and on the null space being reduced canonically.", "anchors": ["qldpc/codes/classical.py:ReedMullerCode", "qldpc/codes/common.py:ClassicalCode.__invert__", "qldpc/codes/common.py:ClassicalCode.__eq__"]}
{"id": "C93", "title": "Equivalence and equality of quantum codes", "statement": "`QuditCode.equiv(a, b)` and `CSSCode.equiv(a, b)` return True exactly if a and b are defined on the same number of qudits and their parity checks generate the same group of Pauli operators, whichever of the two classes a and b belong to; equivalent codes have the same stabilizers, dimension and distance. `a == b` is an equivalence relation, it implies equivalence, and codes over the same field with the same parity checks are equal.", "quantifier": "all QuditCodes and CSSCodes (and classes derived from them) over the same field", "why_tests_cant": "Only random codes with duplicated checks are compared; the meaning for all pairs of check matrices needs the uniqueness of reduced row echelon forms, and == depends on the classes through Python's dispatch rules.", "anchors": ["qldpc/codes/common.py:AbstractCode.equiv", "qldpc/codes/common.py:CSSCode.equiv", "qldpc/codes/common.py:QuditCode.__eq__", "qldpc/codes/common.py:CSSCode.__eq__", "qldpc/codes/common.py:QuditCode.canonicalized", "qldpc/codes/common.py:CSSCode.canonicalized"]}
{"id": "C94", "title": "Random members of a group", "statement": "`group.random()` returns a member of the group, and every member is returned for exactly one of the equally likely ranks that may be drawn; consequently `group.random_symmetric_subset(size)` finds a subset of every size from 1 to the order of the group. This holds for Group, SmallGroup and TrivialGroup alike.", "quantifier": "all finite permutation groups, all sequences of random numbers", "why_tests_cant": "Tests draw a few members and check membership; that no member is out of reach, for every group and every outcome of the random number generator, cannot be tested, and a search that never ends fails no assertion.", "anchors": ["qldpc/abstract.py:Group.random", "qldpc/abstract.py:SmallGroup.random", "qldpc/abstract.py:TrivialGroup.random", "qldpc/abstract.py:Group.random_symmetric_subset"]}
{"id": "C95", "title": "Choice of a decoder", "statement": "`get_decoder(matrix, **args)` calls `decoder_constructor` if one is given, else returns `static_decoder` if one is given and there are no other arguments, else builds the decoder whose flag `with_...` is true, else the default for the field of the matrix. The decoder gets exactly the remaining arguments, and a placeholder error rate only if it needs one and neither an error rate nor an error channel is given. Flags that are false make no difference.", "quantifier": "all sets of keyword arguments and both kinds of matrices", "why_tests_cant": "Tests pass one flag at a time; combinations of flags, and of flags with other arguments, are exponentially many.", "anchors": ["qldpc/decoders.py:get_decoder", "qldpc/decoders.py:get_decoder_BP_OSD", "qldpc/decoders.py:get_decoder_lookup", "qldpc/decoders.py:get_decoder_GUF"]}
{"id": "C96", "title": "Block lengths of BCH codes", "statement": "`BCHCode(length, dimension, field)` raises its ValueError about the block length exactly if the length is not of the form q^m - 1 with m > 0, where q is the order of the field.", "quantifier": "all field orders and all lengths", "why_tests_cant": "Tests try one invalid length; the check compares strings of digits and has to be right for infinitely many lengths and every field.", "anchors": ["qldpc/codes/classical.py:BCHCode.__init__"]}
{"id": "C97", "title": "Weights of parity checks", "statement": "`get_weight()` returns the largest number of bits (qudits) that a parity check addresses. For a hypergraph product code of A and B, this is the larger one of (row weight of A + column weight of B) and (row weight of B + column weight of A); for a bivariate bicycle code, all checks have the weight given by the number of terms of the two polynomials.", "quantifier": "all parity check matrices over all fields; all pairs of seed codes; all orders and polynomials", "why_tests_cant": "Tests compute the weight of a few codes; that products of sparse codes are sparse is a statement about all of them.", "anchors": ["qldpc/codes/common.py:ClassicalCode.get_weight", "qldpc/codes/common.py:QuditCode.get_weight", "qldpc/codes/quantum.py:HGPCode.get_matrix_product", "qldpc/codes/quantum.py:BBCode"]}
{"id": "C98", "title": "Random codes and code words", "statement": "`ClassicalCode.random(bits, checks, field, seed=..)` returns a code with that many bits and checks in which no check is trivial and no bit unchecked (the first such array drawn); with a seed the result depends on nothing but the seed and the global random state is left alone; the call can end. `get_random_word` returns a code word, and every code word comes from exactly one array of random coefficients.", "quantifier": "all numbers of bits and checks, all fields, all sources of random arrays, all seeds", "why_tests_cant": "The outcome is random, and a call that never ends cannot be observed by a test.", "anchors": ["qldpc/codes/common.py:ClassicalCode.random", "qldpc/codes/common.py:get_random_array", "qldpc/codes/common.py:get_scrambled_seed", "qldpc/codes/common.py:ClassicalCode.get_random_word"]}
{"id": "C99", "title": "Codes built from arrays and from codes", "statement": "`ClassicalCode(matrix, field)`, `QuditCode(matrix, field)` and `CSSCode(code_x, code_z, field)` accept integers, galois arrays and codes; the result has the given entries and is over the requested field (F_2 by default), an inconsistent request raises ValueError, and the dimension that the result reports is that of its matrix.", "quantifier": "all matrices, codes and requested fields", "why_tests_cant": "All kinds of arguments, including codes of another kind with cached attributes.", "anchors": ["qldpc/codes/common.py:AbstractCode.__init__", "qldpc/codes/common.py:ClassicalCode.__init__", "qldpc/codes/common.py:QuditCode.__init__", "qldpc/codes/common.py:CSSCode.__init__"]}
{"id": "C100", "title": "Looking up groups on GroupNames.org", "statement": "get_group_url(order, index) returns the address of the first link in the line of the index page that shows the label of exactly that group, raises ValueError if the label or the link is missing, and returns None without a page; get_small_group_number(order) is the largest index listed for the order; names other than SmallGroup(order,index) are not looked up there; the sources (known groups, GAP, web) are asked in this order.", "quantifier": "all page texts, orders, indices and names", "why_tests_cant": "The tests use one mock page with a single group; they say nothing about pages with many labels that contain each other as texts, missing newlines, or names with trailing text.", "anchors": ["qldpc/external/groups.py:get_group_url", "qldpc/external/groups.py:get_small_group_number", "qldpc/external/groups.py:get_generators_from_groupnames", "qldpc/external/groups.py:get_generators", "qldpc/abstract.py:Group.from_name"]}
{"id": "C101", "title": "The automorphism group of a classical code is looked up for this code", "statement": "ClassicalCode.get_automorphism_group() asks for (and caches) the group under a text. Codes with the same words share the text; codes that differ in their field, their length or their words have different texts.", "quantifier": "all parity check matrices over all finite fields and all numberings of field elements", "why_tests_cant": "A collision of texts returns the cached group of another code; tests only look at single codes.", "anchors": ["qldpc/codes/common.py:ClassicalCode.get_automorphism_group", "qldpc/abstract.py:Group.from_name", "qldpc/external/groups.py:get_generators"]}
{"id": "C102", "title": "A Tanner graph is converted back over its own field", "statement": "ClassicalCode.graph_to_matrix and QuditCode.graph_to_matrix return a matrix over the field of the matrix the graph was made from; graphs without a field are taken over GF(2); the product of Tanner graphs is over the field of its factors.", "quantifier": "all matrices over all finite fields, all matrices of numbers and all graphs", "why_tests_cant": "Tests convert graphs of codes only, whose matrices always carry a field; graphs of plain matrices, hand-made graphs and pairs of fields are not tried.", "anchors": ["qldpc/codes/common.py:ClassicalCode.matrix_to_graph", "qldpc/codes/common.py:ClassicalCode.graph_to_matrix", "qldpc/codes/common.py:QuditCode.matrix_to_graph", "qldpc/codes/common.py:QuditCode.graph_to_matrix", "qldpc/codes/quantum.py:HGPCode.get_graph_product"]}
{"id": "C103", "title": "Circuit constructors accept qubit codes only", "statement": "The functions of qldpc.circuits raise ValueError for a code over a field other than GF(2), however the code is passed, and never refuse a qubit code.", "quantifier": "all public circuit constructors, all fields, all positional and keyword arguments", "why_tests_cant": "The test passes one qutrit code positionally to one function; the check is in a decorator and its effect depends on how arguments are passed and on calls between functions.", "anchors": ["qldpc/circuits.py:restrict_to_qubits", "qldpc/circuits.py:get_encoding_tableau", "qldpc/circuits.py:get_transversal_automorphism_group"]}
{"id": "C104", "title": "Primitive central idempotents are read as GAP printed them", "statement": "get_primitive_central_idempotents(group, field) returns all idempotents that GAP printed, each with all its terms, and of each term the coefficient Z(p^k)^m and the cycles of the permutation counted from 0; output that cannot be read raises an error.", "quantifier": "all lists of sums of terms, all numbers p, k, m and all permutations in cyclic form", "why_tests_cant": "The test parses one text with two idempotents; five nested regular expressions have to agree on all texts.", "anchors": ["qldpc/external/groups.py:get_primitive_central_idempotents"]}
{"id": "C105", "title": "Transversal automorphisms are exactly the gates that preserve the operators commuting with all checks", "statement": "With deform_code=False, get_transversal_automorphism_group(code, local_gates) accepts a product of allowed gates (SWAPs and local gates) exactly if its circuit maps every Pauli operator that commutes with all checks of the code to a Pauli operator that commutes with all checks.", "quantifier": "all numbers of qubits, all lists of checks, all sets of local gates with or without SWAP, all products of generators, all Pauli operators", "why_tests_cant": "The tests count the gates found for the five-qubit code; that nothing is missed and nothing wrong is accepted is a statement on all codes and all products of gates.", "anchors": ["qldpc/circuits.py:get_transversal_automorphism_group"]}
{"id": "C106", "title": "Deforming transversal automorphisms leave the logical operators valid", "statement": "With deform_code=True, get_transversal_automorphism_group(code, local_gates) accepts a product of allowed gates exactly if its circuit preserves the set of Pauli operators that commute with all logical operators; in particular the logical operators of the code are valid for the code deformed by the circuit.", "quantifier": "all numbers of qubits, all codes with logical operators, all sets of local gates, all products of generators", "why_tests_cant": "deform_code=True is not tested for this function, and the error only shows for codes that are not symmetric under exchanging X and Z.", "anchors": ["qldpc/circuits.py:get_transversal_automorphism_group", "qldpc/codes/common.py:QuditCode.deformed"]}
{"id": "C107", "title": "No transversal automorphism is missing from the group", "statement": "get_transversal_automorphism_group(code, local_gates) returns exactly the products of allowed gates that permute the columns of the instrumental code by an automorphism: nothing wrong is contained, and nothing is missing.", "quantifier": "all numbers of qubits, all lists of checks, all sets of local gates, all generators that GAP may return for the automorphism group", "why_tests_cant": "Permutation groups of sympy carry a degree that depends on the largest point moved by a generator; the tests use one code, whose automorphisms move all columns.", "anchors": ["qldpc/circuits.py:get_transversal_automorphism_group", "qldpc/circuits.py:_sympy_group_intersection_generators"]}
{"id": "C108", "title": "Transversal gates are turned into circuits without exceptions", "statement": "get_transversal_ops(code, local_gates) and get_transversal_circuits(...) never fail while converting the automorphisms they found into circuits, for any qubit code.", "quantifier": "all qubit codes, all sets of local gates, all generators that GAP may return for the automorphism group", "why_tests_cant": "The size of the permutations depends on the code; the tests use one code, for which the sizes agree.", "anchors": ["qldpc/circuits.py:get_transversal_ops", "qldpc/circuits.py:_get_pauli_permutation_circuit", "qldpc/circuits.py:_get_swap_circuit"]}
{"id": "C109", "title": "Descriptions of small groups do not depend on the history of the cache", "statement": "get_small_group_structure(order, index) returns GAP's description whenever GAP is installed (an exception if GAP prints nothing), whatever calls and evictions happened before; without GAP it returns the description if it is still cached and the name SmallGroup(order,index) otherwise, and such names never end up in the cache.", "quantifier": "all outputs of GAP, all histories of calls with and without GAP and of evictions, all groups", "why_tests_cant": "Tests patch GAP and the cache for single calls; the claim is on all sequences of calls.", "anchors": ["qldpc/external/groups.py:get_small_group_structure"]}
