# Formal model of qLDPC in Rocq

The source of `/repo` (Infleqtion/qLDPC, python) was read as text. It was never run.
This file says what is modelled, how each property is proved, and what has to be trusted.

## Layout

* `properties.jsonl` – the properties, in terms of the API.
* `rocq/theories/*.v` – model, specification and proofs.
  * Every model definition has a comment with the file and lines it models and any simplification.
  * Every property theorem is stated against a specification that does not use the helpers of the model
    (mathcomp ranks, kernels and matrix products, sets of words, or plain arithmetic).
  * Next to each theorem is an `Example` that shows the hypotheses are met by a concrete non-trivial case.
* `MANIFEST.json` – property -> theorem names.
* `seeded/LOG.jsonl` – mutation log.

## Modelling choices

* Arrays over a finite field (`galois.FieldArray`) are lists of rows over an arbitrary mathcomp `fieldType F`.
  The operations (`@`, `np.kron`, `np.vstack`, slicing, fancy indexing, `row_reduce`, `null_space`) are executable list
  functions. Bridging lemmas connect them with mathcomp matrices `'M[F]_(m,n)`; specifications are stated there or on words.
  A theorem for all fields covers GF(q) for all prime powers q.
* `galois` and `numpy` are not part of the repository. `row_reduce` and `null_space` are modelled by column-wise Gaussian
  elimination as galois documents it and then proved correct, so nothing about them is assumed.
* Exceptions are values (`option`/`sum`). Mutable objects are records threaded through functions.
* External calls (decoders, stim, GAP, random numbers) are universally quantified functions or streams.
* Qudit phases are not modelled anywhere: the repository itself only keeps symplectic vectors, except in circuits.py.

## Trusted base

* Coq 8.16.1's kernel and `coqchk`.
* Axioms: see the section "Assumptions" at the end; `Print Assumptions` is run under each property theorem.
* The reading of the python source into the model (comments cite lines), and of numpy/galois/networkx/sympy semantics.

## Plan per property

A property whose full statement is false of the faithful model gets a theorem `..._refuted` with a witness (a finding), and a
theorem `..._partial` with the extra hypothesis under which it does hold.

* **C01 Canonicalized classical code is the same code in reduced form** – LinAlg.v/RowReduce.v: executable Gaussian elimination on list matrices (galois `row_reduce`, external, modelled). Induction on columns: same row space, RREF shape, rank.
* **C02 Code equivalence decides equality of code word sets** – Uniqueness of RREF (proved for our list RREF), then equality of lists <-> equality of null spaces.
* **C03 Generator rows are a basis of the code; iter_words lists every code word once** – null_space modelled through [A^T|I] elimination; spec: kernel as a set of vectors; unique coefficients; iter_words is itertools.product over the field elements.
* **C04 Dual code is the orthogonal complement** – dual = swap of matrix and generator; double orthogonal complement from rank-nullity.
* **C05 Tensor product of classical codes** – kron of generators, spec on words viewed as matrices.
* **C06 Puncturing** – column selection on the generator, double dual.
* **C07 Shortening** – faithful model of shorten; `_refuted` witnesses + conditional theorem.
* **C08 Stacking classical codes** – block_diag; membership splits.
* **C09 set_generator accepts only bases** – faithful model of set_generator's test; `_refuted` witness, plus what acceptance does guarantee.
* **C10 Exact classical distance** – model both code paths, minimum over enumerated words vs. spec minimum.
* **C11 Gray-code enumeration visits every logical coset member** – Gray code induction over the counter, on lists of N words.
* **C12 Bit-twiddling weights are exact on 64-bit words** – SWAR over N with 64-bit wrap; proved by byte decomposition, no enumeration of 2^64.
* **C13 Packing rows into 64-bit words loses nothing** – bit list <-> N lemmas.
* **C14 Multi-word weight accumulation does not overflow** – uint8 accumulation model; `_refuted` witness, theorem below 256.
* **C15 Classical distance bound is an upper bound for every decoder** – decoder is an arbitrary function (universally quantified), random choices an arbitrary stream.
* **C16 Distance bound to a given vector is an upper bound for every decoder** – as C15; `_refuted` witness with a bad decoder, theorem for sound decoders.
* **C17 Tanner graph round trip (classical)** – graph as insertion-ordered node/edge lists; `_refuted` + conditional theorem.
* **C18 Tanner graph round trip (qudit codes)** – as C17.
* **C19 Text form of qudit operators and codes round-trips** – string codec model over Coq strings.
* **C20 Tanner code membership** – TannerCode construction on edge lists.
* **C21 Building a Tanner code does not change its input graph** – graph state as a value threaded through the constructor; `_refuted` witness.
* **C22 Stabilizer/subsystem classification** – symplectic_conjugate model; iff by matrix entries.
* **C23 Stabilizer group of a subsystem code** – null_space of null_space; orthogonal complement calculus for the symplectic form.
* **C24 canonicalized=True really returns a row reduced stabilizer matrix** – model of _is_canonicalized and of the SHPCode presets; `_refuted` witness + independence theorem.
* **C25 Dimension bookkeeping** – rank identities for alternating forms (radical has even codimension).
* **C26 Logical operators of stabilizer codes** – full executable model of get_standard_form_data / get_logical_ops; proof with selection matrices.
* **C27 Logical operators of (non-CSS) subsystem codes** – same model, subsystem branch; `_refuted` witnesses (found with a prototype); what holds of every returned value (`C27_duality_partial`: 2k rows, the X-Z duality, Z-type rows have no X part and commute) and an exact criterion for a right answer (`C27_criterion`).
* **C28 Logical operators of CSS codes** – executable model of the CSS branch, both cases; proof with selection matrices.
* **C29 set_logical_ops validation is sound** – `_refuted` witness + what is guaranteed.
* **C30 Gauge operators** – through C23/C27/C28 on the dual subsystem code.
* **C31 Local Fourier transform (conjugated) preserves commutation** – characteristic 2 theorem, `_refuted` witness over F_3.
* **C32 Clifford deformation preserves the code structure** – arbitrary symplectic matrix stands for the circuit's tableau (stim is external).
* **C33 Stacking quantum codes** – block matrices.
* **C34 Concatenation** – expansion of outer checks through inner logical operators.
* **C35 Concatenation leaves its inputs unchanged** – objects as records in a store; `_refuted` witness.
* **C36 CSS distance bound is an upper bound for every decoder** – as C15.
* **C37 Reducing logical operators preserves the logical basis** – as C15.
* **C38 Random logical operators** – random stream quantified.
* **C39 Exact quantum distance** – min over cosets; binary path through C11.
* **C40 Chain complexes** – list of boundary matrices, block assembly, Kronecker algebra.
* **C41 Chain complexes over group rings** – matrices over a noncommutative ring; `_refuted` witness over the group algebra of S_3.
* **C42 Hypergraph product codes are valid stabilizer codes** – Kronecker algebra; executable canonical logical operators.
* **C43 Hypergraph product: graph and matrix constructions agree** – edge-by-edge comparison of node map and Kronecker index.
* **C44 Subsystem hypergraph product codes** – Kronecker algebra + kernels.
* **C45 Two-block and quasi-cyclic codes commute** – matrices; group algebra of a product of cyclic groups.
* **C46 Lifted product codes are valid stabilizer codes** – abelian theorem; `_refuted` witness over S_3.
* **C47 Quasi-cyclic codes have equal X and Z distance** – inversion permutation of the group maps one check matrix to the other.
* **C48 BBCode qubit layout is a bijection** – arithmetic on N/Z.
* **C49 BBCode basis arithmetic** – arithmetic on N/Z (gcd/lcm).
* **C50 Canonical form of quasi-cyclic polynomials** – model of sympy terms; `_refuted` witness over F_3 + binary theorem.
* **C51 Rotated surface code checks commute** – checks as sets of grid sites with signs; overlaps counted for all sizes.
* **C52 Elementary classical families have the claimed parameters** – families by induction; `_refuted` at the boundary sizes.
* **C53 Iceberg, Steane, C4, C6 and five-qubit codes** – IcebergCode by induction; fixed codes by computation (the domain is one object).
* **C54 Quantum Tanner codes commute** – faces of the Cayley complex as sets; local tensor-code orthogonality on each face view.
* **C55 Quantum Tanner code equality** – `_refuted` witness.
* **C56 Quantum Tanner code save/load round trip** – text codec over Coq strings.
* **C57 Group representations are homomorphisms** – permutations of {0..n-1} as lists.
* **C58 Groups built from multiplication tables or matrices** – table model; `_refuted` witness (nonabelian) + abelian theorem. The loop of from_generating_mats ends exactly when there are finitely many products (GroupTerm).
* **C59 Group algebra arithmetic** – finitely supported functions as association lists, spec as functions.
* **C60 Null space and row reduction of group-ring matrices** – model of null_space through the regular lift; row_reduce model. Abelian groups: row space kept and null space complete; nonabelian groups: both refuted (a witness over F_2[S_3] for each).
* **C61 random_symmetric_subset** – random choice stream quantified.
* **C62 Lookup decoder returns minimum-weight corrections** – table built by enumeration in descending weight.
* **C63 Lookup decoder table is not corrupted by callers** – heap with aliasing; `_refuted` witness.
* **C64 Generalized union-find decoder** – graph growth loop with fuel = number of nodes.
* **C65 ILP decoder constraints are exact** – feasible set of the integer program; q=2 theorem; `_refuted` for q=3.
* **C66 Block and direct decoders** – lists.
* **C67 Logical error-rate estimator bookkeeping** – rational/real arithmetic.
* **C68 Disk cache is transparent** – state machine over call/evict histories; `_refuted` for the default key.
* **C69 GAP cycle notation parsing** – string parser.
* **C70 Encoding tableau is a symplectic basis** – symplectic bases; `_refuted` witness via C24.
* **C71 SWAP circuits realise their permutation** – transposition lists.
* **C73 Validated logical operators of CSS codes** – `_refuted` witness.
* **C74 Product strings** – `_refuted` witness on the string model of C19.
* **C75 QCCode construction terminates** – the loop over symbols with fuel; `_refuted` when it never ends.
* **C76, C77 Lifts of special linear and cyclic groups** – exact behaviour and `_refuted` direction.
* **C78, C79 Codes and idempotents read from GAP** – text codec; arithmetic of subfields for the refutation.
* **C80, C81 Stacking and concatenating CSS codes** – block matrices; nontrivial operators restricted to the parts for the distances; `_refuted` witnesses as for C34, C35.
* **C82 What logical error rates count** – random draws quantified; residual errors through C28 and the decoders of C62, C64, C66.
* **C83 Distances of subsystem hypergraph products** – an operator of X type is a matrix; gauge operators have columns in the row space of the first parity check matrix, so a nontrivial operator carries a word of the second code across its columns (lower bound), and a minimal word in one row attains it. Bacon-Shor and SHYPS codes are corollaries.
* **C84 Distances of hypergraph products** – operators are pairs of matrices (U, W) with U P = Q W; multiply by the kernels of Q and of P to find a word of one of the classical codes, or solve U = Q C, W = C P.
* **C85 Generalized surface codes** – matrix form of the product of a chain with a link; invariant of the loop: dual families of cycles and cocycles that span homology in degree one, with a weight bound for everything that pairs with them (Künneth argument in both directions), plus the homology in degree zero. The link of a ring has one more class, so one logical qudit is added per dimension. A ring of one site gives an exact complex.
* **C86 Special linear groups** – every matrix of determinant one is a product of transvections (row reduction with the last pivot forced by the determinant); the closure of the two generators contains one transvection, all its multiples (differences of conjugates by powers of the diagonal generator, squares span the field) and, by conjugation with the signed cycle and commutators, every other transvection. Combine with C58 (groups from matrices) and C76 (permutations of vectors).
* **C87 Projective special linear groups** – the iteration orders of sets are quantified: any list of the orbits, any member of each. A matrix moves the representative of an orbit to that of its image; two matrices that agree up to a root of unity on every vector differ by one root (every vector is an eigenvector). Count fibres for the order. The lift picks representatives column by column (refuted: not defined, or not multiplicative even up to scalars); the Kronecker products with untransposed inverses generate PSL for d = 2, where a conjugation inverts both generators, and for q = 2, but not for (3, 5) (refuted: two words); iter_mats yields flat vectors.
* **C88 Logical tableaus** – Pauli strings with phases in Z/4 and tableaus as stim keeps them; a valid tableau preserves products, hence is injective on the finite set of strings, hence invertible. The asserts say that images of logical and gauge operators, cut to the first qubits, form a valid tableau; an operator that commutes with all of them is trivial, which removes the gauge part. The converse counts Z-type strings. Refuted: signs of stabilizers are not checked, so circuits that leave the code space get a logical tableau, which depends on the logical operators chosen and does not compose.
* **C89 Signs of transversal gates** – a Pauli gate in front multiplies an image by a commutation sign; destabilizers in front fix the signs of stabilizers, logical operators those of logical images. The search loop is an invariant on the list of gates found so far.
* **C90 Toric layouts** – entries of the block matrices are sums of coefficients at displacements; a valid basis gives an isomorphism of the tori (the inverse found by brute force is linear), a shift of the polynomials is absorbed in the column permutations, exchanging the polynomials exchanges the halves (Z-type checks change sign). Permutation equivalence preserves ranks and logical weights. Refuted: polynomials with one monomial, orders given as a dictionary with unsorted symbols, coefficients other than 1 (they are squared). The order of sympy terms is arbitrary; terms are not merged in the model, which is harmless since distinct terms stay distinct (C90_form).
* **C91 Connections** – the same entries in terms of node labels; the neighbours on the torus are cases on the sector, the folded distance is arithmetic.
* **C92 Reed-Muller codes** – the model is `rm_generator`/`reed_muller` of Families.v; the specification is evaluation of polynomials (`is_poly`). Words over every field by the (u, u + v) recursion; dual code in characteristic 2 (equality of matrices by uniqueness of the reduced form); in every other characteristic the dual is another code (`C92_dual_refuted`, `C92_dual_characteristic`).
* **C93 Equivalence and equality of quantum codes** – QuantumEquiv.v models `canonicalized`, both `equiv` functions, both `__eq__` methods and Python's rule that a proper subclass is asked first (classes are paths in a tree). Equivalence decides equality of the generated groups for every mixture of classes. `==` among CSS codes also compares the classes (`C93_eq_class_refuted`: a SteaneCode differs from the CSSCode with the same checks), a CSSCode never equals a QuditCode, and == is not symmetric once a user derives another class from QuditCode. Not modelled: comparison across fields (always False), and `QuditCode(css_code)`, which reads the attribute `_matrix` that CSS codes do not have.
* **C94 Random members of a group** – GroupRandom.v models the three `random` methods on top of SymPy's rank and unrank functions (external; assumed to list every member once). Every rank gives a member, each member has one rank, and C61's search for symmetric subsets ends. `SmallGroup.random` returns the identity whenever the *index* is 1 instead of the order: `C94_small_group_refuted` holds for every SmallGroup(order, 1) with order > 1 (all cyclic groups of prime order, C4, ...), and `C94_subset_endless_refuted` shows that `random_symmetric_subset` (hence `QTCode.random`) then never ends.
* **C95 Choice of a decoder** – GetDecoder.v models `get_decoder` with keyword arguments as association lists and TypeErrors for unknown keywords. The choice and the arguments passed on are characterised for all arguments. Findings: a flag that is False but looked at after the chosen one is passed to the decoder (`with_lookup=True, with_GUF=False` raises a TypeError), and `with_BP_OSD=True` raises a TypeError for non-binary matrices.
* **C96 Block lengths of BCH codes** – BchLength.v models `np.base_repr`, `str` and the comparison of strings. Right for fields of at most ten elements. For larger fields `str(field - 1)` has two characters per digit, so that *every* length is refused (`C96_large_refuted`; e.g. BCHCode(15, k, 16)).
* **C97 Weights of parity checks** – CheckWeight.v models both `get_weight` methods; the exact weights of hypergraph product codes follow from weights of Kronecker products of rows, those of bivariate bicycle codes from the entries of C91.
* **C98 Random codes and code words** – RandomCode.v: the arrays drawn are universally quantified streams (one determined by the seed, one free), the loop has fuel, and the global random state is threaded through. Finding: with bits but no checks, or checks but no bits, no array is ever accepted (`C98_endless_refuted`).
* **C99 Codes built from arrays and from codes** – CodeInit.v models the constructors with the field order as data. Findings: a requested field is ignored for galois arrays; a ClassicalCode made from a QuditCode, or a QuditCode made from a ClassicalCode, keeps the cached dimension of the other kind of code (ClassicalCode(FiveQubitCode()).dimension is 1, not 6); a CSSCode is no valid argument, since it has no `_matrix`.
* **C100 Looking up groups on GroupNames.org** – GroupNames.v models find, slices with negative bounds and the regular expressions on arbitrary page texts. The searches are compared with a specification by decompositions of texts (first occurrence, line, first link). Findings: str.find returning -1 is not handled for newlines, and the name pattern has no end anchor.
* **C101 Text for automorphism groups** – AutText.v models the name built from the canonicalized matrix and its standardization; injectivity by induction on rows, combined with uniqueness of the canonical form. Finding: the text of a code without checks does not contain the length.
* **C102 Field of a Tanner graph** – GraphField.v adds the attribute `order` to the graphs of TannerGraph.v; the round trips of C17 and C18 are lifted to matrices with a field. Finding: networkx graphs always have a method `order`, so the default field is never used and graphs of plain matrices raise TypeError. Of the product of graphs only the attribute is modelled.
* **C103 Qubit codes only** – QubitOnly.v models the decorator and the calls between decorated functions (what the functions compute is modelled elsewhere); case analysis over functions. Finding: only positional arguments are checked, so two functions accept `code=` over any field.
* **C104 Text of idempotents** – IdemText.v models the regular expressions with backtracking (all ways to match, in Python's order) and the nested loops over their matches; the texts of GAP are given by a printer, and reading is shown to invert it by induction on terms, members and lists (an inductive relation for the matches of re.finditer). Finding: what does not match is skipped silently. The conversion of coefficients is C79.
* **C105 Transversal automorphisms** – TransAut.v models the instrumental matrix (one row per check, sectors by gate set) on top of Circuits.v; commutation of a product of Pauli operators with a check is specified per qubit. An element of the generated group permutes the columns, words are products of sector Paulis, and every Pauli operator is such a product (parity of multiplicities); both directions of the equivalence. GAP's automorphism group and the intersection of groups are external: membership is the definition.
* **C106 Deforming automorphisms** – same model with the conjugated logical operators. Equivalence for SWAP and H (these circuits commute with exchanging X and Z). Finding: with S or SQRT_X the conjugation exchanges X and Z in the checks but not in the circuits; for the check XX with logical operators IX and ZZ, S on one qubit is accepted with the default gates and makes the logical operators invalid (`_refuted`). `C106_exact` says what is computed for all gates. Missing from the partial theorem: the other gate sets, for which the statement is false.
* **C107 Intersection of groups** – Intersect.v models the generators as lists of cycles and, from sympy, the degree of a group (largest moved point of a generator, plus one), the strict `PermutationGroup.contains` (False for permutations of another size) and the contract of `subgroup_search`; these three are external and trusted as documented by sympy. Sound in general; complete if some automorphism moves the last column. Finding: otherwise the degrees differ and only the identity is found (two qubits, check IZ, gate H), `_refuted` for all generators GAP may print.
* **C108 Sizes of automorphisms** – SmallDegree.v lists the columns on which automorphisms are called; calls beyond the size of a sympy permutation raise (external, `Permutation.__call__`). No exception if some automorphism moves the last column. Finding: a code of seven qubits with three checks whose automorphisms all fix the last column, so that the default gates give an exception; the column is recognised as the only nonzero one that occurs once.
* **C109 Cached descriptions of groups** – GroupStruct.v models the call and the cache (dictionary, evictions as events) and characterises the cache after every history by induction on the history; GAP's output is an arbitrary function of the group, constant over time.
* **C72 Single-qubit Clifford for a Pauli permutation** – finite case analysis over the 6 permutations and all qubits.

## Not modelled

* Floating point in log-probabilities (only exact rationals/reals), progress bars, printing of codes, disk formats of diskcache.
* Truth of values downloaded from GAP or GroupNames.
* stim's simulator (its tableaus, their composition and inversion are modelled by their mathematical meaning in SignedPauli.v), cvxpy's solver, ldpc/BP decoders.

## Assumptions

`Print Assumptions` was run for every theorem named in `MANIFEST.json`, and is repeated below each theorem in the `Props*.v`
files. Every one of them is "Closed under the global context": no axiom is used, not even those of the standard library.

## What is modelled, file by file

Line numbers refer to the files of `/repo/qldpc`. Names in parentheses are the files in `rocq/theories`.

* `abstract.py`: permutation groups and lifts 56-300 (PermGroup), groups from tables and matrices 281-349 (GroupTable, GroupTerm), special linear groups 1284-1375 (GroupTable, SlGen), projective special linear groups 1377-1491 (Psl), random
  members and symmetric subsets (GroupRandom, SymSubset), group rings and their elements 421-700 (GroupRing), matrices over group rings, lift,
  null space and row reduction (RingReduce, RingArray), abelian, cyclic, quaternion and special linear groups 1120- (Abelian,
  PermGroup). Not modelled: groups whose generators come from GAP or SymPy tables (only how the text is read).
* `objects.py`: Pauli and QuditOperator text 36-152 (QuditText), Cayley complexes 246-349 (QTanner), chain complexes 352-551
  (Chain, ChainInst). Not modelled: nothing with an effect on results, only `__repr__`-style helpers.
* `codes/common.py`: seeds and random arrays 47-70 (RandomCode), AbstractCode.__init__ 85-112 (CodeInit), ClassicalCode 196-607 (Classical, ClassicalDist, RandomCode), QuditCode 691-1553 (Quantum, QuantumLogs, QuantumOps, QuantumEquiv, CheckWeight,
  QuantumConcat, QuantumDist), CSSCode 1556-2296 (Css, CssForm, CssLogs, CssGauge, CssDist, CssReduce, CssStack), Tanner graphs (TannerGraph, GraphField),
  error rate estimators (SampleAlloc, ErrorRate). Not modelled: floating point rounding, printing.
* `codes/distance.py`: everything (BitWeight, Pack, GrayCode).
* `codes/classical.py`: repetition, ring, Hamming, extended Hamming, Reed-Muller and simplex codes (Families, ReedMuller), Tanner codes
  (TannerCode). Of Reed-Solomon and BCH codes, whose matrices come from galois, only the check of the block length is modelled (BchLength).
* `codes/quantum.py`: all classes (SmallCodes, Product, ShpDist, HgpDist, QuasiCyclic, RingArray, QCPoly, BBLayout, ToricLayout, BBConnect, Surface, ChainInst, GenSurface, QTanner, QTSave).
* `decoders.py`: choice of decoders 45-137 (GetDecoder), lookup 140-205 (Lookup), union-find 224-359 (GUF), integer programs, block and direct decoders 370-513
  (Decoders). Not modelled: the wrappers of ldpc's decoders, the solver of integer programs.
* `circuits.py`: the restriction to qubit codes 32-41 (QubitOnly), encoding tableaus 44-98 (Tableau; CSS and other codes, up to signs), the instrumental code 205-227 (TransAut), the intersection with the group of gates 226-260 (Intersect), calls of automorphisms 275-277, 318-352 (SmallDegree), circuits for transversal automorphisms
  197-245 and 317-367 (Circuits), logical tableaus, sign corrections and the search for transversal gates 102-164, 264-304 and 370-520
  (SignedPauli, LogicalTab, EncTab). Not modelled: the automorphism groups computed in GAP.
* `external/`: parsing of the text printed by GAP (GapText), lookups in pages of GroupNames.org (GroupNames), the text for automorphism groups (AutText), the text of idempotents (IdemText), cached descriptions of groups (GroupStruct). Not modelled: the web requests and the GAP process itself.
* `cache.py`: everything but diskcache itself (Cache).
