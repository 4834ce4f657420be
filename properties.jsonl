{"id": "C01", "title": "Cayley table entries are exactly the products", "statement": "When get_cayley_table returns a table, table[i][j] is the first index k with rotations[k] == rotations[i] @ rotations[j] and time_reversals[k] == (time_reversals[i] xor time_reversals[j]); every entry is a valid index and the table is order x order.", "quantifier": "every list of integer 3x3 matrices of any length, with or without a time-reversal flag per matrix", "why_tests_cant": "tests only build tables for the crystallographic point groups; the claim is over all matrix lists, orders and orderings", "anchors": ["src/spgrep/group.py:get_cayley_table"]}
{"id": "C02", "title": "get_cayley_table raises exactly when the list is not closed", "statement": "get_cayley_table raises ValueError iff some product of two listed operations is not in the list; otherwise it returns a table.", "quantifier": "every list of integer 3x3 matrices with time-reversal flags", "why_tests_cant": "the negative side ranges over all non-closed lists", "anchors": ["src/spgrep/group.py:get_cayley_table"]}
{"id": "C03", "title": "The table of a matrix group is a group table", "statement": "If the listed operations are distinct and form a group, the returned table is associative, has a two-sided identity, two-sided inverses, and every row and column is a permutation of the indices.", "quantifier": "every finite group of integer 3x3 matrices, listed in any order", "why_tests_cant": "infinitely many groups/orderings (conjugates by GL(3,Z)); a test sees finitely many", "anchors": ["src/spgrep/group.py:get_cayley_table"]}
{"id": "C04", "title": "get_identity_index finds the identity", "statement": "For the table of a matrix group get_identity_index never raises and returns the position of the identity matrix, the only index with that property.", "quantifier": "every finite matrix group in every listing order", "why_tests_cant": "position of identity is arbitrary; tests mostly have it first", "anchors": ["src/spgrep/group.py:get_identity_index"]}
{"id": "C05", "title": "get_inverse_index finds the two-sided inverse", "statement": "For the table of a matrix group and every valid idx, get_inverse_index never raises and returns the unique i with rotations[i] @ rotations[idx] == rotations[idx] @ rotations[i] == identity.", "quantifier": "every finite matrix group, every element", "why_tests_cant": "ranges over all groups and elements", "anchors": ["src/spgrep/group.py:get_inverse_index"]}
{"id": "C06", "title": "get_order terminates with the element order", "statement": "For the table of a group, the loop in get_order terminates, and its result is the least m >= 1 with idx^m = identity; it is at most the group order and divides it.", "quantifier": "every group table and every element", "why_tests_cant": "termination and minimality are statements about all tables; on non-group tables the loop can run forever", "anchors": ["src/spgrep/group.py:get_order"]}
{"id": "C07", "title": "is_matrix_group decides 'forms a group'", "statement": "is_matrix_group(rotations) is True iff the listed invertible matrices are distinct and form a group under multiplication. (For singular matrices and for the empty list the docstring's 'iff' fails.)", "quantifier": "every non-empty list of integer matrices with non-zero determinant, with repetition allowed; refutation for singular/empty lists", "why_tests_cant": "needs all lists, in particular non-groups that pass or fail the row check", "anchors": ["src/spgrep/group.py:is_matrix_group"]}
{"id": "C08", "title": "check_cocycle_condition decides the cocycle identity", "statement": "With exact comparison, check_cocycle_condition returns True iff the operations form a group and mu(i,jk)mu(j,k) = mu(ij,k)mu(i,j) for all i,j,k.", "quantifier": "every matrix list and every complex factor table", "why_tests_cant": "cubic quantification over arbitrary factor tables", "anchors": ["src/spgrep/group.py:check_cocycle_condition"]}
{"id": "C09", "title": "get_little_group keeps exactly the k-preserving operations, in order", "statement": "mapping_little_group is the strictly increasing list of all i whose residual R_i^T k - k is within atol of an integer vector, and little_rotations/little_translations are the inputs at those indices.", "quantifier": "every list of operations, every rational k-point and tolerance", "why_tests_cant": "depends on every k-point and every list length", "anchors": ["src/spgrep/group.py:get_little_group"]}
{"id": "C10", "title": "The little co-group is a subgroup and depends on k modulo reciprocal lattice", "statement": "For a matrix group and a k-point with denominator D and atol < 1/D, the kept rotations are exactly the stabiliser of k modulo integers; they contain the identity, are closed under product and inverse; and k and k+G (G integer) give the same mapping. (With a tolerance that is not below 1/D the kept set need not be closed.)", "quantifier": "every matrix group, every rational k, every integer G, every tolerance below 1/D; refutation for larger tolerance", "why_tests_cant": "closure must hold for every k; tolerance failures only appear for adversarial k", "anchors": ["src/spgrep/group.py:get_little_group"]}
{"id": "C11", "title": "The non-symmorphic factor system is a normalised unitary 2-cocycle", "statement": "For the little group of a space group, factor_system[i][j] = exp(-2 pi i (R_i^T k - k).w_j) has modulus one, equals 1 whenever i or j is the identity (w_E = 0), and satisfies the cocycle identity of C08.", "quantifier": "every space group given by rotations+translations closed modulo lattice translations, every k-point stabilised by the rotations", "why_tests_cant": "needs every space group and the continuum of k-points on symmetry lines", "anchors": ["src/spgrep/group.py:get_factor_system_from_little_group"]}
{"id": "C12", "title": "Magnetic coset decomposition is a bijection onto the anti-unitary half", "statement": "For a magnetic space group with at least one ordinary and one anti-unitary operation, decompose_by_maximal_space_subgroup returns xsg_indices = all operations with time reversal 0, a0_idx = first operation with time reversal 1, and time_reversal_indices[i] = the index of xsg[i]*a0 modulo lattice; the two index lists partition all operations. (The documented None for type I is not what happens: it is returned iff all flags are 1.)", "quantifier": "every magnetic space group (any order, any listing)", "why_tests_cant": "the tests use one group; the claim is for every magnetic group and order", "anchors": ["src/spgrep/group.py:decompose_by_maximal_space_subgroup"]}
{"id": "C13", "title": "transform_symmetry_and_kpoint is a change of basis", "statement": "For an invertible P with P^-1 R P integral: composition of operations is preserved, transforming by P then Q equals transforming by PQ, the pairing k.t and the residual R^T k - k paired with t are preserved, so little-group phases are basis independent.", "quantifier": "every invertible rational P, every list of operations, every k", "why_tests_cant": "quantifies over all bases", "anchors": ["src/spgrep/transform.py:transform_symmetry_and_kpoint"]}
{"id": "C14", "title": "The primitive transformation matrices define the primitive cell of the centring", "statement": "For each centring letter (and the hexagonal setting of trigonal groups) the returned matrix P has positive determinant 1/m, where m is the number of lattice points per cell, P^-1 is integral (so integer translations stay integer) and P^-1 maps every centring vector to an integer vector, and the columns of P are sums of integer and centring vectors. The function raises only for unknown centrings/choices or Hall numbers outside 1..530.", "quantifier": "every Hall number and every spglib answer for it", "why_tests_cant": "tests check a few Hall numbers only", "anchors": ["src/spgrep/transform.py:get_primitive_transformation_matrix", "src/spgrep/transform.py:get_centering"]}
{"id": "C15", "title": "get_crystal_system partitions the Hall numbers", "statement": "Every Hall number 1..530 has exactly one crystal system, as listed in the tables, the mapping is monotone, and every other integer raises ValueError.", "quantifier": "all integers", "why_tests_cant": "the error side is infinite", "anchors": ["src/spgrep/transform.py:get_crystal_system"]}
{"id": "C16", "title": "unique_primitive_symmetry returns distinct representatives and a correct mapping", "statement": "The returned rotations are pairwise distinct, cover all input rotations in first-occurrence order, translations are in [0,1) and congruent to the first occurrence; when all first occurrences precede all duplicates, mapping[i] is the position of rotations[i] among the unique ones. (Without that ordering the docstring's mapping claim is false.)", "quantifier": "every list of operations; refutation for interleaved lists", "why_tests_cant": "depends on every possible listing order; spglib happens to list in blocks", "anchors": ["src/spgrep/transform.py:unique_primitive_symmetry"]}
{"id": "C17", "title": "The point-group tables are groups", "statement": "Every tabulated setting of the 32 crystallographic point groups is a list of distinct integer matrices with determinant +-1, identity first, closed under product and inverse, and of the order of that point group.", "quantifier": "all 32 symbols and all tabulated settings", "why_tests_cant": "a finite but complete statement about the whole table, used as a premise for every other input", "anchors": ["src/spgrep/pointgroup.py:pg_dataset"]}
{"id": "C18", "title": "get_generators yields a normal series with cyclic prime steps", "statement": "For every tabulated group, get_generators terminates, and adding the generators from last to first yields an increasing sequence of subgroups, each normal in the next, each step of index equal to the order p of the generator, where p is prime or the smaller subgroup is trivial, ending with the full group.", "quantifier": "all symbols and settings", "why_tests_cant": "the docstring's structural claim (normal series) is never tested", "anchors": ["src/spgrep/pointgroup.py:pg_solvable_chain", "src/spgrep/pointgroup.py:get_generators"]}
{"id": "C19", "title": "get_pointgroup_chain_generators works in any basis and order", "statement": "If spglib returns a symbol and a basis change P such that P^-1 R P lists one tabulated setting in any order, the returned indices into the caller's list generate a normal series of the caller's group as in C18. (If nothing matches, the function returns an empty list instead of raising.)", "quantifier": "every listing order of every GL(3,Q)-conjugate of every tabulated group", "why_tests_cant": "infinitely many conjugates, order! listings", "anchors": ["src/spgrep/pointgroup.py:get_pointgroup_chain_generators"]}
{"id": "C20", "title": "(Projective) regular representation", "statement": "reg[k][i][j] = mu(k,j) if R_k R_j = R_i and 0 otherwise; reg is a projective representation with factor system mu iff mu is a cocycle; it is unitary iff |mu| = 1; its character is order at the identity and 0 elsewhere (normalised mu).", "quantifier": "every matrix group and factor table", "why_tests_cant": "all groups and cocycles", "anchors": ["src/spgrep/representation.py:get_regular_representation", "src/spgrep/representation.py:get_projective_regular_representation"]}
{"id": "C21", "title": "get_intertwiner returns an intertwiner of determinant one", "statement": "For unitary projective representations with the same factor system and every outcome of the random number generator, a successful result M satisfies rep1[g] M = M rep2[g] for all g; if both are irreducible and equivalent, M is invertible, has determinant 1 and is unitary; failure (zero matrix and warning) happens iff all sampled averages vanish within atol, and for inequivalent irreducibles every average vanishes.", "quantifier": "every group, every pair of unitary projective representations, every random stream", "why_tests_cant": "quantifies over random outcomes and all representations", "anchors": ["src/spgrep/representation.py:get_intertwiner"]}
{"id": "C22", "title": "Chain method returns unitary projective representations", "statement": "Every family returned by enumerate_unitary_irreps(method='Neto') satisfies D(g)D(h) = mu(g,h) D(gh) for all g,h and D(g) unitary, for the factor system given by the caller.", "quantifier": "every matrix group conjugate to a tabulated one, every normalised unitary cocycle, every random stream for which no warning is issued", "why_tests_cant": "all groups, all cocycles (a continuum)", "anchors": ["src/spgrep/irreps.py:enumerate_unitary_irreps", "src/spgrep/irreps.py:enumerate_unitary_irreps_from_solvable_group_chain"]}
{"id": "C23", "title": "Chain method returns irreducible, pairwise inequivalent representations", "statement": "No returned family has a proper non-zero invariant subspace, and no two returned families are related by a change of basis; their characters satisfy the orthogonality relations.", "quantifier": "as C22", "why_tests_cant": "irreducibility quantifies over all subspaces; inequivalence over all basis changes", "anchors": ["src/spgrep/irreps.py:enumerate_unitary_irreps_from_solvable_group_chain", "src/spgrep/irreps.py:is_equivalent_irrep"]}
{"id": "C24", "title": "Chain method is complete", "statement": "Every irreducible projective representation with the caller's factor system is equivalent to exactly one returned family, and the squares of the returned dimensions add up to the group order.", "quantifier": "as C22, and every projective irreducible representation", "why_tests_cant": "completeness quantifies over all representations", "anchors": ["src/spgrep/irreps.py:enumerate_unitary_irreps_from_solvable_group_chain"]}
{"id": "C25", "title": "Random method is sound and complete when it does not warn", "statement": "For every outcome of the random numbers and every valid eigendecomposition, if enumerate_unitary_irreps_from_regular_representation returns a non-empty list then its members are unitary projective irreducible representations with the factor system of the regular representation, pairwise inequivalent, and complete.", "quantifier": "every group, cocycle, random stream and every choice of eigenvectors", "why_tests_cant": "random streams and eigenvector choices", "anchors": ["src/spgrep/irreps.py:enumerate_unitary_irreps_from_regular_representation", "src/spgrep/irreps.py:_get_irreps_from_matrix"]}
{"id": "C26", "title": "The O(n^3) averaging equals the documented einsum and commutes with the regular representation", "statement": "The gather-based sum used for the regular representation equals sum_m reg[m] H reg[m]^dagger for every H, is Hermitian, and commutes with every reg[g].", "quantifier": "every group, unitary cocycle and Hermitian matrix", "why_tests_cant": "identity over all inputs of an optimisation whose reference implementation is only in a comment", "anchors": ["src/spgrep/irreps.py:enumerate_unitary_irreps_from_regular_representation", "src/spgrep/irreps.py:decompose_representation"]}
{"id": "C27", "title": "Small representations obey the space-group multiplication law", "statement": "For get_spacegroup_irreps_from_primitive_symmetry every returned family satisfies Gamma(R_i,w_i) Gamma(R_j,w_j) = exp(-2 pi i k.(R_i w_j + w_i - w_ij)) Gamma(R_ij,w_ij) (the convention Gamma(E,t) = exp(-2 pi i k.t) 1), is unitary, irreducible, the families are pairwise inequivalent and complete (sum of squared dimensions = little co-group order).", "quantifier": "every space group in a primitive cell, every rational k-point", "why_tests_cant": "continuum of k, all space groups", "anchors": ["src/spgrep/core.py:get_spacegroup_irreps_from_primitive_symmetry", "src/spgrep/irreps.py:enumerate_small_representations"]}
{"id": "C28", "title": "Going back to the conventional cell keeps the law", "statement": "The families returned for the conventional operations satisfy the multiplication law of C27 in the primitive coordinates for all listed operations (centring translations included), the mapping lists exactly the operations whose rotation fixes k, when operations are listed in centring blocks. (For other listing orders operations are lost.)", "quantifier": "every space group, centring and k; refutation for interleaved listing order", "why_tests_cant": "all space groups and k-points; listing order decided by spglib", "anchors": ["src/spgrep/core.py:_adjust_phase_for_centering_translations", "src/spgrep/core.py:get_spacegroup_irreps"]}
{"id": "C29", "title": "Frobenius-Schur indicator is -1, 0 or 1 and means what it says", "statement": "For every unitary irreducible projective representation with real factor system frobenius_schur_indicator returns 1, -1 or 0 according to whether it is equivalent to its conjugate by a symmetric, an antisymmetric, or no intertwiner; the ValueError branch is unreachable. (For complex factor systems, i.e. general k, the number is not an indicator.)", "quantifier": "every irreducible projective representation with factor system +-1", "why_tests_cant": "quantifies over all irreps", "anchors": ["src/spgrep/representation.py:frobenius_schur_indicator"]}
{"id": "C30", "title": "Real 2d-dimensional form is a real orthogonal representation", "statement": "For indicator 0 or -1 get_physically_irrep returns real matrices [[Re,Im],[-Im,Re]] that multiply as the input does (with each complex factor acting as the 2x2 rotation), are orthogonal, and are similar over C to D + conj(D).", "quantifier": "every unitary projective representation", "why_tests_cant": "all representations", "anchors": ["src/spgrep/irreps.py:get_physically_irrep"]}
{"id": "C31", "title": "Real d-dimensional form for indicator 1", "statement": "For indicator 1 the returned matrices should be a real representation equivalent to the input. Holds when the eigenvector matrix used is symmetric or commutes appropriately; false for a valid eigendecomposition in general because the transformation S^T sqrt(Omega) S is used with column eigenvectors.", "quantifier": "every real-type irreducible representation and every valid eigendecomposition; refutation with a concrete rotated two-dimensional irrep", "why_tests_cant": "depends on eigenvector sign conventions that tests do not vary", "anchors": ["src/spgrep/irreps.py:get_physically_irrep"]}
{"id": "C32", "title": "Conjugate pairing uses every irrep exactly once", "statement": "In real mode every complex irrep index occurs exactly once in the list of conjugated pairs, (i,j) with i<j occurs iff the conjugate of i is equivalent to j, so the physically irreducible representations cover each complex irrep once. (At k-points with 2k not equivalent to 0 pairing drops inequivalent physically irreducible representations.)", "quantifier": "every finite list of pairwise inequivalent characters; refutation at 2k != 0", "why_tests_cant": "all lists of irreps", "anchors": ["src/spgrep/irreps.py:enumerate_unitary_irreps", "src/spgrep/irreps.py:enumerate_small_representations"]}
{"id": "C33", "title": "Spinor rotations are an SU(2) lift", "statement": "For every rotation of a crystallographic lattice get_spinor_unitary_rotation returns a matrix in SU(2) whose adjoint action on the Pauli vector is the proper part of the Cartesian rotation; the identity and the inversion map to the 2x2 identity.", "quantifier": "every lattice, every integer rotation orthogonal for it, every valid eigenvector choice", "why_tests_cant": "continuum of lattices", "anchors": ["src/spgrep/spinor.py:get_spinor_unitary_rotation", "src/spgrep/spinor.py:get_rotation_angle_and_axis"]}
{"id": "C34", "title": "The spinor factor system is a normalised +-1 cocycle", "statement": "get_spinor_factor_system finds a multiplier for every pair: z(i,j) in {-1,+1} with U_i U_j = z(i,j) U_k; z(E,.) = z(.,E) = 1; z is a 2-cocycle; entries are never left at 0.", "quantifier": "every lattice and every matrix group preserving its metric", "why_tests_cant": "all lattices/groups", "anchors": ["src/spgrep/spinor.py:get_spinor_factor_system"]}
{"id": "C35", "title": "Spinor irreps obey the documented law", "statement": "get_spacegroup_spinor_irreps_from_primitive_symmetry without time reversal returns families with Gamma_i Gamma_j = z(i,j) exp(-2 pi i k.(R_i w_j + w_i - w_ij)) Gamma_ij, unitary, irreducible, pairwise inequivalent, complete.", "quantifier": "every lattice, space group and k", "why_tests_cant": "as C27 and C33", "anchors": ["src/spgrep/spinor.py:enumerate_spinor_small_representations", "src/spgrep/core.py:get_spacegroup_spinor_irreps_from_primitive_symmetry"]}
{"id": "C36", "title": "Co-representation factor system", "statement": "get_corep_spinor_factor_system assigns to every pair a sign omega(i,j) in {-1,1} with U_i U_j = omega U_k (i linear) or U_i conj(U_j) = omega U_k (i anti-linear); anti_linear equals the time reversal flags; omega is a cocycle; pure time reversal squares to -1.", "quantifier": "every lattice and magnetic point group preserving its metric", "why_tests_cant": "all magnetic groups and lattices", "anchors": ["src/spgrep/corep.py:get_corep_spinor_factor_system"]}
{"id": "C37", "title": "Co-representation matrices obey the co-representation law", "statement": "The documented law Gamma(a) conj(Gamma(g)) = omega(a,g) Gamma(ag) for anti-linear a. Holds on the unitary half and whenever the irreps are real; false in general because D(a0 u) is built without conjugating D(u).", "quantifier": "every magnetic group; positive theorem for the linear half, refutation for the anti-linear half", "why_tests_cant": "no test checks the law", "anchors": ["src/spgrep/corep.py:enumerate_spinor_small_corepresentations"]}
{"id": "C38", "title": "Projected basis vectors transform as the irrep", "statement": "Every basis block computed by project_to_irrep satisfies rep[g] b_i = sum_l b_l irrep[g][l][i]; its rows are orthonormal; the number of independent blocks is the multiplicity given by characters.", "quantifier": "every unitary representation and unitary irrep with the same factor system", "why_tests_cant": "all representations", "anchors": ["src/spgrep/representation.py:project_to_irrep"]}
{"id": "C39", "title": "Direct product", "statement": "get_direct_product of representations with factor systems mu1, mu2 is a representation with factor system mu1*mu2, its character is the product of the characters, unitary if both are; inconsistent orders raise ValueError.", "quantifier": "all representations and dimensions", "why_tests_cant": "all dimensions", "anchors": ["src/spgrep/representation.py:get_direct_product"]}
{"id": "C40", "title": "mode_dot equals the documented contraction", "statement": "mode_dot(coeffs,[m1..mp])[a1..ap] = sum_{i1..ip} coeffs[i1..ip] m1[i1,a1]...mp[ip,ap].", "quantifier": "every rank and all shapes", "why_tests_cant": "all ranks/shapes", "anchors": ["src/spgrep/utils.py:mode_dot"]}
{"id": "C41", "title": "Symmetry-adapted tensors are invariant", "statement": "Every tensor returned by get_symmetry_adapted_tensors is invariant under the simultaneous action of rep[g] on all its indices, for every g.", "quantifier": "every unitary representation of every group and every rank", "why_tests_cant": "all ranks and representations", "anchors": ["src/spgrep/tensor.py:get_symmetry_adapted_tensors"]}
{"id": "C42", "title": "Intrinsic symmetrisation", "statement": "Every tensor returned by apply_intrinsic_symmetry is invariant under all index permutations, has unit norm, and is again invariant under rep if the input is.", "quantifier": "every rank, every tensor list", "why_tests_cant": "all ranks", "anchors": ["src/spgrep/tensor.py:apply_intrinsic_symmetry"]}
{"id": "C43", "title": "Number utilities", "statement": "is_prime(n) is True iff n is prime for n >= 2 (and wrongly True for n <= 1); nroot(z,n)^n = z with argument in [-pi/n, pi/n]; is_integer_array and ndarray2d_to_integer_tuple agree with exact rounding on integral arrays.", "quantifier": "all integers n, all complex z", "why_tests_cant": "infinite domains", "anchors": ["src/spgrep/utils.py:is_prime", "src/spgrep/utils.py:nroot", "src/spgrep/utils.py:ndarray2d_to_integer_tuple"]}
{"id": "C44", "title": "Purification moves values by less than atol and is idempotent", "statement": "purify_irrep_value changes every entry by less than atol when atol is at most half the least distance between the special values; entries that are special values are unchanged; applying it twice equals applying it once; entries at distance >= atol are untouched.", "quantifier": "every array and every tolerance", "why_tests_cant": "all arrays", "anchors": ["src/spgrep/irreps.py:purify_irrep_value", "src/spgrep/irreps.py:purify_real_irrep_value"]}
{"id": "C45", "title": "The checkers decide what they claim", "statement": "With exact comparison is_unitary, is_representation and check_spacegroup_representation return True iff the respective law holds for all elements/pairs.", "quantifier": "every array, table and factor system", "why_tests_cant": "negative side ranges over all non-representations", "anchors": ["src/spgrep/representation.py:is_unitary", "src/spgrep/representation.py:is_representation", "src/spgrep/representation.py:check_spacegroup_representation"]}
{"id": "C46", "title": "Tolerance search stays in its bracket and stops", "statement": "The tolerance used by project_to_irrep in any trial lies in [1e-10,1e-2], at most max_num_trials trials are made, and if a trial finds the expected number of basis blocks that trial's result is returned.", "quantifier": "every starting tolerance, every sequence of trial outcomes", "why_tests_cant": "all sequences of outcomes", "anchors": ["src/spgrep/representation.py:project_to_irrep"]}
{"id": "C47", "title": "Primitive-cell sanity check", "statement": "get_spacegroup_irreps_from_primitive_symmetry raises ValueError if some operation has identity rotation and a translation that is not within atol of zero; if there is none and atol < 1, every identity rotation has translation zero, and a ValueError can then only come from the indicator check (C27, C51).", "quantifier": "every list of operations", "why_tests_cant": "all lists", "anchors": ["src/spgrep/core.py:get_spacegroup_irreps_from_primitive_symmetry"]}
{"id": "C48", "title": "k-point conversion", "statement": "kpoint_conv = kpoint @ reciprocal_lattice @ inv(dual_lattice) is the unique vector with kpoint_conv @ dual_lattice == kpoint @ reciprocal_lattice, equal to kpoint when no reciprocal lattice is given; phases k.t computed with it equal the Cartesian ones; the primitive lattice to_primitive.T @ lattice has the transformed k-point as the same Cartesian vector.", "quantifier": "every invertible lattice and reciprocal lattice", "why_tests_cant": "continuum of lattices", "anchors": ["src/spgrep/core.py:get_spacegroup_irreps", "src/spgrep/core.py:get_spacegroup_spinor_irreps"]}
{"id": "C49", "title": "Magnetic conventional-cell path must keep anti-unitary operations", "statement": "Operations (R,0) and (R,1) are different; after reduction to the primitive cell both must survive with their flags. False: unique_primitive_symmetry ignores the flag and time_reversals[mapping] has the conventional length.", "quantifier": "every magnetic space group of type II or IV; refutation", "why_tests_cant": "tests do not cover the path", "anchors": ["src/spgrep/core.py:get_spacegroup_spinor_irreps", "src/spgrep/transform.py:unique_primitive_symmetry"]}
{"id": "C50", "title": "Grassmann distance bounds", "statement": "With orthonormal bases grassmann_distance(ord='min') lies in [0,1], is 0 iff the smallest canonical correlation is 1 (the smaller space is contained in the larger) and 1 iff it is 0; unknown ord raises ValueError. ord='projection' returns the root mean square of the principal angles between the spaces.", "quantifier": "all subspaces", "why_tests_cant": "all subspaces", "anchors": ["src/spgrep/utils.py:grassmann_distance"]}
{"id": "C51", "title": "Frobenius-Schur indicator check must not reject valid projective input", "statement": "enumerate_unitary_irreps computes frobenius_schur_indicator for every irrep, also with real=False. For real factor systems the value is -1, 0 or 1 and the check passes; for a complex factor system the value can be outside {-1,0,1} and the call raises ValueError although the irreps are correct (claim that every valid little group gets its irreps is false).", "quantifier": "every group, factor system and irrep; refutation for complex factor systems", "why_tests_cant": "needs an unusual origin choice of the space group", "anchors": ["src/spgrep/irreps.py:enumerate_unitary_irreps", "src/spgrep/representation.py:frobenius_schur_indicator"]}
{"id": "C52", "title": "decompose_representation", "statement": "A list returned without warning consists of the irreducible constituents of the given representation, unitary, pairwise inequivalent, each with multiplicity one, and the characters add up. If some constituent has multiplicity two or more the result is always the empty list with a warning (so the docstring 'decompose into all unitary irreps' is false).", "quantifier": "every unitary projective representation, every random draw and tolerance", "why_tests_cant": "all representations and all random draws", "anchors": ["src/spgrep/irreps.py:decompose_representation", "src/spgrep/irreps.py:_get_irreps_from_matrix"]}
{"id": "C53", "title": "Spinor data of centred structures", "statement": "get_spacegroup_spinor_irreps returns little_spinor_factor_system of shape (little_group_order, little_group_order) and little_unitary_rotations of shape (little_group_order, 2, 2), indexed like the returned irreps and mapping_little_group. False for centred structures: the two arrays are those of the primitive cell, the irreps and the mapping those of the conventional cell.", "quantifier": "every structure with a centred conventional cell; refutation", "why_tests_cant": "tests only check primitive structures", "anchors": ["src/spgrep/core.py:get_spacegroup_spinor_irreps"]}
{"id": "C54", "title": "Magnetic little group must use the action of time reversal on k", "statement": "An anti-unitary operation maps Bloch states at k to -R k, so it belongs to the little group when -R k = k modulo the reciprocal lattice. False: get_spacegroup_spinor_irreps_from_primitive_symmetry calls get_little_group with the rotations only, so anti-unitary operations with R k = k are kept and those with -R k = k are lost, except when 2k is a reciprocal lattice vector.", "quantifier": "every magnetic operation list, k-point with denominator D, atol < 1/D, oracles; positive theorem for 2k = 0, refutation otherwise", "why_tests_cant": "tests only use k = 0 or time-reversal-invariant points", "anchors": ["src/spgrep/core.py:get_spacegroup_spinor_irreps_from_primitive_symmetry", "src/spgrep/group.py:get_little_group"]}
{"id": "C55", "title": "Dimensions of the returned irreps", "statement": "The dimension of every irreducible projective representation of a group with a chain of normal subgroups divides the order of the group. The irreps of a crystallographic point group have dimension 1, 2 or 3 (3 is attained), its spinor irreps at most 4, and the small representations of a space group at any k-point have dimension 1, 2, 3, 4 or 6.", "quantifier": "every finite group with a chain as the code uses, every factor system, every irreducible representation; every list of rotations that spglib identifies with a tabulated setting, every k-point fixed by it, every tolerance up to 1/3, every oracle", "why_tests_cant": "tests look at the dimensions for a few groups and k-points; the bound holds for all irreps of all factor systems", "anchors": ["src/spgrep/irreps.py:enumerate_unitary_irreps_from_solvable_group_chain", "src/spgrep/core.py:get_crystallographic_pointgroup_irreps_from_symmetry", "src/spgrep/irreps.py:enumerate_small_representations"]}
{"id": "C56", "title": "Two descriptions of the same problem give the same irreps", "statement": "When enumerate_small_representations returns, its irreps are determined up to order and equivalence: they do not depend on the method or the random numbers; translating k by a reciprocal lattice vector, moving the origin, changing the basis (or going to another arm of the star) changes nothing; a different choice of the translations modulo the lattice multiplies the matrices by exp(-2 pi i k.t); the opposite k-point gives the complex conjugates; listing the operations in another order renumbers the matrices. Whether the call returns at all does depend on the origin (refuted).", "quantifier": "every little group, every k-point it fixes, both methods, every random sequence, every tolerance up to 1/3, every pair of calls related as stated", "why_tests_cant": "a test compares a few pairs of runs on a few groups; the agreement is over all pairs of successful runs", "anchors": ["src/spgrep/irreps.py:enumerate_small_representations", "src/spgrep/irreps.py:enumerate_unitary_irreps", "src/spgrep/group.py:get_factor_system_from_little_group"]}
{"id": "C57", "title": "The character table is square: as many irreps as classes", "statement": "For every complete list of projective irreps the columns of the character table satisfy sum_k chi_k(i) conj chi_k(j) = sum over x with x i = j x of mu(x,i) conj mu(j,x). An element has a non-zero character exactly when mu(x,i) = mu(i,x) for all x commuting with it, and the number of irreps is the number of conjugacy classes of such elements. So the lists returned by the point group functions have one irrep per conjugacy class, their characters coincide exactly on conjugate operations, and the number of small representations at k is the number of classes of operations with k.t integral for every commutator translation t.", "quantifier": "every finite group, every factor system, every complete list of irreps; every returning call of the point group, small representation and spinor point group functions, both methods, every random sequence, every tolerance up to 1/3", "why_tests_cant": "a test counts the irreps of a few tabulated groups; the count is for all groups, k-points and factor systems", "anchors": ["src/spgrep/irreps.py:enumerate_small_representations", "src/spgrep/core.py:get_crystallographic_pointgroup_irreps_from_symmetry", "src/spgrep/representation.py:get_character"]}
{"id": "C58", "title": "Textbook dimensions of the irreps of the 32 point groups", "statement": "When the point group functions return, the list of dimensions of the returned irreps is, up to order, the one in the textbook character tables for the Hermann-Mauguin symbol of the group: the single-valued irreps for get_crystallographic_pointgroup_irreps_from_symmetry, the double-valued ones for the spinor function. The small representations at k have the single-valued dimensions of the little co-group whenever k.t is a coboundary modulo 1, in particular at every k-point of a symmorphic group and at every k-point left exactly fixed by its little group.", "quantifier": "all 32 point groups in every basis and every order of the operations, both methods, every random sequence, every tolerance up to 1/3, every k-point, every lattice preserved by the rotations (spinors)", "why_tests_cant": "a test sees one setting of one group with one seed; the claim is for every integral basis, order of operations, k-point and random sequence", "anchors": ["src/spgrep/core.py:get_crystallographic_pointgroup_irreps_from_symmetry", "src/spgrep/core.py:get_crystallographic_pointgroup_spinor_irreps_from_symmetry", "src/spgrep/irreps.py:enumerate_small_representations"]}
{"id": "C59", "title": "Irreps exist for every factor system, and the random method finds them for an open set of draws", "statement": "Every finite group with every factor system has a full list of irreducible unitary representations. For every group and factor system there is a matrix X0 with real and imaginary parts of all entries between 1/4 and 3/4 such that, whatever eigenvectors NumPy returns, enumerate_unitary_irreps_from_regular_representation succeeds as soon as one of its draws lies within 1/(32 n^2) of X0 entrywise. Hence the set of draws in the unit square on which the random method succeeds has non-empty interior, and the point-group and symmorphic small-representation functions return with method='random' for such draws. Likewise decompose_representation succeeds on every multiplicity-free unitary representation of dimension N > 0 for all draws within 1/(32 N^4) of some X0 in the same square.", "quantifier": "every finite group, every factor system, every order of the operations, every eigensolver and QR routine meeting its specification, every tolerance rtol with 1e-8 + rtol (n^2+n) < 1/4 (the default 1e-5 qualifies for all n <= 48)", "why_tests_cant": "a test draws finitely many random matrices for finitely many groups; the claim is about an open set of draws for every group and factor system", "anchors": ["src/spgrep/irreps.py:enumerate_unitary_irreps_from_regular_representation", "src/spgrep/irreps.py:_get_irreps_from_matrix", "src/spgrep/irreps.py:enumerate_unitary_irreps", "src/spgrep/core.py:get_crystallographic_pointgroup_irreps_from_symmetry", "src/spgrep/irreps.py:decompose_representation"]}
{"id": "C60", "title": "Lattice comparisons are exact in binary64 arithmetic", "statement": "Executed in IEEE binary64 with every operation rounded, get_little_group, the test for 2k in the reciprocal lattice, decompose_by_maximal_space_subgroup and the integer rotations of transform_symmetry_and_kpoint give the answer of exact rational arithmetic: the float k-point (within 1e-12 of a rational one with denominator up to 1e7 and coordinates up to 1000), float translations and float basis matrix lead to exactly the same little group, coset pairing and integer rotations as the exact data, whichever order of summation or fused multiply-add the BLAS library uses.  np.remainder(t, 1), used to reduce translations, does not stay below 1 in binary64 (refuted).", "quantifier": "every list of rotations with entries up to 100, every k-point and translation within the stated bounds, every float input within the stated distance, three evaluation orders of a product, every inverse correct to ten digits", "why_tests_cant": "tests compare a few k-points such as 1/3; rounding errors depend on every input bit and on the BLAS library, so only an error analysis covers all of them", "anchors": ["src/spgrep/group.py:get_little_group", "src/spgrep/group.py:decompose_by_maximal_space_subgroup", "src/spgrep/irreps.py:enumerate_small_representations", "src/spgrep/transform.py:transform_symmetry_and_kpoint", "src/spgrep/transform.py:unique_primitive_symmetry"]}
{"id": "C61", "title": "Equivalence, irreducibility and the checkers tolerate numerical errors", "statement": "If computed matrices differ entrywise by at most eps from exact unitary (projective) representations and n d1 d2 (2 eps + eps^2) < 1/2, then is_equivalent_irrep, which rounds a sum of computed characters, answers exactly whether the two exact irreps are equivalent, and the self-test of the random method accepts exactly the irreducible ones.  is_unitary and is_representation, with np.allclose, accept every array within eps of a unitary representation when atol >= d (2 eps + eps^2) + eps.  The irreps returned by enumerate_small_representations, purification included, are judged pairwise inequivalent and pass both checkers.", "quantifier": "every finite group, factor system, pair of unitary representations of any dimensions, every perturbation within eps, every k-point and space group for the last part", "why_tests_cant": "a test sees the rounding errors of one machine; the claim is about every perturbation within the bound and every group order and dimension", "anchors": ["src/spgrep/irreps.py:is_equivalent_irrep", "src/spgrep/irreps.py:enumerate_unitary_irreps_from_regular_representation", "src/spgrep/representation.py:is_unitary", "src/spgrep/representation.py:is_representation", "src/spgrep/irreps.py:purify_irrep_value"]}
{"id": "C62", "title": "Every pair of conjugate irreps yields exactly one co-representation", "statement": "get_magnetic_pointgroup_spinor_irreps_from_symmetry (enumerate_spinor_small_corepresentations without translations) builds its m-th co-representation from an irreducible representation of the unitary half, whose matrices stand in the upper left block, and whose kind is the returned indicator.  Every irreducible representation of the unitary half, with the spinor factor system, is equivalent to that one or to its conjugate by the first time-reversal operation for exactly one m: no pair of conjugate irreps is left out and none is used twice.", "quantifier": "every lattice, every finite list of rotations and time reversals forming a magnetic group with at least one time reversal, both methods, every numpy oracle within its specification, every atol with n^2 atol < 1/2", "why_tests_cant": "tests count co-representations of a few groups; a loop which forgets to mark the conjugate partner as visited returns correct co-representations twice only for groups with complex pairs", "anchors": ["src/spgrep/corep.py:enumerate_spinor_small_corepresentations", "src/spgrep/core.py:get_magnetic_pointgroup_spinor_irreps_from_symmetry"]}
{"id": "C63", "title": "Only reported failures for co-representations of magnetic point groups", "statement": "get_magnetic_pointgroup_spinor_irreps_from_symmetry never raises AssertionError, KeyError, TypeError or ValueError on a magnetic group: it either ends with the warning of the irreps of the unitary half, or returns a flagged result in which the random method found nothing or an intertwiner was missed, or returns an unflagged result.  A missed intertwiner means that every drawn matrix is orthogonal, up to a stated multiple of atol, to one and the same unitary matrix of the right dimension; with the deterministic method and draws without this accident the call succeeds without warning.", "quantifier": "every lattice, every finite list of rotations and time reversals forming a magnetic group with at least one time reversal, both methods, every numpy oracle within its specification, every atol with n^2 atol < 1/2, every sequence of draws", "why_tests_cant": "tests run a few groups with one seed; the claim covers every group and every sequence of draws, and says for exactly which draws the search can fail", "anchors": ["src/spgrep/corep.py:enumerate_spinor_small_corepresentations", "src/spgrep/core.py:get_magnetic_pointgroup_spinor_irreps_from_symmetry", "src/spgrep/representation.py:get_intertwiner"]}
{"id": "C64", "title": "The returned co-representations are the irreducible ones", "statement": "In exact arithmetic, every array of matrices returned by get_magnetic_pointgroup_spinor_irreps_from_symmetry that obeys the co-representation law is irreducible (no proper column space is invariant under the linear and anti-linear operators), and every irreducible co-representation with the same factor system, unitary or not, is equivalent to exactly one of the returned arrays.  At any admissible tolerance the dimensions obey the sum rule: d^2, d^2/2 and d^2/4 for indicators 1, 0 and -1 add up to the order of the unitary half.", "quantifier": "every lattice, every finite list of rotations and time reversals forming a magnetic group with at least one time reversal, both methods, every numpy oracle within its specification; every co-representation of every dimension for the completeness part", "why_tests_cant": "tests check matrices of a few groups; irreducibility and completeness speak about all subspaces and about all co-representations of every dimension", "anchors": ["src/spgrep/corep.py:enumerate_spinor_small_corepresentations", "src/spgrep/core.py:get_magnetic_pointgroup_spinor_irreps_from_symmetry"]}
{"id": "C65", "title": "Small co-representations of magnetic little groups", "statement": "At a k-point fixed by the rotations where 2k and 2k.w are integral for every translation w (as at the zone centre), the matrices returned by enumerate_spinor_small_corepresentations belong to the factor system of the small co-representations at k (spin factor times exp(-2 pi i k.t) for the lattice translation t left over by a product): unitary half, indicators, one co-representation per pair of conjugate irreps, irreducibility and completeness in exact arithmetic, sum rule, and only reported failures.  get_spacegroup_spinor_irreps_from_primitive_symmetry hands it exactly the operations that fix k.  Where 2k.w is not integral the result can be wrong: for a two-fold screw axis with time reversal and exp(-2 pi i k.t) = -1 the code returns one-dimensional matrices with indicator 1 although every co-representation has an even dimension.", "quantifier": "every lattice, every finite list of operations forming a magnetic group modulo lattice translations with at least one time reversal, every k and translations as stated, both methods, every numpy oracle within its specification; every two-fold rotation, translation and k for the refutation", "why_tests_cant": "the test-suite checks co-representations of magnetic point groups only, where the translation part of the factor system is 1; whether the law is right depends on k and the translations together", "anchors": ["src/spgrep/corep.py:enumerate_spinor_small_corepresentations", "src/spgrep/core.py:get_spacegroup_spinor_irreps_from_primitive_symmetry", "src/spgrep/group.py:get_factor_system_from_little_group"]}
{"id": "C66", "title": "How many small representations a call for a space group returns", "statement": "A successful call of get_spacegroup_irreps_from_primitive_symmetry or get_spacegroup_irreps (complex mode) returns, for the operations that fix k modulo the reciprocal lattice, representations whose squared dimensions add up to the number of these operations, whose dimensions are 1, 2, 3, 4 or 6, and whose number is the number of classes of operations that are regular at k; where k is fixed exactly or all translations vanish the dimensions are the tabulated ones of the point group of k, and at k = 0 those of the point group of the crystal, with mapping 0, 1, ..., n-1.", "quantifier": "every finite list of operations forming a space group modulo its lattice translations (centred, with arbitrary basis, for the conventional cell), every rational k, both methods, every tolerance small enough for the denominator of k, every numpy oracle within its specification", "why_tests_cant": "the tests compare counts for a handful of space groups and k-points; the statement is about every group in every setting", "anchors": ["src/spgrep/core.py:get_spacegroup_irreps_from_primitive_symmetry", "src/spgrep/core.py:get_spacegroup_irreps"]}
{"id": "C67", "title": "How many spinor representations a call for a space group returns", "statement": "A successful call of get_spacegroup_spinor_irreps_from_primitive_symmetry or get_spacegroup_spinor_irreps without time reversal returns, for the operations that fix k, representations whose squared dimensions add up to the number of these operations, whose dimensions are 1, 2, 3, 4 or 6, and whose number is the number of classes regular for the product of the returned signs and the translation factor at k; where k is fixed exactly or all translations vanish the dimensions are the tabulated ones of the double-valued representations of the point group of k.  At k = 0 the mapping is 0, 1, ..., n-1 and the call fails only by an unlucky random draw.", "quantifier": "every lattice preserved by the operations, every finite list of operations forming a space group modulo its lattice translations, every rational k, both methods, every tolerance small enough for the denominator of k, every numpy oracle within its specification", "why_tests_cant": "the tests compare a handful of crystals at special k-points; the statement is about every group, lattice and k", "anchors": ["src/spgrep/core.py:get_spacegroup_spinor_irreps_from_primitive_symmetry", "src/spgrep/core.py:get_spacegroup_spinor_irreps"]}
{"id": "C68", "title": "Counting with the Frobenius-Schur indicators", "statement": "When enumerate_unitary_irreps returns for a group of rotations with a real factor system mu, the indicators times the dimensions add up to the sum of mu(i, i) over the rotations i whose square is the identity; for the trivial factor system this is the number of such rotations, and the number of irreps with indicator different from 0 is the number of conjugacy classes that contain the inverses of their elements.  In real mode get_crystallographic_pointgroup_irreps_from_symmetry returns half as many representations as there are classes and classes closed under inversion together.", "quantifier": "every finite group of integer matrices, every real factor system, both methods, every small tolerance, every numpy oracle within its specification", "why_tests_cant": "the tests check the indicators of a few groups; the rule holds for every group and factor system and is not a property of one output", "anchors": ["src/spgrep/irreps.py:enumerate_unitary_irreps", "src/spgrep/irreps.py:get_physically_irrep", "src/spgrep/representation.py:frobenius_schur_indicator"]}
{"id": "C69", "title": "The physically irreducible representations of the 32 point groups", "statement": "No irrep that enumerate_unitary_irreps returns for a crystallographic point group has indicator -1, and every irrep with indicator 0 is one-dimensional.  In real mode get_crystallographic_pointgroup_irreps_from_symmetry returns representations with the tabulated dimensions of the irreps over the real numbers, and with bounded random draws the real mode of enumerate_unitary_irreps fails only by an unlucky draw.", "quantifier": "each of the 32 point groups in every basis, order of the operations and setting; both methods; every small tolerance; every numpy and spglib oracle within its specification", "why_tests_cant": "the tests run real mode on single groups in one basis with one random seed", "anchors": ["src/spgrep/core.py:get_crystallographic_pointgroup_irreps_from_symmetry", "src/spgrep/irreps.py:enumerate_unitary_irreps", "src/spgrep/irreps.py:get_physically_irrep"]}
{"id": "C70", "title": "Kramers degeneracy of the returned co-representations", "statement": "If a magnetic point group contains time reversal or its product with the inversion, every co-representation that get_crystallographic_pointgroup_spinor_irreps_from_symmetry with time reversals returns has even dimension; the same holds for enumerate_spinor_small_corepresentations in the magnetic little groups of k-points where 2k and 2k.w are integral.", "quantifier": "every finite magnetic point group with such an operation, every order of the operations, both methods, every small tolerance, every numpy and spglib oracle within its specification", "why_tests_cant": "the tests check the dimensions of single groups, in which time reversal happens to be a fixed operation of the list; the theorem holds although the code builds the co-representation from whatever anti-linear operation comes first", "anchors": ["src/spgrep/corep.py:enumerate_spinor_small_corepresentations", "src/spgrep/corep.py:get_corep_spinor_factor_system", "src/spgrep/core.py:get_crystallographic_pointgroup_spinor_irreps_from_symmetry"]}
{"id": "C71", "title": "How many symmetry-adapted tensors are returned", "statement": "get_symmetry_adapted_tensors returns at most as many tensors as the average over the group of the rank-th power of the character of rep, and exactly so many when rep has dimension at most three.  For the rotations in Cartesian coordinates the number depends on the integer matrices only, and for ranks one to four it is the textbook number of independent components for each of the 32 point groups.", "quantifier": "every finite group of integer matrices, every unitary representation, every rank; the table for each point group in every basis, order and setting; exact arithmetic and every oracle within its specification", "why_tests_cant": "the tests look at a few tensors of a few groups; the count is over all groups, ranks and bases", "anchors": ["src/spgrep/tensor.py:get_symmetry_adapted_tensors"]}
{"id": "C72", "title": "The irreps are listed in the documented order, the identity representation first", "statement": "Both random functions return their irreps in order of dimension and, for equal dimension, of decreasing sum of the characters.  With either method the first irrep returned for a point group is the identity representation, and so is the first small representation at k = 0, or at any k when no operation has a translation; at k = 0 also for the operations of a conventional cell.", "quantifier": "every list of matrices and every answer of the numerical oracles for the order; every group of integer matrices, space group, tolerance up to 1/3 and random sequence for the first irrep", "why_tests_cant": "the tests look at the order for a few groups and seeds; the order must not depend on the random matrix, the basis or the order of the operations", "anchors": ["src/spgrep/irreps.py:enumerate_unitary_irreps_from_regular_representation", "src/spgrep/irreps.py:decompose_representation", "src/spgrep/irreps.py:enumerate_unitary_irreps_from_solvable_group_chain", "src/spgrep/core.py:get_spacegroup_irreps", "src/spgrep/core.py:get_spacegroup_irreps_from_primitive_symmetry", "src/spgrep/core.py:get_crystallographic_pointgroup_irreps_from_symmetry"]}
{"id": "C73", "title": "Reduction of products of irreps and selection rules", "statement": "Projecting a unitary representation with project_to_irrep onto every irrep of a full list gives, if no irrep occurs more than three times, as many blocks as the characters say; blocks of different irreps are orthogonal and all blocks together are a basis of the space.  This applies to get_direct_product of two irreps, one of them of dimension at most three.  The identity representation is found in a product exactly once if the second irrep is equivalent to the complex conjugate of the first, and otherwise not.", "quantifier": "every finite group, all factor systems, unitary representations and full lists of irreps, every tolerance between 1e-10 and 1e-2 that is small against the dimension, every numerical oracle within its specification", "why_tests_cant": "the tests project a few representations; that the blocks of all irreps together exhaust the space is a statement about every representation", "anchors": ["src/spgrep/representation.py:get_direct_product", "src/spgrep/representation.py:project_to_irrep"]}
{"id": "C74", "title": "Magnetic groups in the conventional cell with the primitive operations first", "statement": "Let the first operations given to get_spacegroup_spinor_irreps with magnetic moments have different rotations and let every rotation be among theirs.  Then the result is that of the primitive cell for these operations with their own time-reversal flags: the returned operations are all those whose rotation occurs in the primitive little group, and their matrices are the primitive ones times the Bloch phase of the difference of the translations.  If operations with the same rotation have the same flag (types I and III), the flag returned for the primitive operation is that of every returned operation with its rotation.  anti_linear is returned for the primitive little group: with one centring translation it has half the documented length (refutes the docstring of core.py:268-460).  The returned operations are those whose rotation fixes the k-point whether or not they reverse time, which is the magnetic little group at a time-reversal-invariant point.", "quantifier": "all lists of operations of that form, flags, k-points, lattices, settings and oracles, every successful call", "why_tests_cant": "the tests have no centred magnetic cell; the mapping of the operations is built by position and goes wrong in other orders (C49)", "anchors": ["src/spgrep/core.py:get_spacegroup_spinor_irreps", "src/spgrep/core.py:_adjust_phase_for_centering_translations", "src/spgrep/transform.py:unique_primitive_symmetry"]}
