{
 "C06": {
  "note": "Also shows that the loop diverges on a table that is not a group table."
 },
 "C07": {
  "note": "Proved for invertible matrices; the docstring's unrestricted 'iff' is refuted by two witnesses (singular matrices, empty list)."
 },
 "C10": {
  "note": "Proved when the tolerance is below 1/denominator; refuted for larger tolerances."
 },
 "C12": {
  "note": "Coset decomposition proved; the documented None for type I is refuted (TypeError instead)."
 },
 "C16": {
  "note": "Mapping proved when first occurrences come first; refuted for other listing orders."
 },
 "C26": {
  "note": "The code averages the transpose of H; the documented einsum with H itself is refuted. Hermiticity and commutation are proved."
 },
 "C27": {
  "note": "real=False, up to the reported failures (warning, ValueError of the indicator check, see C51)."
 },
 "C28": {
  "note": "For operations listed in centring blocks; refuted for interleaved listing (I2)."
 },
 "C30": {
  "note": "Proved for every array and every representation; irreducibility over the reals follows from the meaning of the indicator (C29). The random draws play no role here."
 },
 "C31": {
  "note": "The claim of the docstring is false: C31_refuted gives a NumPy and an eigenvector routine within their specifications for which the result is not a representation. C31_criterion says exactly when the result is right, C31_symmetric_eigenvectors gives a sufficient condition."
 },
 "C32": {
  "note": "C32_each_once is unconditional; C32_pairs and C32_real_mode for real factor systems. At k-points with 2k not integral the claim is false: C32_two_k_refuted, C32_distinct_forms."
 },
 "C35": {
  "note": "No time reversal, up to the reported failures (warning, ValueError of the indicator check, see C51); the conventional cell must list its operations in centring blocks (see C28)."
 },
 "C36": {
  "note": "Signs, operator law, associativity and the action on spin, for every lattice and magnetic group preserving its metric."
 },
 "C37": {
  "note": "The law fails on the antiunitary half in general: C37_law_iff_real, C37_grey_two_refuted."
 },
 "C38": {
  "note": "The law, orthonormality inside a block, independence and size <= multiplicity hold for every input. The exact count is proved for multiplicity at most 3 and a small tolerance, and more than three quarters of the blocks are found in general; the count as claimed is refuted at multiplicity 5. The docstring's orthonormality of all vectors is refuted (only inside a block)."
 },
 "C40": {
  "note": "Counterexamples to the documented claim are the theorems named _refuted."
 },
 "C41": {
  "note": "real=False fully: returned tensors are invariant and independent, and a basis when rep has dimension < 50 and every irrep has multiplicity at most 3, in particular when rep has dimension at most 3 (refuted without the bound on multiplicities); that irreps of point groups have dimension at most 3 is C55. real=True: invariant and independent for a real orthogonal rep, given that the enumeration returned inequivalent real irreducible representations (see C30-C32 for when it does); refuted for a complex rep, where IndexError is raised."
 },
 "C42": {
  "note": "Non-zero tensors of one shape: symmetric, unit norm, invariance kept, independent, at least 30 degrees apart, every input within 30 degrees. Refuted: a zero tensor gives nan (modelled as the warning outcome); the number of tensors can be too small already at rank 1."
 },
 "C43": {
  "note": "Counterexamples to the documented claim are the theorems named _refuted. Uses the axioms of Coq.Reals."
 },
 "C44": {
  "note": "For atol at most 1/3 (real variant 1/8)."
 },
 "C46": {
  "note": "Every sequence of outcomes; zero trials raise UnboundLocalError."
 },
 "C49": {
  "note": "Refuted: (R,0) and (R,1) never both survive the reduction; grey groups come back without any anti-linear operation; in interleaved order flags move to other rotations. Proved for lists with pairwise different rotations."
 },
 "C50": {
  "note": "Distance = largest distance of a unit vector of the smaller space to the larger; specification of qr and svd as hypotheses, shown satisfiable over every field. ord='projection' is the root mean square of the arccosines of the principal correlations; C50_projection_extremes shows that this is not the projection metric named in the docstring (arccos 0 instead of sqrt k for orthogonal spaces)."
 },
 "C51": {
  "note": "Proved for real factor systems; refuted for complex ones by I2_12_12_1 with a shifted origin."
 },
 "C52": {
  "note": "Sound and complete when it succeeds; refuted whenever a constituent has multiplicity two or more."
 },
 "C53": {
  "note": "The documented shapes are refuted by the group I2."
 },
 "C54": {
  "note": "Refuted for every k with 2k not a reciprocal lattice vector; proved for the others."
 },
 "C55": {
  "note": "Any group with a chain, any factor system. For point groups an exhaustive computation over the 43 tabulated settings gives the dimensions, carried over to the rotations of the caller through the isomorphism given by spglib. The list 1, 2, 3, 4 for spinors is an upper bound, not claimed to be sharp."
 },
 "C56": {
  "note": "C56_origin_refuted shows that the success of the call depends on the origin (the indicator check is made before the phases are applied); C56_symmorphic_returns and C56_hypotheses_met show that calls do return. At atol > 0 the agreement is between exact lists within atol of the returned ones."
 },
 "C57": {
  "note": "At atol > 0 the statements on characters are about the exact list within atol of the returned one; the count is about the returned list itself. C57_one_at_boundary and C57_four_at_centre show the count for P2_12_12_1 at two k-points."
 },
 "C58": {
  "note": "spglib's get_pointgroup is assumed to answer with a symbol one of whose tabulated settings is the group in the returned basis (spglib_ok). The tables single_valued and double_valued in TextbookSpec.v are typed in from the textbooks, not computed. The proof counts classes (resp. classes not killed by a pair of perpendicular twofold elements) for every tabulated setting, transports the counts along the basis change, and shows that count, order and possible dimensions leave one list only."
 },
 "C59": {
  "note": "Strengthens C25, where success was conditional on a draw that separates the irreducible subspaces. The commutant of the regular representation is split into minimal Hermitian projections (spectral theorem); a Hermitian element with eigenvalue gaps of 1/2 on them is written as the average of a matrix in the square; every nearby element has as many distinct eigenvalues as there are minimal projections, so all its eigenspaces are irreducible. The construction works in any unitary representation, so it also covers decompose_representation where C52 allows success. Probabilities are not modelled: the theorem gives a ball of draws, not its measure."
 },
 "C60": {
  "note": "The exact model of C09, C12 and C13 is compared with a second model (FloatModel.v) in which each elementary operation is rounded by Flocq's round-to-nearest-even binary64 without overflow.  The theorems use the four standard axioms of Coq's real numbers.  numpy.linalg.inv is an argument with an accuracy hypothesis.  The refuted part: np.remainder(-2^-60, 1) is exactly 1 in binary64, so reduced translations can equal 1."
 },
 "C61": {
  "note": "np.around is an argument which rounds both parts to the nearest integer; np.allclose is modelled with its rtol and atol.  The errors are arbitrary perturbations of the matrices; the arithmetic of the test itself is exact."
 },
 "C62": {
  "note": "Stated for successful runs.  The irreps the blocks approximate are exact unitary representations within atol of the purified arrays; the rounding of the partner test and of the indicator is proved to give the exact values."
 },
 "C63": {
  "note": "The bound B on the entries of the draws is an argument; np.random gives B = sqrt 2.  The example runs the grey group of 222, whose spinor co-representation needs a two-dimensional intertwiner."
 },
 "C64": {
  "note": "Irreducibility and completeness are stated for the returned arrays that obey the law; C37_law_iff_real says which ones do, and C37_grey_two_refuted that not all do.  Co-representations X in the completeness part need not be unitary.  The example is the group of the identity and time reversal (Kramers degeneracy), where the law holds."
 },
 "C65": {
  "note": "C65_screw_axis_refuted: get_factor_system_from_little_group uses R^T k - k for every operation, while an anti-linear operation needs R^T k + k; the two agree up to a sign change of the matrices when 2k.w is integral.  At which tolerance and for which matrices the full law holds is C65_law_iff_real, as in C37."
 },
 "C66": {
  "note": "C66_primitive_cell, C66_conventional_cell and C66_zone_centre speak of the two public functions; the facts about one little group are C55, C57 and C58."
 },
 "C67": {
  "note": "The factor system of the count is the one of C35; C67_zone_centre_outcome removes the ValueError of C35 at k = 0."
 },
 "C68": {
  "note": "For real factor systems; the indicator of a complex factor system has no such meaning (C51)."
 },
 "C69": {
  "note": "The dimensions are compared with a separate table (PhysicalSpec.v).  The matrices returned for indicator 1 need not be a representation (C31); the statement is about their number and dimensions."
 },
 "C70": {
  "note": "About the dimensions; where the matrices themselves are wrong is the subject of C37 and C65."
 },
 "C71": {
  "note": "Exact arithmetic (atol = 0), real=False, rank at least 1 (rank = 0 is treated as 1 by the code).  The equality needs dimension at most three; beyond it C41_basis_refuted shows that tensors can be missing.  The table is in TensorTableSpec.v."
 },
 "C72": {
  "note": "Assumes of NumPy that the roots of 1 are 1 and that complex numbers are compared by the real, then the imaginary part.  The first-irrep theorems are for calls that report success, with real=False; the conventional cell only at k = 0."
 },
 "C73": {
  "note": "Exact arithmetic for the projections (linalg_ok); the bound three on the multiplicities is needed, see C38_count_refuted.  The blocks of one irrep need not be orthogonal to each other, see C38_blocks_not_orthogonal."
 },
 "C74": {
  "note": "The dataset of spglib is an argument.  For other orders and for grey groups see C49.  The matrices are stated before purify_irrep_value, which is applied to them with its default tolerance.  Refuted: the documented length of anti_linear (C74_anti_linear_length_refuted); the factor system and the spin rotations are returned for the primitive little group too."
 }
}