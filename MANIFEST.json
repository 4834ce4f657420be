{
 "claims": [
  {
   "property": "C01",
   "status": "proved",
   "theorems": [
    "Verif.ClaimsGroup.C01_cayley_entries",
    "Verif.ClaimsGroup.C01_cayley_entries_rotations"
   ],
   "note": ""
  },
  {
   "property": "C02",
   "status": "proved",
   "theorems": [
    "Verif.ClaimsGroup.C02_cayley_raises_iff",
    "Verif.ClaimsGroup.C02_cayley_total"
   ],
   "note": ""
  },
  {
   "property": "C03",
   "status": "proved",
   "theorems": [
    "Verif.ClaimsGroup.C03_group_table",
    "Verif.ClaimsGroup.C03_group_table_rotations"
   ],
   "note": ""
  },
  {
   "property": "C04",
   "status": "proved",
   "theorems": [
    "Verif.ClaimsGroup.C04_identity_index",
    "Verif.ClaimsGroup.C04_C05_any_group_table"
   ],
   "note": ""
  },
  {
   "property": "C05",
   "status": "proved",
   "theorems": [
    "Verif.ClaimsGroup.C05_inverse_index"
   ],
   "note": ""
  },
  {
   "property": "C06",
   "status": "proved",
   "theorems": [
    "Verif.ClaimsGroup.C06_order",
    "Verif.ClaimsGroup.C06_any_group_table",
    "Verif.ClaimsGroup.C06_non_group_diverges_refuted"
   ],
   "note": "Also shows that the loop diverges on a table that is not a group table."
  },
  {
   "property": "C07",
   "status": "proved",
   "theorems": [
    "Verif.ClaimsGroup.C07_is_matrix_group_iff",
    "Verif.ClaimsGroup.C07_singular_refuted",
    "Verif.ClaimsGroup.C07_empty_refuted"
   ],
   "note": "Proved for invertible matrices; the docstring's unrestricted 'iff' is refuted by two witnesses (singular matrices, empty list)."
  },
  {
   "property": "C08",
   "status": "proved",
   "theorems": [
    "Verif.ClaimsGroup.C08_check_cocycle_iff"
   ],
   "note": ""
  },
  {
   "property": "C09",
   "status": "proved",
   "theorems": [
    "Verif.ClaimsGroup.C09_little_group"
   ],
   "note": ""
  },
  {
   "property": "C10",
   "status": "proved",
   "theorems": [
    "Verif.ClaimsGroup.C10_little_cogroup",
    "Verif.ClaimsGroup.C10_mod_reciprocal_lattice",
    "Verif.ClaimsGroup.C10_large_tolerance_refuted"
   ],
   "note": "Proved when the tolerance is below 1/denominator; refuted for larger tolerances."
  },
  {
   "property": "C11",
   "status": "proved",
   "theorems": [
    "Verif.ClaimsGroup.C11_phase_cocycle",
    "Verif.ClaimsGroup.C11_phase_normalised",
    "Verif.ClaimsSmall.C11_factor_system"
   ],
   "note": ""
  },
  {
   "property": "C12",
   "status": "proved",
   "theorems": [
    "Verif.ClaimsGroup.C12_coset_decomposition",
    "Verif.ClaimsGroup.C12_None_iff",
    "Verif.ClaimsGroup.C12_type1_refuted"
   ],
   "note": "Coset decomposition proved; the documented None for type I is refuted (TypeError instead)."
  },
  {
   "property": "C13",
   "status": "proved",
   "theorems": [
    "Verif.ClaimsTransform.C13_change_of_basis",
    "Verif.ClaimsTransform.C13_functorial"
   ],
   "note": ""
  },
  {
   "property": "C14",
   "status": "proved",
   "theorems": [
    "Verif.ClaimsTransform.C14_primitive_matrix",
    "Verif.ClaimsTransform.C14_primitive_matrix_total"
   ],
   "note": ""
  },
  {
   "property": "C15",
   "status": "proved",
   "theorems": [
    "Verif.ClaimsTransform.C15_crystal_system",
    "Verif.ClaimsTransform.C15_crystal_system_total"
   ],
   "note": ""
  },
  {
   "property": "C16",
   "status": "proved",
   "theorems": [
    "Verif.ClaimsTransform.C16_unique_symmetry",
    "Verif.ClaimsTransform.C16_reduced_translation",
    "Verif.ClaimsTransform.C16_mapping",
    "Verif.ClaimsTransform.C16_mapping_refuted"
   ],
   "note": "Mapping proved when first occurrences come first; refuted for other listing orders."
  },
  {
   "property": "C17",
   "status": "proved",
   "theorems": [
    "Verif.ClaimsPointGroup.C17_point_group_tables"
   ],
   "note": ""
  },
  {
   "property": "C18",
   "status": "proved",
   "theorems": [
    "Verif.ClaimsPointGroup.C18_generators_normal_series"
   ],
   "note": ""
  },
  {
   "property": "C19",
   "status": "proved",
   "theorems": [
    "Verif.ClaimsPointGroup.C19_chain_any_basis_and_order",
    "Verif.ClaimsPointGroup.C19_silent_failure_refuted"
   ],
   "note": ""
  },
  {
   "property": "C20",
   "status": "proved",
   "theorems": [
    "Verif.ClaimsRep.C20_regular_representation",
    "Verif.ClaimsRep.C20_regular_raises"
   ],
   "note": ""
  },
  {
   "property": "C21",
   "status": "proved",
   "theorems": [
    "Verif.ClaimsRep.C21_intertwiner_success",
    "Verif.ClaimsRep.C21_intertwiner_failure_iff",
    "Verif.ClaimsRep.C21_inequivalent_fail",
    "Verif.ClaimsRep.C21_shape_assertion"
   ],
   "note": ""
  },
  {
   "property": "C22",
   "status": "proved",
   "theorems": [
    "Verif.ClaimsChain.C22_C24_chain_outcome",
    "Verif.ClaimsChain.C22_chain_unitary_projective"
   ],
   "note": ""
  },
  {
   "property": "C23",
   "status": "proved",
   "theorems": [
    "Verif.ClaimsChain.C23_chain_irreducible_inequivalent"
   ],
   "note": ""
  },
  {
   "property": "C24",
   "status": "proved",
   "theorems": [
    "Verif.ClaimsChain.C24_chain_complete",
    "Verif.ClaimsSmall.C24_enumerate_unitary_irreps",
    "Verif.ClaimsSmall.C24_unknown_method"
   ],
   "note": ""
  },
  {
   "property": "C25",
   "status": "proved",
   "theorems": [
    "Verif.ClaimsRandom.C25_random_sound_complete",
    "Verif.ClaimsRandom.C25_random_outcomes",
    "Verif.ClaimsRandom.C25_random_succeeds",
    "Verif.ClaimsRandom.C25_numerics_exist"
   ],
   "note": ""
  },
  {
   "property": "C26",
   "status": "proved",
   "theorems": [
    "Verif.ClaimsRandom.C26_averaging",
    "Verif.ClaimsRandom.C26_documented_refuted"
   ],
   "note": "The code averages the transpose of H; the documented einsum with H itself is refuted. Hermiticity and commutation are proved."
  },
  {
   "property": "C27",
   "status": "proved",
   "theorems": [
    "Verif.ClaimsSmall.C27_small_representations",
    "Verif.ClaimsSmall.C27_exact",
    "Verif.ClaimsSmall.C27_spacegroup_irreps"
   ],
   "note": "real=False, up to the reported failures (warning, ValueError of the indicator check, see C51)."
  },
  {
   "property": "C28",
   "status": "proved",
   "theorems": [
    "Verif.ClaimsCentring.C28_conventional_cell",
    "Verif.ClaimsCentring.C28_interleaved_refuted"
   ],
   "note": "For operations listed in centring blocks; refuted for interleaved listing (I2)."
  },
  {
   "property": "C29",
   "status": "proved",
   "theorems": [
    "Verif.ClaimsRep.C29_frobenius_schur",
    "Verif.ClaimsSmall.C29_pointgroup_irreps"
   ],
   "note": ""
  },
  {
   "property": "C30",
   "status": "proved",
   "theorems": [
    "Verif.ClaimsReal.C30_real_blocks",
    "Verif.ClaimsReal.C30_real_irreducible",
    "Verif.ClaimsReal.C30_other_indicator"
   ],
   "note": "Proved for every array and every representation; irreducibility over the reals follows from the meaning of the indicator (C29). The random draws play no role here."
  },
  {
   "property": "C31",
   "status": "proved",
   "theorems": [
    "Verif.ClaimsReal.C31_criterion",
    "Verif.ClaimsReal.C31_symmetric_eigenvectors",
    "Verif.ClaimsReal.C31_rotated_irrep_refuted",
    "Verif.ClaimsReal.C31_refuted"
   ],
   "note": "The claim of the docstring is false: C31_refuted gives a NumPy and an eigenvector routine within their specifications for which the result is not a representation. C31_criterion says exactly when the result is right, C31_symmetric_eigenvectors gives a sufficient condition."
  },
  {
   "property": "C32",
   "status": "proved",
   "theorems": [
    "Verif.ClaimsReal.C32_each_once",
    "Verif.ClaimsReal.C32_pairs",
    "Verif.ClaimsReal.C32_real_mode",
    "Verif.ClaimsReal.C32_distinct_forms",
    "Verif.ClaimsReal.C32_two_k_refuted"
   ],
   "note": "C32_each_once is unconditional; C32_pairs and C32_real_mode for real factor systems. At k-points with 2k not integral the claim is false: C32_two_k_refuted, C32_distinct_forms."
  },
  {
   "property": "C33",
   "status": "proved",
   "theorems": [
    "Verif.ClaimsSpinor.C33_spin_rotation",
    "Verif.ClaimsSpinor.C33_identity_and_inversion"
   ],
   "note": ""
  },
  {
   "property": "C34",
   "status": "proved",
   "theorems": [
    "Verif.ClaimsSpinor.C34_factor_system"
   ],
   "note": ""
  },
  {
   "property": "C35",
   "status": "proved",
   "theorems": [
    "Verif.ClaimsSpinor.C35_spinor_irreps",
    "Verif.ClaimsSpinor.C35_conventional_cell",
    "Verif.ClaimsSpinor.C35_pointgroup"
   ],
   "note": "No time reversal, up to the reported failures (warning, ValueError of the indicator check, see C51); the conventional cell must list its operations in centring blocks (see C28)."
  },
  {
   "property": "C36",
   "status": "proved",
   "theorems": [
    "Verif.ClaimsCorep.C36_magnetic_factor_system"
   ],
   "note": "Signs, operator law, associativity and the action on spin, for every lattice and magnetic group preserving its metric."
  },
  {
   "property": "C37",
   "status": "proved",
   "theorems": [
    "Verif.ClaimsCorep2.C37_unitary_half",
    "Verif.ClaimsCorep2.C37_indicators",
    "Verif.ClaimsCorep2.C37_law_iff_real",
    "Verif.ClaimsCorep2.C37_grey_two_refuted"
   ],
   "note": "The law fails on the antiunitary half in general: C37_law_iff_real, C37_grey_two_refuted."
  },
  {
   "property": "C38",
   "status": "proved",
   "theorems": [
    "Verif.ClaimsProj.C38_projection",
    "Verif.ClaimsProj.C38_count",
    "Verif.ClaimsProj.C38_count_refuted",
    "Verif.ClaimsProj.C38_blocks_not_orthogonal"
   ],
   "note": "The law, orthonormality inside a block, independence and size <= multiplicity hold for every input. The exact count is proved for multiplicity at most 3 and a small tolerance, and more than three quarters of the blocks are found in general; the count as claimed is refuted at multiplicity 5. The docstring's orthonormality of all vectors is refuted (only inside a block)."
  },
  {
   "property": "C39",
   "status": "proved",
   "theorems": [
    "Verif.ClaimsRep.C39_direct_product",
    "Verif.ClaimsRep.C39_direct_product_shapes"
   ],
   "note": ""
  },
  {
   "property": "C40",
   "status": "proved",
   "theorems": [
    "Verif.ClaimsMode.C40_mode_dot",
    "Verif.ClaimsMode.C40_fewer_matrices",
    "Verif.ClaimsMode.C40_mismatch_raises",
    "Verif.ClaimsMode.C40_one_row_accepted_refuted"
   ],
   "note": "Counterexamples to the documented claim are the theorems named _refuted."
  },
  {
   "property": "C41",
   "status": "proved",
   "theorems": [
    "Verif.ClaimsTensor.C41_from_irreps",
    "Verif.ClaimsTensor.C41_symmetry_adapted_tensors",
    "Verif.ClaimsTensor.C41_small_representation",
    "Verif.ClaimsTensor.C41_exact",
    "Verif.ClaimsTensor.C41_basis_refuted",
    "Verif.ClaimsTensorReal.C41_real_irreps",
    "Verif.ClaimsTensorReal.C41_real_mode",
    "Verif.ClaimsTensorReal.C41_complex_real_refuted"
   ],
   "note": "real=False fully: returned tensors are invariant and independent, and a basis when rep has dimension < 50 and every irrep has multiplicity at most 3, in particular when rep has dimension at most 3 (refuted without the bound on multiplicities); that irreps of point groups have dimension at most 3 is C55. real=True: invariant and independent for a real orthogonal rep, given that the enumeration returned inequivalent real irreducible representations (see C30-C32 for when it does); refuted for a complex rep, where IndexError is raised."
  },
  {
   "property": "C42",
   "status": "proved",
   "theorems": [
    "Verif.ClaimsTensor.C42_intrinsic_symmetry",
    "Verif.ClaimsTensor.C42_invariance_kept",
    "Verif.ClaimsTensor.C42_zero_refuted",
    "Verif.ClaimsTensor.C42_count_refuted"
   ],
   "note": "Non-zero tensors of one shape: symmetric, unit norm, invariance kept, independent, at least 30 degrees apart, every input within 30 degrees. Refuted: a zero tensor gives nan (modelled as the warning outcome); the number of tensors can be too small already at rank 1."
  },
  {
   "property": "C43",
   "status": "proved",
   "theorems": [
    "Verif.ClaimsUtil.C43_is_prime",
    "Verif.ClaimsUtil.C43_is_prime_small_refuted",
    "Verif.ClaimsUtil.C43_is_integer_array",
    "Verif.ClaimsUtil.C43_integral_accepted",
    "Verif.ClaimsUtil.C43_large_values_refuted",
    "Verif.ClaimsUtil.C43_integer_tuple",
    "Verif.ClaimsUtil.C43_integer_tuple_nearest",
    "Verif.ClaimsUtil.C43_nroot",
    "Verif.ClaimsUtil.C43_nroot_angle",
    "Verif.ClaimsUtil.C43_nroot_principal",
    "Verif.ClaimsUtil.C43_polar_coordinates"
   ],
   "note": "Counterexamples to the documented claim are the theorems named _refuted. Uses the axioms of Coq.Reals."
  },
  {
   "property": "C44",
   "status": "proved",
   "theorems": [
    "Verif.ClaimsSmall.C44_purify",
    "Verif.ClaimsSmall.C44_purify_real"
   ],
   "note": "For atol at most 1/3 (real variant 1/8)."
  },
  {
   "property": "C45",
   "status": "proved",
   "theorems": [
    "Verif.ClaimsRep.C45_is_unitary_iff",
    "Verif.ClaimsRep.C45_is_representation_iff",
    "Verif.ClaimsSmall.C45_check_spacegroup_representation_iff"
   ],
   "note": ""
  },
  {
   "property": "C46",
   "status": "proved",
   "theorems": [
    "Verif.ClaimsProj.C46_search",
    "Verif.ClaimsProj.C46_abnormal",
    "Verif.ClaimsProj.C46_project_to_irrep"
   ],
   "note": "Every sequence of outcomes; zero trials raise UnboundLocalError."
  },
  {
   "property": "C47",
   "status": "proved",
   "theorems": [
    "Verif.ClaimsSmall.C47_primitive_cell_check"
   ],
   "note": ""
  },
  {
   "property": "C48",
   "status": "proved",
   "theorems": [
    "Verif.ClaimsSpinor.C48_kpoint_conversion",
    "Verif.ClaimsSpinor.C48_primitive_cell"
   ],
   "note": ""
  },
  {
   "property": "C49",
   "status": "proved",
   "theorems": [
    "Verif.ClaimsCorep.C49_distinct_rotations",
    "Verif.ClaimsCorep.C49_pairs_refuted",
    "Verif.ClaimsCorep.C49_grey_groups_refuted",
    "Verif.ClaimsCorep.C49_interleaved_refuted"
   ],
   "note": "Refuted: (R,0) and (R,1) never both survive the reduction; grey groups come back without any anti-linear operation; in interleaved order flags move to other rotations. Proved for lists with pairwise different rotations."
  },
  {
   "property": "C50",
   "status": "proved",
   "theorems": [
    "Verif.ClaimsProj.C50_min_distance",
    "Verif.ClaimsProj.C50_zero_one",
    "Verif.ClaimsProj.C50_projection_distance",
    "Verif.ClaimsProj.C50_projection_extremes",
    "Verif.ClaimsProj.C50_unknown_ord",
    "Verif.ClaimsProj.C50_index_error"
   ],
   "note": "Distance = largest distance of a unit vector of the smaller space to the larger; specification of qr and svd as hypotheses, shown satisfiable over every field. ord='projection' is the root mean square of the arccosines of the principal correlations; C50_projection_extremes shows that this is not the projection metric named in the docstring (arccos 0 instead of sqrt k for orthogonal spaces)."
  },
  {
   "property": "C51",
   "status": "proved",
   "theorems": [
    "Verif.ClaimsSmall.C51_real_factor_system",
    "Verif.ClaimsSmall.C51_valid_little_group_refuted"
   ],
   "note": "Proved for real factor systems; refuted for complex ones by I2_12_12_1 with a shifted origin."
  },
  {
   "property": "C52",
   "status": "proved",
   "theorems": [
    "Verif.ClaimsRandom.C52_decompose_sound",
    "Verif.ClaimsRandom.C52_decompose_multiplicity_refuted",
    "Verif.ClaimsRandom.C52_decompose_succeeds"
   ],
   "note": "Sound and complete when it succeeds; refuted whenever a constituent has multiplicity two or more."
  },
  {
   "property": "C53",
   "status": "proved",
   "theorems": [
    "Verif.ClaimsSpinor.C53_centred_structure_refuted"
   ],
   "note": "The documented shapes are refuted by the group I2."
  },
  {
   "property": "C54",
   "status": "proved",
   "theorems": [
    "Verif.ClaimsCorep.C54_little_group_ignores_time_reversal",
    "Verif.ClaimsCorep.C54_kept_refuted",
    "Verif.ClaimsCorep.C54_lost_refuted",
    "Verif.ClaimsCorep.C54_time_reversal_invariant"
   ],
   "note": "Refuted for every k with 2k not a reciprocal lattice vector; proved for the others."
  },
  {
   "property": "C55",
   "status": "proved",
   "theorems": [
    "Verif.ClaimsDim.C55_dimension_divides",
    "Verif.ClaimsDim.C55_chain_dimensions",
    "Verif.ClaimsDim.C55_pointgroup",
    "Verif.ClaimsDim.C55_small_representations",
    "Verif.ClaimsDim.C55_spinor_pointgroup"
   ],
   "note": "Any group with a chain, any factor system. For point groups an exhaustive computation over the 43 tabulated settings gives the dimensions, carried over to the rotations of the caller through the isomorphism given by spglib. The list 1, 2, 3, 4 for spinors is an upper bound, not claimed to be sharp."
  },
  {
   "property": "C56",
   "status": "proved",
   "theorems": [
    "Verif.ClaimsAgree.C56_methods_agree",
    "Verif.ClaimsAgree.C56_reciprocal_period",
    "Verif.ClaimsAgree.C56_lattice_translations",
    "Verif.ClaimsAgree.C56_origin",
    "Verif.ClaimsAgree.C56_opposite_kpoint",
    "Verif.ClaimsAgree.C56_basis",
    "Verif.ClaimsAgree.C56_order",
    "Verif.ClaimsAgree.C56_symmorphic_returns",
    "Verif.ClaimsAgree.C56_origin_refuted"
   ],
   "note": "C56_origin_refuted shows that the success of the call depends on the origin (the indicator check is made before the phases are applied); C56_symmorphic_returns and C56_hypotheses_met show that calls do return. At atol > 0 the agreement is between exact lists within atol of the returned ones."
  },
  {
   "property": "C57",
   "status": "proved",
   "theorems": [
    "Verif.ClaimsClass.C57_column_orthogonality",
    "Verif.ClaimsClass.C57_regular_elements",
    "Verif.ClaimsClass.C57_number_of_irreps",
    "Verif.ClaimsClass.C57_pointgroup",
    "Verif.ClaimsClass.C57_small_representations",
    "Verif.ClaimsClass.C57_spinor_pointgroup"
   ],
   "note": "At atol > 0 the statements on characters are about the exact list within atol of the returned one; the count is about the returned list itself. C57_one_at_boundary and C57_four_at_centre show the count for P2_12_12_1 at two k-points."
  },
  {
   "property": "C58",
   "status": "proved",
   "theorems": [
    "Verif.ClaimsTextbook.C58_pointgroup",
    "Verif.ClaimsTextbook.C58_spinor_pointgroup",
    "Verif.ClaimsTextbook.C58_small_representations",
    "Verif.ClaimsTextbook.C58_symmorphic",
    "Verif.ClaimsTextbook.C58_interior"
   ],
   "note": "spglib's get_pointgroup is assumed to answer with a symbol one of whose tabulated settings is the group in the returned basis (spglib_ok). The tables single_valued and double_valued in TextbookSpec.v are typed in from the textbooks, not computed. The proof counts classes (resp. classes not killed by a pair of perpendicular twofold elements) for every tabulated setting, transports the counts along the basis change, and shows that count, order and possible dimensions leave one list only."
  },
  {
   "property": "C59",
   "status": "proved",
   "theorems": [
    "Verif.ClaimsExists.C59_irreps_exist",
    "Verif.ClaimsExists.C59_random_succeeds",
    "Verif.ClaimsExists.C59_decompose_succeeds",
    "Verif.ClaimsExists.C59_random_real_factor_system",
    "Verif.ClaimsExists.C59_random_pointgroup",
    "Verif.ClaimsExists.C59_random_symmorphic"
   ],
   "note": "Strengthens C25, where success was conditional on a draw that separates the irreducible subspaces. The commutant of the regular representation is split into minimal Hermitian projections (spectral theorem); a Hermitian element with eigenvalue gaps of 1/2 on them is written as the average of a matrix in the square; every nearby element has as many distinct eigenvalues as there are minimal projections, so all its eigenspaces are irreducible. The construction works in any unitary representation, so it also covers decompose_representation where C52 allows success. Probabilities are not modelled: the theorem gives a ball of draws, not its measure."
  },
  {
   "property": "C60",
   "status": "proved",
   "theorems": [
    "Verif.ClaimsFloat.C60_little_group_binary64",
    "Verif.ClaimsFloat.C60_two_k_binary64",
    "Verif.ClaimsFloat.C60_magnetic_binary64",
    "Verif.ClaimsFloat.C60_transform_binary64",
    "Verif.ClaimsFloat.C60_conventional_binary64",
    "Verif.ClaimsFloat.C60_rounded_input",
    "Verif.ClaimsFloat.C60_remainder_below_one_refuted"
   ],
   "note": "The exact model of C09, C12 and C13 is compared with a second model (FloatModel.v) in which each elementary operation is rounded by Flocq's round-to-nearest-even binary64 without overflow.  The theorems use the four standard axioms of Coq's real numbers.  numpy.linalg.inv is an argument with an accuracy hypothesis.  The refuted part: np.remainder(-2^-60, 1) is exactly 1 in binary64, so reduced translations can equal 1."
  },
  {
   "property": "C61",
   "status": "proved",
   "theorems": [
    "Verif.ClaimsRobust.C61_equivalence_test",
    "Verif.ClaimsRobust.C61_irreducibility_test",
    "Verif.ClaimsRobust.C61_is_unitary_tolerance_iff",
    "Verif.ClaimsRobust.C61_is_representation_tolerance_iff",
    "Verif.ClaimsRobust.C61_checkers_accept",
    "Verif.ClaimsRobust.C61_returned_irreps"
   ],
   "note": "np.around is an argument which rounds both parts to the nearest integer; np.allclose is modelled with its rtol and atol.  The errors are arbitrary perturbations of the matrices; the arithmetic of the test itself is exact."
  },
  {
   "property": "C62",
   "status": "proved",
   "theorems": [
    "Verif.ClaimsCorep3.C62_each_pair_once"
   ],
   "note": "Stated for successful runs.  The irreps the blocks approximate are exact unitary representations within atol of the purified arrays; the rounding of the partner test and of the indicator is proved to give the exact values."
  },
  {
   "property": "C63",
   "status": "proved",
   "theorems": [
    "Verif.ClaimsCorep3.C63_outcome",
    "Verif.ClaimsCorep3.C63_success"
   ],
   "note": "The bound B on the entries of the draws is an argument; np.random gives B = sqrt 2.  The example runs the grey group of 222, whose spinor co-representation needs a two-dimensional intertwiner."
  },
  {
   "property": "C64",
   "status": "proved",
   "theorems": [
    "Verif.ClaimsCorep4.C64_irreducible",
    "Verif.ClaimsCorep4.C64_dimensions"
   ],
   "note": "Irreducibility and completeness are stated for the returned arrays that obey the law; C37_law_iff_real says which ones do, and C37_grey_two_refuted that not all do.  Co-representations X in the completeness part need not be unitary.  The example is the group of the identity and time reversal (Kramers degeneracy), where the law holds."
  },
  {
   "property": "C65",
   "status": "proved",
   "theorems": [
    "Verif.ClaimsCorep5.C65_unitary_half",
    "Verif.ClaimsCorep5.C65_indicators",
    "Verif.ClaimsCorep5.C65_law_iff_real",
    "Verif.ClaimsCorep5.C65_each_pair_once",
    "Verif.ClaimsCorep5.C65_irreducible",
    "Verif.ClaimsCorep5.C65_dimensions",
    "Verif.ClaimsCorep5.C65_outcome",
    "Verif.ClaimsCorep5.C65_from_primitive",
    "Verif.ClaimsCorep5.C65_screw_axis_refuted"
   ],
   "note": "C65_screw_axis_refuted: get_factor_system_from_little_group uses R^T k - k for every operation, while an anti-linear operation needs R^T k + k; the two agree up to a sign change of the matrices when 2k.w is integral.  At which tolerance and for which matrices the full law holds is C65_law_iff_real, as in C37."
  },
  {
   "property": "C66",
   "status": "proved",
   "theorems": [
    "Verif.ClaimsApi.C66_primitive_cell",
    "Verif.ClaimsApi.C66_zone_centre",
    "Verif.ClaimsApi.C66_conventional_cell"
   ],
   "note": "C66_primitive_cell, C66_conventional_cell and C66_zone_centre speak of the two public functions; the facts about one little group are C55, C57 and C58."
  },
  {
   "property": "C67",
   "status": "proved",
   "theorems": [
    "Verif.ClaimsApi2.C67_primitive_cell",
    "Verif.ClaimsApi2.C67_zone_centre",
    "Verif.ClaimsApi2.C67_conventional_cell",
    "Verif.ClaimsApi2.C67_zone_centre_outcome"
   ],
   "note": "The factor system of the count is the one of C35; C67_zone_centre_outcome removes the ValueError of C35 at k = 0."
  },
  {
   "property": "C68",
   "status": "proved",
   "theorems": [
    "Verif.ClaimsIndicator.C68_sum_rule",
    "Verif.ClaimsIndicator.C68_involutions",
    "Verif.ClaimsIndicator.C68_self_conjugate",
    "Verif.ClaimsIndicator.C68_physically_irreducible"
   ],
   "note": "For real factor systems; the indicator of a complex factor system has no such meaning (C51)."
  },
  {
   "property": "C69",
   "status": "proved",
   "theorems": [
    "Verif.ClaimsPhysical.C69_real_outcome",
    "Verif.ClaimsPhysical.C69_pointgroup_returns",
    "Verif.ClaimsPhysical.C69_indicators",
    "Verif.ClaimsPhysical.C69_physical_dimensions"
   ],
   "note": "The dimensions are compared with a separate table (PhysicalSpec.v).  The matrices returned for indicator 1 need not be a representation (C31); the statement is about their number and dimensions."
  },
  {
   "property": "C70",
   "status": "proved",
   "theorems": [
    "Verif.ClaimsKramers.C70_kramers",
    "Verif.ClaimsKramers.C70_kramers_small"
   ],
   "note": "About the dimensions; where the matrices themselves are wrong is the subject of C37 and C65."
  },
  {
   "property": "C71",
   "status": "proved",
   "theorems": [
    "Verif.ClaimsTensorCount.C71_number_of_tensors",
    "Verif.ClaimsTensorCount.C71_cartesian_tensors",
    "Verif.ClaimsTensorCount.C71_point_groups"
   ],
   "note": "Exact arithmetic (atol = 0), real=False, rank at least 1 (rank = 0 is treated as 1 by the code).  The equality needs dimension at most three; beyond it C41_basis_refuted shows that tensors can be missing.  The table is in TensorTableSpec.v."
  },
  {
   "property": "C72",
   "status": "proved",
   "theorems": [
    "Verif.ClaimsFirst.C72_random_sorted",
    "Verif.ClaimsFirst.C72_point_groups",
    "Verif.ClaimsFirst.C72_space_groups",
    "Verif.ClaimsFirst.C72_conventional_cell"
   ],
   "note": "Assumes of NumPy that the roots of 1 are 1 and that complex numbers are compared by the real, then the imaginary part.  The first-irrep theorems are for calls that report success, with real=False; the conventional cell only at k = 0."
  },
  {
   "property": "C73",
   "status": "proved",
   "theorems": [
    "Verif.ClaimsDirect.C73_reduction",
    "Verif.ClaimsDirect.C73_direct_product",
    "Verif.ClaimsDirect.C73_selection_rule"
   ],
   "note": "Exact arithmetic for the projections (linalg_ok); the bound three on the multiplicities is needed, see C38_count_refuted.  The blocks of one irrep need not be orthogonal to each other, see C38_blocks_not_orthogonal."
  },
  {
   "property": "C74",
   "status": "proved",
   "theorems": [
    "Verif.ClaimsMagCell.C74_from_primitive",
    "Verif.ClaimsMagCell.C74_flags",
    "Verif.ClaimsMagCell.C74_anti_linear_length_refuted",
    "Verif.ClaimsMagCell.C74_little_group"
   ],
   "note": "The dataset of spglib is an argument.  For other orders and for grey groups see C49.  The matrices are stated before purify_irrep_value, which is applied to them with its default tolerance.  Refuted: the documented length of anti_linear (C74_anti_linear_length_refuted); the factor system and the spin rotations are returned for the primitive little group too."
  }
 ]
}