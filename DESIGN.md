# Formal model of spgrep in Rocq (Coq 8.16.1)

## 1. What is modelled, and how

The Python source in /repo/src/spgrep is read as text and re-written, function by
function, as Gallina functions.  Each model definition cites the file and lines it
models and states its simplifications.

Numbers.  Integer matrices are exact (`Z`).  Translations, k-points, tolerances and
transformation matrices are exact rationals (`Q`; every IEEE double is one).
Complex arrays live in an arbitrary `C : numClosedFieldType` of MathComp (theorems
hold for every such field; the concrete field of complex numbers over the standard
library's reals is built in the development as an instance).  Floating-point
rounding is NOT modelled: all arithmetic is exact.  Tolerances are modelled as
explicit comparisons with a parameter.

Phases.  `exp(-2j*pi*x)` for rational x is a function `e : Q -> C` with
e(x+y)=e(x)e(y), e(x)=1 iff x is an integer.  A concrete instance is given.

Exceptions are values (`pyres`: `Ret v` or `Raise exn`).  Loops that need not
terminate carry fuel and have a distinguished out-of-fuel result.  Warnings that are
followed by a degenerate return value are modelled by that value.

Oracles (function arguments, universally quantified in theorems): spglib answers,
the random number stream, `eigh`/`eig`/`qr`/`svd` results (constrained by their
documented specification), complex power roots (any root).

## 2. Layers

* Layer A (standard library): integer matrices, Cayley tables, group utilities,
  little groups, transformations, tabulated point groups and their chains.
* Layer B (MathComp): projective representations, intertwiners, chain construction,
  random construction, indicators, real forms, projection operators, tensors.
* Layer C: complex phases / spinor part over the reals.
* Bridge: end-to-end statements for the public functions.

## 3. Plan per property

| Property | Model | Proof |
|---|---|---|
| C01-C02 | get_cayley_table on lists with explicit ValueError | induction on the lists |
| C03-C06 | tables as list (list nat) | finite cancellation / pigeonhole |
| C07 | is_matrix_group | right cancellation by invertibility; refutation by vm_compute witness |
| C08 | check_cocycle_condition | reflection lemma |
| C09-C10 | get_little_group with rint and atol | rational arithmetic; refutation witness |
| C11 | factor system via e | bilinearity, integrality of residuals |
| C12 | decompose_by_maximal_space_subgroup | coset argument; refutation of the docstring |
| C13-C16 | transform.py | linear algebra over Q, list induction |
| C17-C18 | tables generated from the source text | exhaustive vm_compute (finite domain) |
| C19 | chain generators with oracle symbol and P | transport of C18 along conjugation |
| C20-C21, C26 | representation.py | matrix algebra, Schur lemma from characters |
| C22-C24 | solvable-chain function | induction on the chain, projective Clifford theory for cyclic extensions |
| C25 | random method with eigh oracle | invariance of eigenspaces, idempotent trace = rank |
| C27-C28 | small representations, phases | C11 + C22-C24 |
| C29-C32 | indicators, real forms, pairing | Schur orthogonality; refutations by witness |
| C33-C36 | spinor/corep factor systems over R | quaternion algebra, kernel of SU(2)->SO(3) |
| C37 | corep construction | algebra; refutation by witness |
| C38, C41-C42 | projection, tensors | great orthogonality, multilinear sums |
| C55 | dimensions of irreps | induction along the chain, central elements act by scalars, exhaustive over the tabulated settings |
| C56 | two descriptions of one problem agree | two complete lists match up to equivalence; gauge, conjugation and renumbering carry complete lists to complete lists; origin dependence of the indicator check refuted |
| C57 | character table is square | Schur averages give the second orthogonality relation; regular elements = non-zero columns; Frobenius-Cauchy counts the classes; transfer to indices and to the returned lists |
| C58 | textbook dimensions | class counts of every tabulated setting (computed) and of every group spglib identifies with it (transport); lifts of commuting rotations anticommute iff they are perpendicular twofold elements; arithmetic leaves one list of dimensions |
| C59 | irreps exist; the random method succeeds on an open set of draws | minimal Hermitian projections of the commutant; length of a resolution; perturbation bound in the Frobenius norm; explicit draw from ranks of eigenvalues |
| C60 | lattice comparisons in binary64 | forward error analysis over an abstract rounding; Flocq's binary64 rounding as instance |
| C61 | decisions under numerical errors | perturbation bounds for character sums and products against the integrality of the exact values |
| C62 | one co-representation per pair of conjugate irreps | invariant of the visited list; conjugation is an involution on the classes of irreps |
| C63 | failures of the co-representation pipeline | totality of every step on the purified irreps; perturbation bound for the intertwiner sum |
| C64 | irreducibility and completeness of the co-representations | Schur's lemma with anti-linear operators, averaging of intertwiners, constituents through the second orthogonality relation |
| C65 | small co-representations at k with 2k.w integral; the factor of anti-linear operations elsewhere | the proofs of C37 and C62-C64 stated for any factor system of signs (CorepGeneral.v), change of the signs by exp(-2 pi i k.w) (CorepBloch.v); determinant of D(a) conj(D(a)) = -1 for the screw axis |
| C66 | sum of squares, dimensions and number of what the two space group functions return | the little group found by the code is the group fixing k (C09), then C55, C57, C58 for it; centring representatives (C28) for the conventional cell |
| C67 | the same for spinors, and the outcome at the zone centre | C35 for the little group, change of phases by exp(-2 pi i k.w), the double-valued tables of C58; C51 for real factors at k = 0 |
| C68 | counting rules for the Frobenius-Schur indicators | sum over the squares of the characters, the regular character, classes closed under inversion through the character table |
| C69 | indicators and dimensions over the real numbers for the 32 point groups; outcome of real mode | C68, the tables of C58 and one computed over all settings force every inequality to be an equality; a missed intertwiner is an unlucky draw |
| C70 | Kramers degeneracy | the operation t of square 1 acts in the co-representation of an indicator 1 as V with V conj(V) = -1, whose determinant forces an even dimension; indicators 0 and -1 double the dimension |
| C71 | number of symmetry-adapted tensors | trace of the averaging projector on the tensor power, C41 for independence and completeness, traces under a change of basis, table over all settings |
| C72 | order of the irreps, identity first | the sort key is a total order; orthogonality makes the sum of the characters vanish except for the identity; the first irrep of every step of the chain is the identity |
| C73 | reduction of products, selection rules | C38 for each irrep, isotypic projectors sum to one, Schur for orthogonality, character inner products |
| C74 | magnetic groups in the conventional cell, primitive operations first | first occurrences are an initial segment, so the mapping by position is right; little group depends on listed flags only |
| C39-C40, C43-C50 | utilities | direct |

## 4. Coverage, function by function

All line numbers refer to /repo/src/spgrep at the pinned commit.

| Source | Function (line) | Model definition (file) | Claims |
|---|---|---|---|
| group.py | get_cayley_table (17) | GroupModel `get_cayley_table` | C01-C03 |
| | get_identity_index (53), get_inverse_index (63), get_order (74) | GroupModel, same names | C04-C06 |
| | is_matrix_group (85) | GroupModel | C07 |
| | get_factor_system_from_little_group (101) | GroupModel `factor_phase` (exponents), SmallModel (complex values) | C11 |
| | get_little_group (142) | GroupModel, FloatModel (rounded) | C09, C10, C60 |
| | check_cocycle_condition (184) | GroupModel | C08 |
| | decompose_by_maximal_space_subgroup (205) | GroupModel, FloatModel (rounded) | C12, C60 |
| transform.py | all five functions (13, 55, 93, 166, 189) | TransformModel, FloatModel (transform_symmetry_and_kpoint, rounded) | C13-C16, C60 |
| pointgroup.py | literal tables | PointGroupData (generated by tools/gen_pointgroup.py) | C17 |
| | get_generators (665), _get_generators (671) | PointGroupModel | C18 |
| | get_pointgroup_chain_generators (681) | PointGroupModel | C19 |
| representation.py | get_regular_representation (20), get_projective_regular_representation (43) | RepModel `fill_regular` | C20 |
| | get_intertwiner (69) | RepModel | C21 |
| | get_character (112), frobenius_schur_indicator (266) | RepModel | C29, C57 |
| | project_to_irrep (127) | ProjModel | C38, C46, C73 |
| | is_unitary (235), is_representation (244) | RepModel | C45, C61 |
| | check_spacegroup_representation (294) | SmallModel | C45 |
| | get_direct_product (328) | RepModel | C39, C73 |
| irreps.py | enumerate_small_representations (28) | SmallModel | C27, C29, C32, C51, C55, C56, C57, C58, C59 |
| | enumerate_unitary_irreps (144) | SmallModel | C25, C27, C30-C32, C51, C68, C69 |
| | enumerate_unitary_irreps_from_regular_representation (243) | RandomModel | C25, C72 |
| | decompose_representation (305), _get_irreps_from_matrix (352) | RandomModel | C26, C52, C72 |
| | enumerate_unitary_irreps_from_solvable_group_chain (408) | ChainModel | C22-C24, C55, C72 |
| | get_physically_irrep (562) | SmallModel | C30-C32, C69 |
| | is_equivalent_irrep (627) | RepModel | C21-C24, C32, C61 |
| | purify_irrep_value (636), purify_real_irrep_value (655) | SmallModel | C44 |
| core.py | get_spacegroup_irreps (33), _adjust_phase_for_centering_translations (694) | CentringModel | C28, C53, C66, C72 |
| | get_spacegroup_irreps_from_primitive_symmetry (134), get_crystallographic_pointgroup_irreps_from_symmetry (218) | SmallModel | C27, C29, C47, C57, C66, C68, C69, C72 |
| | the three spinor functions (268, 463, 596) | SpinorModel (no time reversal), CorepModel (time reversal) | C35, C37, C48, C49, C67, C74 |
| spinor.py | all four functions (15, 97, 148, 176) | SpinorModel | C33, C34 |
| corep.py | enumerate_spinor_small_corepresentations (24), get_corep_spinor_factor_system (245) | CorepModel | C36, C37, C54, C62-C65, C70 |
| tensor.py | get_symmetry_adapted_tensors (14), apply_intrinsic_symmetry (83) | TensorModel | C41, C42, C71 |
| utils.py | is_integer_array (18), ndarray2d_to_integer_tuple (24), is_prime (49), nroot (57) | UtilModel | C43 |
| | grassmann_distance (66) | ProjModel | C50 |
| | mode_dot (124) | ModeModel | C40 |
| | get_symmetry_from_hall_number (31) | not modelled (wrapper around spglib) | - |

Oracles.  What the program obtains from NumPy or spglib is an argument of the model:

* record `numpy` (SmallModel): `np_around`, `np_powinv`, `np_nroot`, `np_rnd` (random
  Hermitian matrices), `np_exp`, `np_eigh`, `np_qr`, `np_hrnd`, `np_key_le` (order of the
  sort keys), `np_int` (rounding to integers), `np_eig`, `spglib_pointgroup`.  The claims
  constrain them by predicates of the Spec files (e.g. `exp_spec`, `numpy_ok`, `eig_ok`, `trig_ok`, `linalg_ok`): eigenvalues
  real, eigenvectors orthonormal, exp additive and equal to 1 exactly at integers, and so on.
* record `linalg` (ProjModel): `la_qr`, `la_svd`, `la_arccos`, specification `linalg_ok`.
* record `oracles` (ChainModel): rounding, roots, exp, the tolerance `or_atol`.

For every such specification the development contains a proof that it can be met over every
field considered: ExpInstance.v (exp), SpectralTheory.v (eigh), LinAlgExists.v (qr, svd),
SpinorExamples.v (trigonometry, eig).  The field of algebraic complex numbers is used in the
examples (`algCF`, ClaimsSmall.v).

Where the code and its documentation disagree, the property is split: the part that holds is
proved, the rest has a theorem whose name ends in `_refuted`, which evaluates the modelled
function on a concrete input and contradicts the documented claim.  These concern C06, C07, C10, C12,
C16, C19, C26, C28, C31, C32, C37, C38, C40, C41, C42, C43, C49, C51, C52, C53, C54, C56, C60, C65, C74 (length of anti_linear); the note
of each claim in MANIFEST.json says what fails.

## 5. What is not modelled

* Floating-point rounding, except in C60.  All other arithmetic is exact, so a proof says
  nothing about the accumulated error of a run.  Comparisons with a tolerance are modelled with
  the tolerance.  C60 (FloatModel.v) rounds every operation of the lattice comparisons to
  binary64; overflow, infinities and NaNs are excluded by bounds on the inputs.
* Run time and memory.
* spglib itself: its answers are arguments (symbol and transformation matrix).
  get_symmetry_from_hall_number is a wrapper around it.
* The distribution of random numbers: the stream of random matrices is an arbitrary argument.
* The text of warnings.  A warning is the outcome `CWarn`, or the value returned after it.
* NumPy broadcasting and dtype errors other than those the definitions raise explicitly
  (tensor lists of different shapes and integer dtypes in apply_intrinsic_symmetry are
  outside the model).
* Files outside src/spgrep (documentation, tests, benchmarks).

## 6. Trusted base

* Coq's kernel (the .vo files are checked again by coqchk).
* `Print Assumptions`, for every theorem named in MANIFEST.json (printed by
  `python3 tools/assumptions.py`, and beside the theorems in the Claims files): "Closed under
  the global context", with these exceptions.  `C43_nroot`, `C43_nroot_angle`, `C43_nroot_principal`,
  `C43_polar_coordinates` and all theorems of C60 speak about the standard library's real
  numbers (C60 through Flocq, which has no axioms of its own) and use
  `ClassicalDedekindReals.sig_forall_dec`, `ClassicalDedekindReals.sig_not_dec`,
  `Classical_Prop.classic` and `FunctionalExtensionality.functional_extensionality_dep`,
  all of the standard library.
* coqchk additionally lists constants sealed by mathcomp's own modules (`BigOp.bigop`,
  `Finfun`, `algC`, ...).  They are defined inside mathcomp, not axioms.
* The correspondence between each definition and the source lines cited beside it.
* The specifications of the oracles (hypotheses of the theorems, satisfiable as said above).
* tools/gen_pointgroup.py, which copies the literal tables into PointGroupData.v.

## 7. Checks of the theorems themselves

Beside each theorem with hypotheses there is an `Example` (or a refutation using the same
hypotheses) with concrete data meeting them.  seeded/LOG.jsonl records the mutation tests: the
model is edited the way a programming error would change the program, everything is rebuilt,
and the claims that no longer prove are listed.  A claim that survives an edit that falsifies
it has been tightened (field `tightened`).

Rebuild: `cd rocq && coq_makefile -f _CoqProject -o Makefile && make -j4`.
`python3 tools/manifest.py` regenerates MANIFEST.json from the Claims files and
tools/notes.json.
