# Formal model of NewtonianEotWashToolkit in Rocq (Coq 8.16.1)

Layout of `rocq/theories`: *model* files follow `/repo/newt` function by function (each definition cites file and
lines); *specification* files (`*Spec.v`) state in textbook terms what a result should be and know nothing about the
code; *proof* files connect the two; `Props_*.v` hold the theorems named in `MANIFEST.json`, each followed by a
concrete case meeting its hypotheses and by `Print Assumptions`.  `seeded/LOG.jsonl` records the wrong programs tried.

## 1. What is modelled, and how

* **Numbers.** Python floats are the real numbers `R` of Coq's standard library, complex numbers Coquelicot's `C = R*R`.
  Rounding, overflow and signed zeros are NOT modelled: every theorem is about exact arithmetic, except those of C64, C75, C76, C79 and C84-C86,
  where `FlGlib.v`, `FlMoves.v`, `FlYuk.v`, `FlMom.v`, `FlMoms.v` and `FlOut.v` model the point functions of glib.py (gmmr2_array, point_matrix_gravity,
  point_matrix_yukawa, translate_point_array, rotate_point_array) and qmoment, qmoments, Qmomentb and Qmomentsb of pg2Multi.py with every operation rounded (any rounding of bounded relative error,
  binary64 as an instance through Flocq, no overflow or underflow).  Division by zero is
  never silently totalised: where numpy would produce nan/inf the model returns `Err NotFinite`; division of Python
  floats by zero is `Err ZeroDivision`.
* **Exceptions** are values: `res A := Ok a | Err e` (`ValueError`, `TypeError`, `IndexError`, `AttributeError`,
  `ZeroDivision`, `LookupFail` = FileNotFoundError, `UnboundLocal`, `NotFinite`).
* **Arrays.** A moment array is its degree L and an indexing function on the (L+1) x (2L+1) grid, column index L+m as in
  the code, so slices, `fliplr` and offsets are modelled as written.  Point arrays are one row or a list of rows
  `(m,(x,y,z))`.  Integer parameters (LMax, grid counts) are exact; LMax >= 0 unless a theorem says otherwise.
* **Loops** `for k in range(a,b)` are sums/folds over the same range in the same order.
* **Library functions** are modelled by their textbook definition: `gammaln(n+1)` = ln n!, `factorial`, `comb`, `sph_harm`
  (normalisation * P_l^m * e^{im phi}), `lpmn` (upward recurrence), `arctan2`, `toeplitz`/`hankel`, `np.linalg`-free dot
  products, `arccos`, `spherical_in/kn` (parameters).  Kept as *parameters* of the model, with what the theorems need of
  them as explicit hypotheses: `scipy.integrate.tplquad` (accuracy eps), `numpy.polynomial.legendre.leggauss`
  (exactness of the rule, `GLSpec.rules_at`), the special functions of `qlmACH.cylhole*`, the random draws of
  `glibShapes.spherical_random_shell`, the Bessel functions of `pg2Multi.imoments`.
* **Text files**: the file system is a map from paths to lists of lines; strings are ASCII; `float()`/`int()` are the exact
  decimal value (no `_` separators); printing is dropped.
* **Meshes** (genCAD): a cadquery solid is the set of its points; cadquery's primitives are trusted to build what their
  documentation says.
* **Shape objects**: a store of named objects and a list of method calls (`Shapes.run`), an exception leaving the
  object in the state reached; aliasing of one Python object under two names is modelled in `ShapesHeap.v` (C65), and
  `save_shape` as writes to a map from file names to contents (`Save.v`, C74).

| source file | model file | parts not modelled |
|---|---|---|
| glib.py | Glib.v; FlGlib.v, FlMoves.v, FlYuk.v (rounded arithmetic) | display_points (plotting) |
| pg2Multi.py | Pg2Multi.v; FlMom.v (qmoment in rounded arithmetic), FlMoms.v, FlOut.v (qmoments with no point at the origin, Qmomentb and Qmomentsb likewise); Memory.v (the moment arrays as shared buffers) | Bessel function a parameter |
| clebschGordan.py | ClebschGordan.v | half-integer arguments |
| translations.py | Translations.v | - |
| translationRecurs.py | TranslationRecurs.v, Yukawa.v (the Yukawa variants) | - |
| rotations.py | Wigner.v, Rotations.v | - |
| multipoleLib.py | MultipoleLib.v | - |
| qlm.py | Qlm.v, QlmCyl.v (cyl_mom) | - |
| qlmACH.py | QlmACH.v | special functions of cylhole, cylhole2 are parameters, assumed in C39 to be the functions they are named after (`EllSpec.v`; existence proved) |
| bigQlm.py | BigQlm.v | - |
| qlmNum.py, bigQlmNum.py | QlmNum.v | printed error estimates; tplquad a parameter |
| glibShapes.py | GlibShapes.v | random generator (its draws are an input) |
| gShapeGL.py | GShapeGL.v | leggauss a parameter, pinned by `GLSpec.gauss_rule` (exactly one rule satisfies it: Gauss.v) |
| shapes.py | Shapes.v, ShapesHeap.v (aliasing), Save.v (save_shape) | text format of the numbers written |
| genCAD.py | GenCad.v, Save.v (save_stl) | tessellation, cadquery errors on degenerate sizes |
| read_multiFor.py | PyStr.v, ReadMulti.v | printing; numpy warnings |
| constants.py | Glib.v (BIG_G) | - |
| example/test_ligo.py, test_ligo2.py, test_virgo.py | Rotor.v, RotorLoop.v | plotting; the hole variants of test_ligo2.py; the timing scripts |
| matlab-src/*.m | Matlab.v | displayPoints*, SampleDemo, scanToPMArray (griddata), genPointMassRoundXSheet (empty file); the random shell's draws are an input |

Points where exact arithmetic and floating point differ qualitatively, and the choice made: `tri_iso_prism2` at
phih = pi/2, `ngon` with N = 1, 2, `annulus` with Ro = Ri, qlmACH.trapezoid with equal widths, `platehole` with
cos(theta) = 0 are `NotFinite` in the model (floats give huge numbers or nan).

Larger groups of proof files: `Refine.v`...`Refine10.v`, `Polar.v` and `RefineSpec.v` (C77: the arrays of glibShapes stand in
the limit for the solids), `Fine.v`...`Fine5.v` and `FineSpec.v` (C78: how fast), `Budget.v` (C80: rounding and discretisation
together), `MemSpec.v`, `MemRun.v`, `MemProofs.v` (C81: moment arrays sharing memory), `Quad.v`, `QuadSpec.v` (C82: Gauss-Legendre
bricks), `GLEven.v`, `GLLimit.v`, `GLCount.v`, `GLPieces.v`, `GLTends.v`, `GLShapes.v`, `GLSolid.v`, `GLPrism.v`, `GLSound.v` and
`GLRefineSpec.v` (C83: the arrays of gShapeGL in the limit), `FlMomSpec.v` (C84).

## 2. Per property: what is modelled and how it is proved

| property | model and specification | proof |
|---|---|---|
| C01 | Glib.v; GlibSpec Newtonian force/torque of point sets | vector algebra over lists, induction over rows |
| C02 | same | exchange of the double sum, antisymmetry of each pair |
| C03 | same; gradients | Coquelicot derivatives of the pair potentials |
| C04 | same | moments of force over lists |
| C05 | rodrigues rotation | isometry algebra |
| C06 | translate/rotate_point_array | group laws, equivariance of force and torque |
| C07 | yukawa_array | limit and sign statements on the Yukawa factor |
| C08 | Pg2Multi.v; MomentSpec solid harmonics | recurrence of lpmn against the explicit solid harmonics (Tri.v) |
| C09 | same, zero-radius handling | case analysis on the compressed arrays |
| C10 | same | linearity over lists |
| C11 | every producer of moment arrays | reality symmetry from Arr.reflect, preserved by every operation |
| C12 | same | monopole entry |
| C13 | same | low-degree entries in closed form |
| C14 | ClebschGordan.v; CGSpec | factorial identities |
| C15 | same | symmetries, orthogonality of the special cases used |
| C16 | Translations.v; TransSpec | addition theorem for divided powers (Tri.v) |
| C17 | same | binomial identities; composition |
| C18-C22 | TranslationRecurs.v | closed forms of the coaxial matrices; conjugation by Wigner matrices |
| C23-C27 | Wigner.v, Rotations.v; RotSpec | generating function of the solid harmonics, recursion lemmas |
| C28-C30, C34 | MultipoleLib.v | differentiation of solid harmonics, adjointness |
| C31-C33 | MultipoleLib.torque* | Fourier form of the energy and its derivative |
| C35, C36 | Qlm.v; SolidSpec (bodies as iterated Riemann integrals) | closed forms of the monomial integrals, VInt.v body calculus |
| C37 | guards of qlm, qlmACH, bigQlm | case analysis on the real comparisons |
| C38 | Qlm.v, QlmACH.v | homogeneity of each entry |
| C39 | `QlmACH.v`; `AchSpec.v`, `EllSpec.v` | each table cell against the volume integral (AchProofs*); crossed cylinders: x = r sin u reduces the monomial integrals to three, which integration by parts (`Elliptic.v`) gives in terms of E and K and the binomial series (`Hyper.v`) as 2F1 |
| C40 | GlibShapes.v; PointSpec | sums over grids; containment; total mass; refutations with witnesses; the limit of the sphere arrays by C77 and the exact (4,0) moment of a cube |
| C41 | GShapeGL.v; GLSpec | exactness of product rules; existence and uniqueness of the rules from Legendre's equation, interlacing of zeros and Lagrange interpolation (Gauss.v) |
| C42, C43 | PyStr.v, ReadMulti.v; ReadSpec | parser lemmas; a reference interpreter of the mpc language |
| C44, C45 | Shapes.v, GenCad.v; ShapeSpec | induction over programs (lists of method calls) |
| C46 | Newton.v; NewtonSpec | Legendre generating function, addition theorem, geometric tail |
| C47 | Pg2Multi.imoments | characterisation for all inputs and a refuting instance |
| C48 | BigQlm.v; BigSpec | antiderivatives in r and z (AnnInt.v), cell by cell |
| C49 | Shapes.v subclasses | reduction to C35/C36/C48 and to the mesh definitions |
| C50-C52 | QlmNum.v; NumSpec | integrands = solid harmonics; existence of the iterated integrals; uniqueness of integrals for the agreement |
| C53 | GenCad.v; PointSpec regions | convex hulls: barycentric coordinates one way, supporting half-spaces the other; roots of unity for the polygon's centre |
| C54 | Yukawa.v; YukSpec | induction over columns; closed form from the Bessel recurrence; derivative of i_1 |
| C55 | QlmCyl.v; SolidSpec | ladder relations of the solid harmonics give the antiderivative in radius and height; Legendre recurrences from Solid.v |
| C56 | `ClebschGordan.v`; `sum_to`, `kron`, `ladder`, `couples` (Props_CG2) | ladder recursion of Racah's sum by telescoping; orthogonality from the ladder, norm from a Vandermonde convolution at M=J, completeness by a trace argument (a square matrix with orthonormal rows has orthonormal columns) |
| C57 | `Rotor.v` (example scripts); `divides`, `ring_of` (Props_Rotor) | roots of unity; rotation about z multiplies by a phase; the force depends on the entries with abs(m) <= l only |
| C58 | `Rotor.v`; `self_mirror`, `flat` (Props_Rotor) | parity of the solid harmonics under z -> -z, carried through every matrix element |
| C59 | `Translations.v`, `TranslationRecurs.v`; `SeriesSpec.v` | derivatives of the irregular solid harmonics along a line, Cauchy form of Taylor's remainder, Unsoeld bounds from the addition theorem (`Irreg.v`) |
| C60 | `Translations.v`, `MultipoleLib.v`, `Rotor.v`, `Glib.v`; `separate`, `near` in `Props_Series2.v`, `NewtonSpec.v` | double Taylor expansion of the irregular solid harmonics with a square-versus-triangle truncation bound (`Irreg2.v`), derivatives of the truncated energy along a motion |
| C61 | `Translations.v`, `MultipoleLib.v`; `BuiltSpec.v`, `BodySpec.v`, `SolidSpec.v`, `ShapeSpec.v`, `AchSpec.v`, `BigSpec.v` | locally Lipschitz integrands are integrable over every buildable body (`LipInt.v`, `BodyInt.v`, `BodyShapes.v`, induction on the way it is built); the uniform pointwise error bounds of C60 integrated (`BodyLim.v`) |
| C62 | `Qlm.v`, `Pg2Multi.v`, `Rotations.v`, `Translations.v`, `TranslationRecurs.v`, `MultipoleLib.v`, `Rotor.v`; `RecipeSpec.v`, `BuiltSpec.v`, `BodySpec.v` | induction on the expression with C08, C16, C18, C23, C35, C36; then C61 |
| C63 | `Wigner.v`, `Rotations.v`; `RotSpec.v`, `rotation` in `Props_Rep.v` | the solid harmonics of one degree are linearly independent (derivatives lower the degree; discrete Fourier analysis in the azimuth), so the matrix of a rotation is unique; Euler decomposition from the image of the z axis |
| C64 | `FlGlib.v` (rounded model), `Glib.v`; `FloatSpec.v` | error counters (1-u)^k through the operations, induction on the summation tree and on the loop; Flocq's relative error of rounding to nearest for the instance |
| C65 | `ShapesHeap.v` (storage model) on top of `Shapes.v`, `GenCad.v`; `ShapeSpec.v` | refinement: separation is an invariant and every call commutes with reading the attributes; case analysis of what one call writes, induction on the history |
| C66 | `Matlab.v` beside `Glib.v` | fold fusion of the two loops; Rodrigues matrix with the angle negated; closed form by algebra |
| C67 | `Matlab.v`; `MomentSpec.inner_moment` | parity of the solid harmonics under z -> -z, arctan2 in polar coordinates, case split on the axis |
| C68 | `Matlab.v`; `PointSpec.fills` | the loops enumerate the lattice of PointSpec (permutation), filter = region; sums of roots of unity |
| C69 | `Matlab.v` with the generator's output as an argument | induction on the draws |
| C70 | `Matlab.v`; ols is an argument that satisfies the normal equations | floor inequalities summed over the map; least squares by expanding the squares |
| C71 | `RotorLoop.v` (the loops) on `Rotor.v` | induction on the steps with C63; linearity of the force in the orders; sums of roots of unity |
| C72 | models as for C46 | the gradient of r^n P_n has length at most n r^(n-1) (Legendre energy inequality), geometric tails, limits |
| C73 | models as for C59, C60 | triangular kernels bounded through an l2 (rotation-invariant) estimate, binomial sums, geometric tails |
| C74 | Save.v: file system as a map from names to contents; programs extend those of C45 | induction over the program with the invariant of C45 plus agreement of the files with a log of beliefs |
| C75 | FlMoves.v: each float operation is rounded by an unspecified function of relative accuracy u, dot products as any bracketing | matrix entries compared with the exact axis rotation, then induction over the program with the invariant (distance, error) |
| C76 | FlMoves.v and FlGlib.v composed | perturbation bound of the inverse-square kernel for displaced points, summed over matching lists, added to C64's bound for the displaced arrays |
| C77 | GlibShapes.v, Glib.v, Pg2Multi.v; RefineSpec.v says what a digitised distribution is | midpoint sums over the cells of a lattice selected by graphs tend to iterated integrals, for functions uniformly continuous on bounded sets; for the round solids, four pieces of the sector in Cartesian coordinates, each turned into polar coordinates (Polar.v: smoothing, the fundamental theorem, Fubini); induction over the digitised distributions; kernels of the attraction are Lipschitz on the separated balls; C40, C08, C61 |
| C78 | GlibShapes.v, Glib.v, Pg2Multi.v; FineSpec.v says what array stands for what distribution and how far from it it is | the midpoint rule errs by at most K (b-a) c/4 on cells of length c, iterated three times; induction over the ways of putting arrays together; the kernels, extended to all points, are Lipschitz with explicit constants (mean value theorem, a radial lemma, projection onto the ball); the gradient of a solid harmonic from its neighbours of degree l-1; C40, C08 |
| C79 | FlYuk.v: the code with a rounding after every operation and sums in any order, overflow and underflow aside; FlYukSpec.v: accuracy and sizes | relative errors compose through the code; the rounding of the argument of the exponential becomes a factor within exp(+-a7 d/lambda) of each exact term, carried through the sums; IEEE double precision by Flocq |
| C80 | the models of C61, C72, C73, C76, C78, C79 together | Budget.v: a gridded distribution weighs at most M, so the truncation bounds of C72/C73 get explicit constants; then the triangle inequality over truncation, fineness (C78) and rounding (C76, C79) |
| C81 | Memory.v: a heap of buffers, references that may be flipped views, the loops of each function as loads, copies, allocations and stores; MemSpec.v: values with sharing labels | MemProofs.v: each heap function computes the value of the functional model and writes only to buffers it made (frame lemma per function, by loop induction); Props_Memory.v: refinement of labelled values by the heap for programs of any length, by induction |
| C82 | GShapeGL.v, Glib.v and Pg2Multi.v as they are; QuadSpec.v: the arrays and the solids they stand for, by induction; the solids' force and torque are double integrals (BodySpec) | Quad.v: polynomials of degree N integrate exactly, kept under translation, rotation and union; Props_Quad.v: all moments through N agree, so both interactions have the same multipole sums through N and differ by at most twice the truncation (C72, C73); the torque's other components by turning the axis onto z |
| C83 | GShapeGL.v, Glib.v and Pg2Multi.v as they are; GLRefineSpec.v: the families of arrays and the solids, by induction, each solid an iterated integral | GLEven.v: the nodes of a rule are equidistributed, by polynomials near a step; GLLimit.v, GLCount.v: the sums over a product of rules of a continuous function on a solid between graphs tend to its integral; GLPieces.v, GLShapes.v, GLSolid.v, GLPrism.v: each shape is made of such solids; GLTends.v: dividing by the sum, as correct_mass does; then the limits of C77 |
| C84 | FlMom.v: qmoment with a rounding after each operation and the library functions as parameters; FlMomSpec.v: their accuracy | the computed angles are those of a unit vector within 169 sqrt u of the exact one (209 u/s off the axis); the solid harmonics are Lipschitz on it; signed sums in any order; rnd(sqrt(rnd(z z))) >= abs z in radix 2 |
| C85 | FlMoms.v over FlMom.v: the cells, the reflection and the halving, each operation rounded | the three cases of the reflection each add at most 8 roundings to the cell of positive order; then C84, and the exact array by C08 |
| C86 | FlOut.v over FlMom.v, FlMoms.v: the terms, the division, the reflection, each operation rounded | as C84 and C85, the division adding 5 roundings to those of the power of the distance; the exact moments by C10 |

Titles, exact theorem names and remarks are in `properties.jsonl` and `MANIFEST.json`. Where a property is false of the code, the theorem named for it characterises what the code does for all inputs and shows an input on which it deviates.

Status: 86 properties, 613 theorems, none partial.

## 3. Trusted base

* Coq 8.16.1's kernel and the standard library; Coquelicot and, for C64, C75, C76, C79, C80 and C84-C86, Flocq (definitions and proved lemmas only; they add no axiom).
* The axioms of the standard library listed below, per theorem.  `ClassicalDedekindReals.sig_forall_dec`,
  `sig_not_dec` and `functional_extensionality_dep` come with the real numbers; `Classical_Prop.classic` with classical
  lemmas about integrals and limits.  There are no axioms of this development, no `Admitted`, no functors or module types.
* The reading of the Python code recorded in the comments of the model files, and of numpy/scipy as described in section 1.
* The specification files (`MathSpec, GlibSpec, MomentSpec, CGSpec, TransSpec, RotSpec, SolidSpec, AchSpec, BigSpec,
  NumSpec, ShapeSpec, ReadSpec, PointSpec, GLSpec, NewtonSpec,
  YukSpec, SeriesSpec, BodySpec, BuiltSpec, RecipeSpec, FloatSpec, FlYukSpec, FlMomSpec, EllSpec, RefineSpec, FineSpec,
  MemSpec, QuadSpec, GLRefineSpec`), which say what the English properties mean.  In particular a
  *body* is an iterated Riemann integral (`SolidSpec.is_int3`) with the volume element written out; Fubini is not used.

## 4. What `Print Assumptions` lists, theorem by theorem

* **no axioms (closed under the global context)** (7 theorems): C65_any_start, C68_empty_ring, C43_replace_first, C43_replace_absent, C74_save, C74_nothing_written, C44_mesh.

* **`ClassicalDedekindReals.sig_forall_dec`** (8 theorems): C05_translate_pointwise, C05_translate_length, C66_translatePMArray, C34_embed, C34_up_then_down, C34_same_degree_and_negative, C27_mismatch_returns_input, C19_wrong_length.

* **`ClassicalDedekindReals.sig_forall_dec`, `FunctionalExtensionality.functional_extensionality_dep`** (57 theorems): C64_size, C75_translate, C41_rectangle_inside, C41_annulus, C41_cone, C41_tri_prism, C41_tri_prism_misses, C41_exact, C05_translate_identity, C05_translate_additive, C40_rectangle, C40_rectangle_equal_counts, C40_rectangle_outside, C40_tri_prism, C40_tri_prism_below, C40_tri_prism_all_below, C40_tetrahedron, C40_tetrahedron_below, C40_tetrahedron_all_below, C40_tri_order, C40_pyramid, C40_pyramid_half_size, C68_rect, C68_rect_as_in_python, C68_line, C68_line_start_ignored, C69_rectangle, C69_scatter, C70_points, C70_mass, C70_no_mass, C70_distinct, C70_scan, C70_scan_affine, C70_flat, C70_regression, C53_tetrahedron, C53_trapezoid, C53_cylhole_mesh_is_not_the_hole, C34_embed_keeps_symmetry, C44_new_shape, C42_extension_is_optional, C42_missing, C42_gsq, C42_gbq, C42_too_many_lines, C42_blank_line, C11_moment_files, C11_any_moment_file, C27_right_is_transpose, C44_add_sums, C44_single_shape_is_a_list_of_one, C44_cancelling_masses, C44_bad_arguments_change_nothing, C49_pyramid_mesh_is_half_size, C49_cylhole_mesh, C19_right_is_transpose.

* **`ClassicalDedekindReals.sig_forall_dec`, `ClassicalDedekindReals.sig_not_dec`, `FunctionalExtensionality.functional_extensionality_dep`** (118 theorems): C37_ach_rect_prism, C37_ach_annulus, C37_ach_cone, C37_ach_tri_prism, C37_ach_trapezoid, C37_ach_tetrahedron, C37_ach_cylhole, C37_ach_pyramid, C37_ach_platehole, C38_ach_rect_prism, C38_ach_annulus, C38_ach_cone2, C38_ach_tri_prism, C38_ach_trapezoid, C38_ach_tetrahedron, C38_ach_pyramid, C38_ach_platehole, C38_ach_cylhole2, C38_ach_cone, C38_ach_cone_50_breaks_the_law, C38_ach_cylhole, C38_ach_cylhole_22_44, C61_points, C64_rounding, C64_results_exist, C64_coincident_points_have_none, C64_no_cancellation, C64_third_law, C75_rotate, C75_history, C75_results_exist, C76_moved_gravity, C76_results_exist, C79_results_exist, C41_sphere, C01_third_law_gravity, C01_third_law_yukawa, C02_superposition_gravity, C02_superposition_yukawa, C02_order_independent, C02_one_row, C03_one_row, C04_translation, C04_rotation_gravity, C04_rotation_yukawa, C06_rotation, C06_rotation_unique, C06_angles_add, C06_full_turn, C06_axis_length, C06_zero_axis, C06_coordinate_axes, C07_gravity_finite_iff, C07_gravity_failure_is_notfinite, C07_gmmr2_finite_iff, C03_two_points, C03_inverse_square, C03_yukawa_factor, C06_x_axis, C40_sphere_is_a_cube, C40_sphere_misses, C40_annulus, C40_cylhole, C40_platehole, C40_platehole_negative, C40_platehole_narrow, C40_random_shell, C66_pointMatrixGravity, C66_rotatePMArray, C66_zero_axis, C66_quarter_turn, C66_turned_attractor, C66_dumbbell_torque, C68_annular_sheet, C68_symmetric, C68_ring, C69_disk_refused, C69_disk, C69_disk_points, C69_shell, C53_annulus, C53_cone, C53_tri_iso_prism, C53_tri_iso_prism2, C53_platehole_mesh, C53_outercone, C08_solid_is_sph_harm, C10_outer_spherical, C13_inner_linear_in_mass, C49_OuterCone_calls, C51_outer_cone_reaching_origin, C11_numerical_moments_reality, C38_sphere, C72_in_balls, C73_in_balls, C42_gsq_units, C42_gbq_units, C43_parts_directory, C43_parts_same_directory, C24_Dl_is_Dlmn, C25_unitary, C25_identity, C25_product, C57_axisymmetric_no_torque, C58_mirror_moments, C49_ngon_mesh, C31_torque_moments, C31_nc_real_ns_imaginary, C31_torques_at_angle_formula, C32_torque_lm_needs_equal_degrees, C32_torque_lm_of_a_1x1_array, C54_reciprocity, C54_zero_displacement, C54_RR_sectorial, C54_SR_sectorial, C54_errors, C54_opposite_displacement_transposes, C54_columns.

* **`ClassicalDedekindReals.sig_forall_dec`, `ClassicalDedekindReals.sig_not_dec`, `Classical_Prop.classic`, `FunctionalExtensionality.functional_extensionality_dep`** (423 theorems): C39_rect_prism, C39_annulus, C39_cone, C39_cone2, C39_tri_prism, C39_trapezoid, C39_cylindrical_section, C39_tetrahedron, C39_platehole, C39_pyramid, C39_trapezoid_44, C39_cone_50, C39_cone2_20, C39_cone2_20_wrong, C39_cone_50_wrong, C39_trapezoid_44_wrong, C39_rect_prism_agrees, C39_annulus_agrees, C39_tri_prism_agrees, C39_tetrahedron_agrees, C39_pyramid_agrees, C39_cone2_agrees_with_cone, C37_ach_cylindrical_section, C11_qlmACH_reality, C39_rows_above_5_are_zero, C38_ach_cylindrical_section, C12_ach_monopole, C48_sphere_is_a_point_mass, C48_sphere_at_the_origin, C37_big_sphere, C37_big_annulus, C11_bigQlm_reality, C48_annulus, C48_annulus_20, C48_annulus_20_wrong, C48_annulus_53_wrong, C48_annulus_azimuth_wrong, C61_integral_unique, C61_energy, C61_force, C61_torque, C80_force, C80_torque, C80_force_in_floats, C80_torque_in_floats, C80_gravity_in_floats, C80_yukawa_in_floats, C80_bricks, C14_implementations_agree, C15_selection_rules, C15_racah_formula, C15_stretched, C15_lowered, C15_sign_reversal, C15_exchange, C56_orthonormal, C56_complete, C56_raising, C56_lowering, C56_bounded, C56_cgCoeff2_orthonormal, C39_cylhole2, C39_cylhole, C39_cylhole_22_44, C39_cylhole_never_right, C39_cylhole_agree, C39_special_functions, C55_m0_is_a_multiple_of_the_moment, C55_density_ignored, C55_order_at_least_degree_raises, C55_returns, C55_homogeneous, C55_odd_degree_zero, C55_order_one_wrong, C78_integral, C78_moments, C78_gravity, C78_yukawa, C78_bricks, C78_brick_moments, C64_binary64_is_accurate, C64_binary64, C75_binary64, C76_binary64, C79_rounding, C79_coincident_points_have_none, C79_size, C79_no_cancellation, C79_exp64_is_accurate, C79_binary64, C84_rounding, C84_off_axis, C84_lost, C84_cosine_in_range, C84_results_exist, C84_binary64, C40_sphere_moments_of_a_cube, C40_sphere_moments_not_a_balls, C85_rounding, C85_off_axis, C85_results_exist, C85_lost, C86_single, C86_array, C86_off_axis, C86_origin, C86_results_exist, C41_rectangle_mass, C41_rectangle_moments, C41_rectangle_rect_prism, C41_too_many_z, C41_annulus_too_thick, C41_wedge, C41_annulus_lopsided, C41_rule_exists, C41_rule_unique, C41_rules_exist, C41_same_rectangle, C41_same_round, C41_same_tri_prism, C41_legendre, C41_rule_symmetric, C83_arrays_exist, C83_moments, C83_gravity, C83_yukawa, C83_two_ways, C83_annulus, C83_wedge, C83_brick, C03_gravity_is_minus_gradient, C03_yukawa_is_minus_gradient, C40_cylindrical, C40_cylindrical_back, C40_wedge, C40_cone, C40_outer_cone, C40_trapezoid, C40_trapezoid_wide, C40_ngon_prism, C40_zero_mass, C65_values, C65_exceptions, C65_any_history, C65_moment_arrays_are_snapshots, C65_com_changes_only_by_translate, C65_kept_com_is_live, C65_unheld_com_is_frozen, C65_rotate_detaches_kept_com, C65_add_detaches_kept_com, C65_mesh_solids_are_snapshots, C65_mesh_changes_only_by_singleton_sum, C65_drawing_a_hole_flips_it, C65_shallow_copy_follows_translate, C65_shallow_copy_ignores_rotate, C67_computeMoments, C67_right_for_even, C67_sign_for_positive_m, C67_zonal, C67_against_qmoment, C67_wrong_sign_case, C67_bad_order, C67_summary, C81_calls, C81_torque, C81_history, C81_values, C81_reader, C81_zero_shift_shares, C81_other_calls_do_not, C53_Annulus, C53_Cone, C53_RectPrism, C53_TriPrism, C53_Tetrahedron, C53_Sphere, C53_Pyramid_is_half_size, C53_NGon_has_half_the_side, C08_qmoments, C08_qmoments_spherical, C08_qmoment_single, C09_qmoments_index_error_iff, C09_qmoments_degree0, C09_qmoment_value_error_iff, C10_Qmomentsb, C10_Qmomentb_single, C10_Qmomentsb_origin_loses_everything, C11_point_moments_reality, C11_outer_point_moments_reality, C12_point_monopole, C13_additive, C13_order_irrelevant, C13_outer_additive, C13_mass_scaling_of_arrays, C47_imoments_uses_max_order, C47_imoments_refuted, C28_force_basis_is_gradient, C29_degree_zero, C30_force_is_gradient, C30_force_is_gradient_all_arrays, C30_force_on_a_body, C30_force_is_real, C30_force_by_order, C49_OuterCone_forgets_its_moments, C46_potential, C46_torque, C46_torque_outer, C46_force, C46_rate, C50_cyl_mom, C50_cone_mom, C50_trap_mom, C50_steinmetz, C50_platehole, C51_annulus, C51_trapezoid, C51_outer_cone, C52_annulus, C52_outer_annulus, C11_any_geometry_file_numerical, C49_cylhole_moments, C49_platehole_moments, C35_cylinder, C35_annulus, C35_cone, C35_sphere, C35_annulus_without_hole_is_cylinder, C36_tri_prism, C36_tri_iso_prism, C36_tri_iso_prism2, C36_rect_prism, C36_ngon_prism, C36_tetrahedron, C36_tetrahedron2, C36_pyramid, C11_analytic_moments_reality, C12_analytic_monopole, C37_cylinder, C37_cone, C37_annulus, C37_tri_iso_prism, C37_tri_iso_prism2, C37_tri_prism, C37_rect_prism, C37_ngon_prism, C37_tetrahedron, C37_tetrahedron2, C37_pyramid, C38_cylinder, C38_annulus, C38_cone, C38_tri_iso_prism, C38_tri_iso_prism2, C38_tri_prism, C38_rect_prism, C38_ngon_prism, C38_tetrahedron, C38_tetrahedron2, C38_pyramid, C82_moments, C82_gravity, C82_bricks, C82_any_accuracy, C72_force, C72_torque, C72_torque_outer, C72_attained, C73_energy, C73_force, C73_torque, C73_script, C73_bodies, C43_program_moments, C43_no_part_yet, C43_enough_passes, C43_origin_last, C43_remark_adds, C43_unknown_shape_skipped, C43_unknown_shape_last, C43_trapezoid_equal_sides, C43_frustum_wrong, C11_geometry_files, C11_any_geometry_file, C62_expressions, C62_energy, C62_force, C62_torque, C62_ligo_script, C62_virgo_script, C77_arrays_exist, C77_moments, C77_gravity, C77_yukawa, C77_two_ways, C77_brick, C77_annulus, C77_wedge, C77_cone, C63_same_rotation_same_matrix, C63_matrices_multiply_like_rotations, C63_rotating_twice, C63_same_rotation_same_result, C63_every_rotation_has_angles, C63_compositions_have_angles, C23_rotate_qlm_turns_the_body, C23_rotated_moments, C23_rotate_qlm_on_outer_moments, C23_outer_moments_turn_with_Ds_right, C11_rotated_arrays, C24_wignerDl_is_explicit, C24_dlmn_is_explicit, C25_rotation_inverse, C25_z_rotation, C26_degree_zero_fails, C26_only_degree_zero, C27_Ds_is_rotate_qlm, C27_interaction_invariant, C57_assembly_is_the_union, C57_n_fold_moments, C57_n_fold_torque, C57_n_fold_period, C58_no_force_out_of_the_plane, C58_mirror_bodies, C58_upright_shapes, C58_in_plane_translation, C58_in_plane_q2Q, C58_rotors, C58_laid_on_its_side, C57_ligo_rotor, C57_ligo_torque, C57_virgo_rotor, C58_test_mass, C58_script_forces, C71_one_step, C71_k_steps, C71_steps_about_z, C71_full_turn, C71_loop_forces, C71_two_scripts, C71_harmonics, C71_no_aliasing, C74_iterable_workplane_saves_nothing, C74_any_history, C74_files_stay, C59_q2Q_truncation_error, C59_Qlmb_truncation_error, C59_q2Q_limit, C59_Qlmb_limit, C59_recursive_q2Q_limit, C59_recursive_Qlmb_limit, C59_qmoments_q2Q, C60_energy, C60_force, C60_torque, C60_script, C16_any_body, C23_any_body, C45_any_history, C45_outer_to_inner_moves_half_the_state, C45_inner_to_outer, C45_rotating_an_outer_shape, C45_mesh_turns_in_the_opposite_order, C45_shape_without_mesh, C45_degree_is_lmax, C49_RectPrism, C49_NGon, C49_Sphere, C49_Annulus, C49_TriPrism, C49_Tetrahedron, C49_Pyramid, C49_Cone, C49_outer_primitives_are_empty, C49_outer_Sphere_forgets_its_moments, C49_outer_Annulus_has_half_the_mass, C49_renormalised_monopole, C31_total_is_derivative, C31_torques_at_angle, C31_torque_on_a_turning_body, C32_torque_needs_equal_degrees, C26_torque_fails_at_degree_zero, C33_unknown_type, C33_inner_inner, C33_inner_inner_at_angle, C33_inner_outer, C33_inner_outer_on_axis, C33_outer_outer_is_mirrored, C33_outer_outer_in_the_xz_plane, C33_inner_outer_on_axis_wrong_sign, C33_outer_outer_wrong_sign, C18_recursive_equals_clebsch_gordan, C18_moves_the_body, C18_all_arrays, C19_RR_shifts_the_body, C19_RR_group_law, C19_zero_not_finite, C20_SS_group_law, C20_recursive_equals_clebsch_gordan, C20_SS_adjoint_to_RR, C21_recursive_equals_clebsch_gordan, C21_recursive_q2Q_of_a_point_mass, C22_recursive_q2Q_zero_vector_is_a_copy, C22_modules_disagree, C26_degree_zero_translations_fail, C11_recursively_translated_arrays, C16_translate_qlm_moves_the_body, C16_translate_qlm_end_to_end, C17_translations_compose, C17_zero_is_identity, C17_inverse, C17_translated_entries, C11_translated_arrays, C20_outer_translation_group, C20_outer_adjoint_to_inner, C20_translated_entries, C21_q2Q_of_a_point_mass, C21_q2Q_reciprocity, C21_q2Q_entries, C22_q2Q_zero_vector_not_finite, C54_dipole_entry_wrong, C47_imoment_single, C47_imoment_domain, C47_imoments_top_row.
