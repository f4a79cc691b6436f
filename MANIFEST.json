{
 "claims": [
  {
   "property": "C01",
   "status": "proved",
   "theorems": [
    "C01_third_law_gravity",
    "C01_third_law_yukawa"
   ],
   "note": ""
  },
  {
   "property": "C02",
   "status": "proved",
   "theorems": [
    "C02_superposition_gravity",
    "C02_superposition_yukawa",
    "C02_order_independent",
    "C02_one_row"
   ],
   "note": ""
  },
  {
   "property": "C03",
   "status": "proved",
   "theorems": [
    "C03_gravity_is_minus_gradient",
    "C03_yukawa_is_minus_gradient",
    "C03_one_row",
    "C03_two_points",
    "C03_inverse_square",
    "C03_yukawa_factor"
   ],
   "note": ""
  },
  {
   "property": "C04",
   "status": "proved",
   "theorems": [
    "C04_translation",
    "C04_rotation_gravity",
    "C04_rotation_yukawa"
   ],
   "note": ""
  },
  {
   "property": "C05",
   "status": "proved",
   "theorems": [
    "C05_translate_identity",
    "C05_translate_additive",
    "C05_translate_pointwise",
    "C05_translate_length"
   ],
   "note": ""
  },
  {
   "property": "C06",
   "status": "proved",
   "theorems": [
    "C06_rotation",
    "C06_rotation_unique",
    "C06_angles_add",
    "C06_full_turn",
    "C06_axis_length",
    "C06_zero_axis",
    "C06_coordinate_axes",
    "C06_x_axis"
   ],
   "note": ""
  },
  {
   "property": "C07",
   "status": "proved",
   "theorems": [
    "C07_gravity_finite_iff",
    "C07_gravity_failure_is_notfinite",
    "C07_gmmr2_finite_iff"
   ],
   "note": ""
  },
  {
   "property": "C08",
   "status": "proved",
   "theorems": [
    "C08_solid_is_sph_harm",
    "C08_qmoments",
    "C08_qmoments_spherical",
    "C08_qmoment_single"
   ],
   "note": ""
  },
  {
   "property": "C09",
   "status": "proved",
   "theorems": [
    "C09_qmoments_index_error_iff",
    "C09_qmoments_degree0",
    "C09_qmoment_value_error_iff"
   ],
   "note": ""
  },
  {
   "property": "C10",
   "status": "proved",
   "theorems": [
    "C10_Qmomentsb",
    "C10_outer_spherical",
    "C10_Qmomentb_single",
    "C10_Qmomentsb_origin_loses_everything"
   ],
   "note": ""
  },
  {
   "property": "C11",
   "status": "proved",
   "theorems": [
    "C11_qlmACH_reality",
    "C11_bigQlm_reality",
    "C11_point_moments_reality",
    "C11_outer_point_moments_reality",
    "C11_numerical_moments_reality",
    "C11_any_geometry_file_numerical",
    "C11_analytic_moments_reality",
    "C11_moment_files",
    "C11_geometry_files",
    "C11_any_moment_file",
    "C11_any_geometry_file",
    "C11_rotated_arrays",
    "C11_recursively_translated_arrays",
    "C11_translated_arrays"
   ],
   "note": "Point arrays, rotated and translated arrays, the analytic shapes of qlm.py, qlmACH.py and bigQlm.py, the numerically integrated shapes of qlmNum.py and bigQlmNum.py (for any quadrature), and the file readers for any text, with no assumption on the quadrature (C11_any_geometry_file_numerical)."
  },
  {
   "property": "C12",
   "status": "proved",
   "theorems": [
    "C12_ach_monopole",
    "C12_point_monopole",
    "C12_analytic_monopole"
   ],
   "note": ""
  },
  {
   "property": "C13",
   "status": "proved",
   "theorems": [
    "C13_additive",
    "C13_inner_linear_in_mass",
    "C13_order_irrelevant",
    "C13_outer_additive",
    "C13_mass_scaling_of_arrays"
   ],
   "note": ""
  },
  {
   "property": "C14",
   "status": "proved",
   "theorems": [
    "C14_implementations_agree"
   ],
   "note": ""
  },
  {
   "property": "C15",
   "status": "proved",
   "theorems": [
    "C15_selection_rules",
    "C15_racah_formula",
    "C15_stretched",
    "C15_lowered",
    "C15_sign_reversal",
    "C15_exchange"
   ],
   "note": ""
  },
  {
   "property": "C16",
   "status": "proved",
   "theorems": [
    "C16_any_body",
    "C16_translate_qlm_moves_the_body",
    "C16_translate_qlm_end_to_end"
   ],
   "note": ""
  },
  {
   "property": "C17",
   "status": "proved",
   "theorems": [
    "C17_translations_compose",
    "C17_zero_is_identity",
    "C17_inverse",
    "C17_translated_entries"
   ],
   "note": ""
  },
  {
   "property": "C18",
   "status": "proved",
   "theorems": [
    "C18_recursive_equals_clebsch_gordan",
    "C18_moves_the_body",
    "C18_all_arrays"
   ],
   "note": ""
  },
  {
   "property": "C19",
   "status": "proved",
   "theorems": [
    "C19_RR_shifts_the_body",
    "C19_RR_group_law",
    "C19_zero_not_finite",
    "C19_wrong_length",
    "C19_right_is_transpose"
   ],
   "note": ""
  },
  {
   "property": "C20",
   "status": "proved",
   "theorems": [
    "C20_SS_group_law",
    "C20_recursive_equals_clebsch_gordan",
    "C20_SS_adjoint_to_RR",
    "C20_outer_translation_group",
    "C20_outer_adjoint_to_inner",
    "C20_translated_entries"
   ],
   "note": ""
  },
  {
   "property": "C21",
   "status": "proved",
   "theorems": [
    "C21_recursive_equals_clebsch_gordan",
    "C21_recursive_q2Q_of_a_point_mass",
    "C21_q2Q_of_a_point_mass",
    "C21_q2Q_reciprocity",
    "C21_q2Q_entries"
   ],
   "note": ""
  },
  {
   "property": "C22",
   "status": "proved",
   "theorems": [
    "C22_recursive_q2Q_zero_vector_is_a_copy",
    "C22_modules_disagree",
    "C22_q2Q_zero_vector_not_finite"
   ],
   "note": ""
  },
  {
   "property": "C23",
   "status": "proved",
   "theorems": [
    "C23_rotate_qlm_turns_the_body",
    "C23_rotated_moments",
    "C23_rotate_qlm_on_outer_moments",
    "C23_outer_moments_turn_with_Ds_right",
    "C23_any_body"
   ],
   "note": ""
  },
  {
   "property": "C24",
   "status": "proved",
   "theorems": [
    "C24_wignerDl_is_explicit",
    "C24_dlmn_is_explicit",
    "C24_Dl_is_Dlmn"
   ],
   "note": ""
  },
  {
   "property": "C25",
   "status": "proved",
   "theorems": [
    "C25_unitary",
    "C25_identity",
    "C25_product",
    "C25_rotation_inverse",
    "C25_z_rotation"
   ],
   "note": ""
  },
  {
   "property": "C26",
   "status": "proved",
   "theorems": [
    "C26_degree_zero_fails",
    "C26_only_degree_zero",
    "C26_torque_fails_at_degree_zero",
    "C26_degree_zero_translations_fail"
   ],
   "note": ""
  },
  {
   "property": "C27",
   "status": "proved",
   "theorems": [
    "C27_mismatch_returns_input",
    "C27_Ds_is_rotate_qlm",
    "C27_right_is_transpose",
    "C27_interaction_invariant"
   ],
   "note": ""
  },
  {
   "property": "C28",
   "status": "proved",
   "theorems": [
    "C28_force_basis_is_gradient"
   ],
   "note": ""
  },
  {
   "property": "C29",
   "status": "proved",
   "theorems": [
    "C29_degree_zero"
   ],
   "note": ""
  },
  {
   "property": "C30",
   "status": "proved",
   "theorems": [
    "C30_force_is_gradient",
    "C30_force_is_gradient_all_arrays",
    "C30_force_on_a_body",
    "C30_force_is_real",
    "C30_force_by_order"
   ],
   "note": ""
  },
  {
   "property": "C31",
   "status": "proved",
   "theorems": [
    "C31_total_is_derivative",
    "C31_torque_moments",
    "C31_nc_real_ns_imaginary",
    "C31_torques_at_angle_formula",
    "C31_torques_at_angle",
    "C31_torque_on_a_turning_body"
   ],
   "note": ""
  },
  {
   "property": "C32",
   "status": "proved",
   "theorems": [
    "C32_torque_lm_needs_equal_degrees",
    "C32_torque_lm_of_a_1x1_array",
    "C32_torque_needs_equal_degrees"
   ],
   "note": ""
  },
  {
   "property": "C33",
   "status": "proved",
   "theorems": [
    "C33_unknown_type",
    "C33_inner_inner",
    "C33_inner_inner_at_angle",
    "C33_inner_outer",
    "C33_inner_outer_on_axis",
    "C33_outer_outer_is_mirrored",
    "C33_outer_outer_in_the_xz_plane",
    "C33_inner_outer_on_axis_wrong_sign",
    "C33_outer_outer_wrong_sign"
   ],
   "note": "Positive statements for inner-inner, for inner-outer away from the positive z axis and for outer-outer in the xz plane; the deviations of the code (inner-outer on the positive z axis, outer-outer with a y component) are characterised for all inputs and shown to change the sign of the result on explicit symmetric moments."
  },
  {
   "property": "C34",
   "status": "proved",
   "theorems": [
    "C34_embed",
    "C34_up_then_down",
    "C34_same_degree_and_negative",
    "C34_embed_keeps_symmetry"
   ],
   "note": ""
  },
  {
   "property": "C35",
   "status": "proved",
   "theorems": [
    "C35_cylinder",
    "C35_annulus",
    "C35_cone",
    "C35_sphere",
    "C35_annulus_without_hole_is_cylinder"
   ],
   "note": ""
  },
  {
   "property": "C36",
   "status": "proved",
   "theorems": [
    "C36_tri_prism",
    "C36_tri_iso_prism",
    "C36_tri_iso_prism2",
    "C36_rect_prism",
    "C36_ngon_prism",
    "C36_tetrahedron",
    "C36_tetrahedron2",
    "C36_pyramid"
   ],
   "note": "tri_iso_prism2 at phih = pi/2 is outside the exact-arithmetic model (see C37)."
  },
  {
   "property": "C37",
   "status": "proved",
   "theorems": [
    "C37_ach_rect_prism",
    "C37_ach_annulus",
    "C37_ach_cone",
    "C37_ach_tri_prism",
    "C37_ach_trapezoid",
    "C37_ach_cylindrical_section",
    "C37_ach_tetrahedron",
    "C37_ach_cylhole",
    "C37_ach_pyramid",
    "C37_ach_platehole",
    "C37_big_sphere",
    "C37_big_annulus",
    "C37_cylinder",
    "C37_cone",
    "C37_annulus",
    "C37_tri_iso_prism",
    "C37_tri_iso_prism2",
    "C37_tri_prism",
    "C37_rect_prism",
    "C37_ngon_prism",
    "C37_tetrahedron",
    "C37_tetrahedron2",
    "C37_pyramid"
   ],
   "note": ""
  },
  {
   "property": "C38",
   "status": "proved",
   "theorems": [
    "C38_ach_rect_prism",
    "C38_ach_annulus",
    "C38_ach_cone2",
    "C38_ach_tri_prism",
    "C38_ach_trapezoid",
    "C38_ach_cylindrical_section",
    "C38_ach_tetrahedron",
    "C38_ach_pyramid",
    "C38_ach_platehole",
    "C38_ach_cylhole2",
    "C38_ach_cone",
    "C38_ach_cone_50_breaks_the_law",
    "C38_ach_cylhole",
    "C38_ach_cylhole_22_44",
    "C38_sphere",
    "C38_cylinder",
    "C38_annulus",
    "C38_cone",
    "C38_tri_iso_prism",
    "C38_tri_iso_prism2",
    "C38_tri_prism",
    "C38_rect_prism",
    "C38_ngon_prism",
    "C38_tetrahedron",
    "C38_tetrahedron2",
    "C38_pyramid"
   ],
   "note": "Homogeneity for every shape of qlm.py (fixed mass) and qlmACH.py (fixed density, degree l+3) except qlmACH.cone (5,0) and qlmACH.cylhole (2,2), (4,4), whose deviations are proved."
  },
  {
   "property": "C39",
   "status": "proved",
   "theorems": [
    "C39_rect_prism",
    "C39_annulus",
    "C39_cone",
    "C39_cone2",
    "C39_tri_prism",
    "C39_trapezoid",
    "C39_cylindrical_section",
    "C39_tetrahedron",
    "C39_platehole",
    "C39_pyramid",
    "C39_trapezoid_44",
    "C39_cone_50",
    "C39_cone2_20",
    "C39_cone2_20_wrong",
    "C39_cone_50_wrong",
    "C39_trapezoid_44_wrong",
    "C39_rect_prism_agrees",
    "C39_annulus_agrees",
    "C39_tri_prism_agrees",
    "C39_tetrahedron_agrees",
    "C39_pyramid_agrees",
    "C39_cone2_agrees_with_cone",
    "C39_rows_above_5_are_zero",
    "C39_cylhole2",
    "C39_cylhole",
    "C39_cylhole_22_44",
    "C39_cylhole_never_right",
    "C39_cylhole_agree",
    "C39_special_functions"
   ],
   "note": "Every entry of every qlmACH solid is proved to be the volume integral, five entries excepted (trapezoid (4,4), cone (5,0), cone2 (2,0), cylhole (2,2) and (4,4)) which are proved wrong; agreement with qlm.py for the solids both modules have. cylhole2/cylhole take scipy's special functions as parameters; the theorems assume they are the elliptic integrals / Gauss's series (existence proved)."
  },
  {
   "property": "C40",
   "status": "proved",
   "theorems": [
    "C40_sphere_moments_of_a_cube",
    "C40_sphere_moments_not_a_balls",
    "C40_cylindrical",
    "C40_cylindrical_back",
    "C40_rectangle",
    "C40_rectangle_equal_counts",
    "C40_rectangle_outside",
    "C40_sphere_is_a_cube",
    "C40_sphere_misses",
    "C40_annulus",
    "C40_wedge",
    "C40_cone",
    "C40_outer_cone",
    "C40_trapezoid",
    "C40_trapezoid_wide",
    "C40_tri_prism",
    "C40_tri_prism_below",
    "C40_tri_prism_all_below",
    "C40_tetrahedron",
    "C40_tetrahedron_below",
    "C40_tetrahedron_all_below",
    "C40_tri_order",
    "C40_pyramid",
    "C40_pyramid_half_size",
    "C40_ngon_prism",
    "C40_cylhole",
    "C40_platehole",
    "C40_platehole_negative",
    "C40_platehole_narrow",
    "C40_random_shell",
    "C40_zero_mass"
   ],
   "note": ""
  },
  {
   "property": "C41",
   "status": "proved",
   "theorems": [
    "C41_rectangle_mass",
    "C41_rectangle_inside",
    "C41_rectangle_moments",
    "C41_rectangle_rect_prism",
    "C41_sphere",
    "C41_annulus",
    "C41_too_many_z",
    "C41_annulus_too_thick",
    "C41_cone",
    "C41_wedge",
    "C41_tri_prism",
    "C41_tri_prism_misses",
    "C41_annulus_lopsided",
    "C41_rule_exists",
    "C41_rule_unique",
    "C41_rules_exist",
    "C41_same_rectangle",
    "C41_same_round",
    "C41_same_tri_prism",
    "C41_legendre",
    "C41_rule_symmetric",
    "C41_exact"
   ],
   "note": ""
  },
  {
   "property": "C42",
   "status": "proved",
   "theorems": [
    "C42_extension_is_optional",
    "C42_missing",
    "C42_gsq",
    "C42_gbq",
    "C42_too_many_lines",
    "C42_blank_line",
    "C42_gsq_units",
    "C42_gbq_units"
   ],
   "note": ""
  },
  {
   "property": "C43",
   "status": "proved",
   "theorems": [
    "C43_program_moments",
    "C43_no_part_yet",
    "C43_enough_passes",
    "C43_origin_last",
    "C43_remark_adds",
    "C43_unknown_shape_skipped",
    "C43_unknown_shape_last",
    "C43_trapezoid_equal_sides",
    "C43_frustum_wrong",
    "C43_replace_first",
    "C43_replace_absent",
    "C43_parts_directory",
    "C43_parts_same_directory"
   ],
   "note": ""
  },
  {
   "property": "C44",
   "status": "proved",
   "theorems": [
    "C44_new_shape",
    "C44_add_sums",
    "C44_single_shape_is_a_list_of_one",
    "C44_cancelling_masses",
    "C44_bad_arguments_change_nothing",
    "C44_mesh"
   ],
   "note": ""
  },
  {
   "property": "C45",
   "status": "proved",
   "theorems": [
    "C45_any_history",
    "C45_outer_to_inner_moves_half_the_state",
    "C45_inner_to_outer",
    "C45_rotating_an_outer_shape",
    "C45_mesh_turns_in_the_opposite_order",
    "C45_shape_without_mesh",
    "C45_degree_is_lmax"
   ],
   "note": ""
  },
  {
   "property": "C46",
   "status": "proved",
   "theorems": [
    "C46_potential",
    "C46_torque",
    "C46_torque_outer",
    "C46_force",
    "C46_rate"
   ],
   "note": "Energy, torque about z (either body turned) and force converge to glib's point gravity; explicit geometric error bound for the energy. Needs the code's usual ordering condition on points at the origin (C09)."
  },
  {
   "property": "C47",
   "status": "proved",
   "theorems": [
    "C47_imoments_uses_max_order",
    "C47_imoments_refuted",
    "C47_imoment_single",
    "C47_imoment_domain",
    "C47_imoments_top_row"
   ],
   "note": "The full statement about imoment (value for every order, exact domain of failure) and about imoments (max order used in every row, right in the top row, refuted in row 1 by a counterexample)."
  },
  {
   "property": "C48",
   "status": "proved",
   "theorems": [
    "C48_sphere_is_a_point_mass",
    "C48_sphere_at_the_origin",
    "C48_annulus",
    "C48_annulus_20",
    "C48_annulus_20_wrong",
    "C48_annulus_53_wrong",
    "C48_annulus_azimuth_wrong"
   ],
   "note": "sphere: point-mass moments in every entry. annulus: every entry l<=5 is the outer volume integral (iterated Riemann integral) of the sector centred on -phic, except (2,0), which is proved to be the true moment divided by |H|, and (5,3), proved wrong whenever sin(3 phih)<>0; the azimuth sign is proved wrong (cell (1,1)) whenever sin phic <> 0."
  },
  {
   "property": "C49",
   "status": "proved",
   "theorems": [
    "C49_OuterCone_calls",
    "C49_OuterCone_forgets_its_moments",
    "C49_cylhole_moments",
    "C49_platehole_moments",
    "C49_RectPrism",
    "C49_NGon",
    "C49_Sphere",
    "C49_Annulus",
    "C49_TriPrism",
    "C49_Tetrahedron",
    "C49_Pyramid",
    "C49_Cone",
    "C49_outer_primitives_are_empty",
    "C49_outer_Sphere_forgets_its_moments",
    "C49_outer_Annulus_has_half_the_mass",
    "C49_renormalised_monopole",
    "C49_pyramid_mesh_is_half_size",
    "C49_ngon_mesh",
    "C49_cylhole_mesh"
   ],
   "note": "Cylhole and Platehole moments are proved for exact quadrature (4 pi times those of the body of the given mass: a defect)."
  },
  {
   "property": "C50",
   "status": "proved",
   "theorems": [
    "C50_cyl_mom",
    "C50_cone_mom",
    "C50_trap_mom",
    "C50_steinmetz",
    "C50_platehole"
   ],
   "note": "scipy.integrate.tplquad is a parameter; its accuracy (within eps whenever the iterated integral exists) is a hypothesis of the theorems, met by exact iterated integration. Printing of error estimates dropped."
  },
  {
   "property": "C51",
   "status": "proved",
   "theorems": [
    "C51_annulus",
    "C51_trapezoid",
    "C51_outer_cone",
    "C51_outer_cone_reaching_origin"
   ],
   "note": "annulus and trapezoid for every accepted parameter (also IR<=0 when the solid does not meet the plane z=0); cone for 0<IR; the missing guard for IR<=0 is proved."
  },
  {
   "property": "C52",
   "status": "proved",
   "theorems": [
    "C52_annulus",
    "C52_outer_annulus"
   ],
   "note": "inner annulus for every entry; outer annulus for every entry to degree 5 except the two proved wrong in C48."
  },
  {
   "property": "C53",
   "status": "proved",
   "theorems": [
    "C53_annulus",
    "C53_Annulus",
    "C53_cone",
    "C53_Cone",
    "C53_RectPrism",
    "C53_TriPrism",
    "C53_tri_iso_prism",
    "C53_tri_iso_prism2",
    "C53_Tetrahedron",
    "C53_tetrahedron",
    "C53_Sphere",
    "C53_Pyramid_is_half_size",
    "C53_trapezoid",
    "C53_cylhole_mesh_is_not_the_hole",
    "C53_platehole_mesh",
    "C53_outercone",
    "C53_NGon_has_half_the_side"
   ],
   "note": "Meshes as point sets; cadquery itself is trusted to build the solid its documentation describes. Deviations are stated as theorems (Pyramid, NGon, trapezoid, Cylhole, Platehole, OuterCone)."
  },
  {
   "property": "C54",
   "status": "proved",
   "theorems": [
    "C54_reciprocity",
    "C54_zero_displacement",
    "C54_RR_sectorial",
    "C54_SR_sectorial",
    "C54_errors",
    "C54_opposite_displacement_transposes",
    "C54_dipole_entry_wrong",
    "C54_columns"
   ],
   "note": "Radial functions are the exact modified spherical Bessel functions (recurrence definition in YukSpec); the second-stage recursion is proved wrong (zero displacement is diag(1,-1,...,-1); dipole entry off by 2 i_0) - a defect of the code."
  },
  {
   "property": "C55",
   "status": "proved",
   "theorems": [
    "C55_m0_is_a_multiple_of_the_moment",
    "C55_density_ignored",
    "C55_order_at_least_degree_raises",
    "C55_returns",
    "C55_homogeneous",
    "C55_odd_degree_zero",
    "C55_order_one_wrong"
   ],
   "note": "Characterises the defects: the density is ignored, M >= L raises, the M = 0 value carries a factor -(L+3)!/(4 pi^2), and (3,1) is wrong for every size."
  },
  {
   "property": "C56",
   "status": "proved",
   "theorems": [
    "C56_orthonormal",
    "C56_complete",
    "C56_raising",
    "C56_lowering",
    "C56_bounded",
    "C56_cgCoeff2_orthonormal"
   ],
   "note": "cgCoeff and cgCoeff2; integer spins (the documented argument type)"
  },
  {
   "property": "C57",
   "status": "proved",
   "theorems": [
    "C57_assembly_is_the_union",
    "C57_n_fold_moments",
    "C57_n_fold_torque",
    "C57_n_fold_period",
    "C57_axisymmetric_no_torque",
    "C57_ligo_rotor",
    "C57_ligo_torque",
    "C57_virgo_rotor"
   ],
   "note": "The scripts' plotting is not modelled."
  },
  {
   "property": "C58",
   "status": "proved",
   "theorems": [
    "C58_mirror_moments",
    "C58_no_force_out_of_the_plane",
    "C58_mirror_bodies",
    "C58_upright_shapes",
    "C58_in_plane_translation",
    "C58_in_plane_q2Q",
    "C58_rotors",
    "C58_laid_on_its_side",
    "C58_test_mass",
    "C58_script_forces"
   ],
   "note": ""
  },
  {
   "property": "C59",
   "status": "proved",
   "theorems": [
    "C59_q2Q_truncation_error",
    "C59_Qlmb_truncation_error",
    "C59_q2Q_limit",
    "C59_Qlmb_limit",
    "C59_recursive_q2Q_limit",
    "C59_recursive_Qlmb_limit",
    "C59_qmoments_q2Q"
   ],
   "note": ""
  },
  {
   "property": "C60",
   "status": "proved",
   "theorems": [
    "C60_energy",
    "C60_force",
    "C60_torque",
    "C60_script"
   ],
   "note": ""
  },
  {
   "property": "C61",
   "status": "proved",
   "theorems": [
    "C61_integral_unique",
    "C61_energy",
    "C61_force",
    "C61_torque",
    "C61_points"
   ],
   "note": "The solids are those of the specification files; bodies are described by their integrals. The rate of convergence is not stated."
  },
  {
   "property": "C62",
   "status": "proved",
   "theorems": [
    "C62_expressions",
    "C62_energy",
    "C62_force",
    "C62_torque",
    "C62_ligo_script",
    "C62_virgo_script"
   ],
   "note": "Covers qlm.py and qmoments as leaves; qlmACH, qlmNum and bigQlm leaves are covered by C61 through their moment theorems."
  },
  {
   "property": "C63",
   "status": "proved",
   "theorems": [
    "C63_same_rotation_same_matrix",
    "C63_matrices_multiply_like_rotations",
    "C63_rotating_twice",
    "C63_same_rotation_same_result",
    "C63_every_rotation_has_angles",
    "C63_compositions_have_angles"
   ],
   "note": ""
  },
  {
   "property": "C64",
   "status": "proved",
   "theorems": [
    "C64_rounding",
    "C64_results_exist",
    "C64_coincident_points_have_none",
    "C64_size",
    "C64_no_cancellation",
    "C64_third_law",
    "C64_binary64_is_accurate",
    "C64_binary64"
   ],
   "note": "Overflow and underflow are not modelled (Flocq FLX format)."
  },
  {
   "property": "C65",
   "status": "proved",
   "theorems": [
    "C65_values",
    "C65_exceptions",
    "C65_any_history",
    "C65_moment_arrays_are_snapshots",
    "C65_com_changes_only_by_translate",
    "C65_kept_com_is_live",
    "C65_unheld_com_is_frozen",
    "C65_rotate_detaches_kept_com",
    "C65_add_detaches_kept_com",
    "C65_mesh_solids_are_snapshots",
    "C65_mesh_changes_only_by_singleton_sum",
    "C65_drawing_a_hole_flips_it",
    "C65_shallow_copy_follows_translate",
    "C65_shallow_copy_ignores_rotate",
    "C65_any_start"
   ],
   "note": "Arrays and CAD objects are cells; writing elements of s.qlm or s.com directly from the caller, and views into the arrays, are not modelled."
  },
  {
   "property": "C66",
   "status": "proved",
   "theorems": [
    "C66_pointMatrixGravity",
    "C66_translatePMArray",
    "C66_rotatePMArray",
    "C66_zero_axis",
    "C66_quarter_turn",
    "C66_turned_attractor",
    "C66_dumbbell_torque"
   ],
   "note": "Octave doubles are exact reals; NaN is an error value."
  },
  {
   "property": "C67",
   "status": "proved",
   "theorems": [
    "C67_computeMoments",
    "C67_right_for_even",
    "C67_sign_for_positive_m",
    "C67_zonal",
    "C67_against_qmoment",
    "C67_wrong_sign_case",
    "C67_bad_order",
    "C67_summary"
   ],
   "note": "gsl legendre_sphPlm is the normalised associated Legendre function with the Condon-Shortley phase (trusted)."
  },
  {
   "property": "C68",
   "status": "proved",
   "theorems": [
    "C68_rect",
    "C68_rect_as_in_python",
    "C68_annular_sheet",
    "C68_symmetric",
    "C68_line",
    "C68_line_start_ignored",
    "C68_ring",
    "C68_empty_ring"
   ],
   "note": "Point counts are natural numbers."
  },
  {
   "property": "C69",
   "status": "proved",
   "theorems": [
    "C69_disk_refused",
    "C69_disk",
    "C69_disk_points",
    "C69_rectangle",
    "C69_shell",
    "C69_scatter"
   ],
   "note": "The generator's output is an arbitrary sequence; no probability is modelled."
  },
  {
   "property": "C70",
   "status": "proved",
   "theorems": [
    "C70_points",
    "C70_mass",
    "C70_no_mass",
    "C70_distinct",
    "C70_scan",
    "C70_scan_affine",
    "C70_flat",
    "C70_regression"
   ],
   "note": "ols is any function that solves the normal equations; scanToPMArray (griddata) is not modelled."
  },
  {
   "property": "C71",
   "status": "proved",
   "theorems": [
    "C71_one_step",
    "C71_k_steps",
    "C71_steps_about_z",
    "C71_full_turn",
    "C71_loop_forces",
    "C71_two_scripts",
    "C71_harmonics",
    "C71_no_aliasing"
   ],
   "note": "Plots and printed messages are not modelled."
  },
  {
   "property": "C72",
   "status": "proved",
   "theorems": [
    "C72_force",
    "C72_torque",
    "C72_torque_outer",
    "C72_in_balls",
    "C72_attained"
   ],
   "note": "Force (as a vector), torque with either body turned, closed bound for balls, and a family of inputs attaining the bound."
  },
  {
   "property": "C73",
   "status": "proved",
   "theorems": [
    "C73_energy",
    "C73_force",
    "C73_torque",
    "C73_script",
    "C73_in_balls",
    "C73_bodies"
   ],
   "note": "Explicit bounds for points (C73_energy, _force, _torque, _script, _in_balls); C73_bodies extends them to all built bodies with a constant depending on the bodies only."
  },
  {
   "property": "C74",
   "status": "proved",
   "theorems": [
    "C74_save",
    "C74_nothing_written",
    "C74_iterable_workplane_saves_nothing",
    "C74_any_history",
    "C74_files_stay"
   ],
   "note": "Numbers in files are modelled exactly (savetxt writes 19 digits); the STL file is the exported point set."
  },
  {
   "property": "C75",
   "status": "proved",
   "theorems": [
    "C75_translate",
    "C75_rotate",
    "C75_history",
    "C75_results_exist",
    "C75_binary64"
   ],
   "note": ""
  },
  {
   "property": "C76",
   "status": "proved",
   "theorems": [
    "C76_moved_gravity",
    "C76_results_exist",
    "C76_binary64"
   ],
   "note": ""
  },
  {
   "property": "C77",
   "status": "proved",
   "theorems": [
    "C77_arrays_exist",
    "C77_moments",
    "C77_gravity",
    "C77_yukawa",
    "C77_two_ways",
    "C77_brick",
    "C77_annulus",
    "C77_wedge",
    "C77_cone"
   ],
   "note": ""
  },
  {
   "property": "C78",
   "status": "proved",
   "theorems": [
    "C78_integral",
    "C78_moments",
    "C78_gravity",
    "C78_yukawa",
    "C78_bricks",
    "C78_brick_moments"
   ],
   "note": ""
  },
  {
   "property": "C79",
   "status": "proved",
   "theorems": [
    "C79_rounding",
    "C79_results_exist",
    "C79_coincident_points_have_none",
    "C79_size",
    "C79_no_cancellation",
    "C79_exp64_is_accurate",
    "C79_binary64"
   ],
   "note": ""
  },
  {
   "property": "C80",
   "status": "proved",
   "theorems": [
    "C80_force",
    "C80_torque",
    "C80_force_in_floats",
    "C80_torque_in_floats",
    "C80_gravity_in_floats",
    "C80_yukawa_in_floats",
    "C80_bricks"
   ],
   "note": ""
  },
  {
   "property": "C81",
   "status": "proved",
   "theorems": [
    "C81_calls",
    "C81_torque",
    "C81_history",
    "C81_values",
    "C81_reader",
    "C81_zero_shift_shares",
    "C81_other_calls_do_not"
   ],
   "note": ""
  },
  {
   "property": "C82",
   "status": "proved",
   "theorems": [
    "C82_moments",
    "C82_gravity",
    "C82_bricks",
    "C82_any_accuracy"
   ],
   "note": ""
  },
  {
   "property": "C83",
   "status": "proved",
   "theorems": [
    "C83_arrays_exist",
    "C83_moments",
    "C83_gravity",
    "C83_yukawa",
    "C83_two_ways",
    "C83_annulus",
    "C83_wedge",
    "C83_brick"
   ],
   "note": ""
  },
  {
   "property": "C84",
   "status": "proved",
   "theorems": [
    "C84_rounding",
    "C84_off_axis",
    "C84_lost",
    "C84_cosine_in_range",
    "C84_results_exist",
    "C84_binary64"
   ],
   "note": ""
  },
  {
   "property": "C85",
   "status": "proved",
   "theorems": [
    "C85_rounding",
    "C85_off_axis",
    "C85_results_exist",
    "C85_lost"
   ],
   "note": ""
  },
  {
   "property": "C86",
   "status": "proved",
   "theorems": [
    "C86_single",
    "C86_array",
    "C86_off_axis",
    "C86_origin",
    "C86_results_exist"
   ],
   "note": ""
  }
 ]
}