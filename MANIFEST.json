{
 "claims": [
  {
   "property": "C01",
   "status": "proved",
   "theorems": [
    "C01_modulo",
    "C01_wrap"
   ],
   "note": ""
  },
  {
   "property": "C02",
   "status": "proved",
   "theorems": [
    "C02_quaternion_algebra",
    "C02_quaternion_inverse",
    "C02_real_imaginary"
   ],
   "note": ""
  },
  {
   "property": "C03",
   "status": "proved",
   "theorems": [
    "C03_quaternion_matrices"
   ],
   "note": ""
  },
  {
   "property": "C04",
   "status": "proved",
   "theorems": [
    "C04_unit_quaternion_rotation"
   ],
   "note": ""
  },
  {
   "property": "C05",
   "status": "proved",
   "theorems": [
    "C05_rotate_meaning",
    "C05_rotate_is_meaning"
   ],
   "note": "Exact outside the window 0<|v|<eps^(1/4) of RotationVector operands; C07 bounds the window."
  },
  {
   "property": "C06",
   "status": "proved",
   "theorems": [
    "C06_conversion_exact",
    "C06_conversion_total",
    "C06_conversion_path"
   ],
   "note": "Exact outside the truncation windows, total everywhere; C07/C08 bound the windows."
  },
  {
   "property": "C07",
   "status": "proved",
   "theorems": [
    "C07_small_rotation_vector"
   ],
   "note": ""
  },
  {
   "property": "C08",
   "status": "proved",
   "theorems": [
    "C08_small_quaternion_to_vector",
    "C08_small_vector_to_angle_axis"
   ],
   "note": ""
  },
  {
   "property": "C09",
   "status": "proved",
   "theorems": [
    "C09_matrix_to_quaternion"
   ],
   "note": ""
  },
  {
   "property": "C10",
   "status": "proved",
   "theorems": [
    "C10_euler_extraction"
   ],
   "note": ""
  },
  {
   "property": "C11",
   "status": "proved",
   "theorems": [
    "C11_concatenation",
    "C11_assoc_identity"
   ],
   "note": "RotationVector results inside the truncation window are excluded by exact_result."
  },
  {
   "property": "C12",
   "status": "proved",
   "theorems": [
    "C12_inversion",
    "C12_inverse_of_product"
   ],
   "note": ""
  },
  {
   "property": "C13",
   "status": "proved",
   "theorems": [
    "C13_rigid",
    "C13_columns"
   ],
   "note": ""
  },
  {
   "property": "C14",
   "status": "proved",
   "theorems": [
    "C14_get_unique",
    "C14_rotation_vector_idempotence_refuted"
   ],
   "note": "Includes the counterexample to unconditional idempotence for rotation vectors."
  },
  {
   "property": "C15",
   "status": "proved",
   "theorems": [
    "C15_get_unique_canonical"
   ],
   "note": ""
  },
  {
   "property": "C16",
   "status": "proved",
   "theorems": [
    "C16_equality_same_class"
   ],
   "note": ""
  },
  {
   "property": "C17",
   "status": "proved",
   "theorems": [
    "C17_euler_unique",
    "C17_xyz_gimbal"
   ],
   "note": ""
  },
  {
   "property": "C18",
   "status": "proved",
   "theorems": [
    "C18_zyx_gimbal_characterised",
    "C18_zyx_gimbal_refuted"
   ],
   "note": "Exact characterisation plus refutation of the documented behaviour (defect in the code)."
  },
  {
   "property": "C19",
   "status": "proved",
   "theorems": [
    "C19_angle_axis_equality_complete",
    "C19_angle_axis_equality_refuted"
   ],
   "note": "Completeness proved; documented exactness and transitivity refuted (defect in the code)."
  },
  {
   "property": "C20",
   "status": "proved",
   "theorems": [
    "C20_cross_class_equality_exact",
    "C20_cross_class_equality_refuted",
    "C20_cross_class_sound",
    "C20_euler_left",
    "C20_vector_left"
   ],
   "note": "Exact cases proved, the documented general claim refuted (defect in the code)."
  },
  {
   "property": "C21",
   "status": "proved",
   "theorems": [
    "C21_disparity",
    "C21_metric",
    "C21_invariance"
   ],
   "note": ""
  },
  {
   "property": "C22",
   "status": "proved",
   "theorems": [
    "C22_is_near"
   ],
   "note": ""
  },
  {
   "property": "C23",
   "status": "proved",
   "theorems": [
    "C23_exp_log"
   ],
   "note": ""
  },
  {
   "property": "C24",
   "status": "proved",
   "theorems": [
    "C24_boxplus_boxminus"
   ],
   "note": ""
  },
  {
   "property": "C25",
   "status": "proved",
   "theorems": [
    "C25_interpolate"
   ],
   "note": ""
  },
  {
   "property": "C26",
   "status": "proved",
   "theorems": [
    "C26_set_from_vectors"
   ],
   "note": "Eigen's JacobiSVD is an oracle assumed to return a unit vector orthogonal to both inputs (hypothesis svd_null, shown satisfiable)."
  },
  {
   "property": "C27",
   "status": "proved",
   "theorems": [
    "C27_fix",
    "C27_matrix_fix_refuted"
   ],
   "note": "Matrix case: exact characterisation and refutation of the documented behaviour (defect in the code)."
  },
  {
   "property": "C28",
   "status": "proved",
   "theorems": [
    "C28_set_random"
   ],
   "note": ""
  },
  {
   "property": "C29",
   "status": "proved",
   "theorems": [
    "C29_debug_assertions"
   ],
   "note": ""
  },
  {
   "property": "C30",
   "status": "proved",
   "theorems": [
    "C30_local_global_velocity",
    "C30_same_motion"
   ],
   "note": ""
  },
  {
   "property": "C31",
   "status": "proved",
   "theorems": [
    "C31_quaternion_curve",
    "C31_quaternion_roundtrip",
    "C31_quaternion_derivative"
   ],
   "note": ""
  },
  {
   "property": "C32",
   "status": "proved",
   "theorems": [
    "C32_matrix_curve",
    "C32_matrix_roundtrip"
   ],
   "note": ""
  },
  {
   "property": "C33",
   "status": "proved",
   "theorems": [
    "C33_zyx_rates",
    "C33_zyx_inverse"
   ],
   "note": ""
  },
  {
   "property": "C34",
   "status": "proved",
   "theorems": [
    "C34_xyz_rates",
    "C34_xyz_inverse"
   ],
   "note": ""
  },
  {
   "property": "C35",
   "status": "proved",
   "theorems": [
    "C35_gimbal_lock_reported",
    "C35_gimbal_lock_real"
   ],
   "note": ""
  },
  {
   "property": "C36",
   "status": "proved",
   "theorems": [
    "C36_second_order_forward",
    "C36_second_order_inverse",
    "C36_acceleration"
   ],
   "note": ""
  },
  {
   "property": "C37",
   "status": "proved",
   "theorems": [
    "C37_jacobian_exact",
    "C37_jacobian_error"
   ],
   "note": ""
  },
  {
   "property": "C38",
   "status": "proved",
   "theorems": [
    "C38_velocity_vector_space",
    "C38_sum_is_composition",
    "C38_mixed_sum"
   ],
   "note": "Local+Global mixing adds raw coordinates (recorded)."
  },
  {
   "property": "C39",
   "status": "proved",
   "theorems": [
    "C39_rigid_motion",
    "C39_composition",
    "C39_group",
    "C39_chain",
    "C39_matrix"
   ],
   "note": "Truncation windows as in C11."
  },
  {
   "property": "C40",
   "status": "proved",
   "theorems": [
    "C40_inverse_transform"
   ],
   "note": ""
  },
  {
   "property": "C41",
   "status": "proved",
   "theorems": [
    "C41_twist_vector",
    "C41_twist_in_frame"
   ],
   "note": "getVector(rotation) re-expresses only the angular part; the theorem states what the code does."
  },
  {
   "property": "C42",
   "status": "proved",
   "theorems": [
    "C42_wrench_vector",
    "C42_wrench_space"
   ],
   "note": ""
  },
  {
   "property": "C43",
   "status": "proved",
   "theorems": [
    "C43_read_segment",
    "C43_write_segment",
    "C43_constructors"
   ],
   "note": ""
  },
  {
   "property": "C44",
   "status": "proved",
   "theorems": [
    "C44_vector_space",
    "C44_dot_norm",
    "C44_normalized",
    "C44_projection",
    "C44_cross",
    "C44_reductions",
    "C44_similar",
    "C44_typed_scalar",
    "C44_elementwise_division"
   ],
   "note": ""
  },
  {
   "property": "C45",
   "status": "proved",
   "theorems": [
    "C45_dimensions_sound",
    "C45_group_laws",
    "C45_laws",
    "C45_no_redefinition",
    "C45_expressions",
    "C45_incomplete_refuted"
   ],
   "note": ""
  },
  {
   "property": "C46",
   "status": "proved",
   "theorems": [
    "C46_skew"
   ],
   "note": ""
  },
  {
   "property": "C47",
   "status": "proved",
   "theorems": [
    "C47_penrose",
    "C47_least_squares",
    "C47_one_sided",
    "C47_truncated"
   ],
   "note": ""
  },
  {
   "property": "C48",
   "status": "proved",
   "theorems": [
    "C48_unit_quaternion_setIdentity_refuted"
   ],
   "note": "Refutes the documented behaviour (defect in the code)."
  },
  {
   "property": "C49",
   "status": "proved",
   "theorems": [
    "C49_not_finite",
    "C49_unit_assert",
    "C49_finite"
   ],
   "note": "Any association order of Eigen's sum of squares. IEEE model by Flocq (one NaN)."
  },
  {
   "property": "C50",
   "status": "proved",
   "theorems": [
    "C50_modulo",
    "C50_wrapPosNegPI",
    "C50_pi",
    "C50_wrapTwoPI",
    "C50_wrapAngle",
    "C50_nonfinite",
    "C50_huge_refuted",
    "C50_float_end_refuted",
    "C50_wrapAngle_end_refuted"
   ],
   "note": "Proved for |x| <= 2^(prec-2)|y|; refuted beyond (theorems *_refuted), and the range ends are refuted where the code returns them."
  },
  {
   "property": "C51",
   "status": "proved",
   "theorems": [
    "C51_dead_branch",
    "C51_float_half_turn",
    "C51_double_half_turn",
    "C51_unique"
   ],
   "note": "Includes the float defect (axis flips at half turns)."
  },
  {
   "property": "C52",
   "status": "proved",
   "theorems": [
    "C52_any_history",
    "C52_quaternion_matrix_angle_axis_history"
   ],
   "note": ""
  },
  {
   "property": "C53",
   "status": "proved",
   "theorems": [
    "C53_rotation_times_derivative"
   ],
   "note": ""
  },
  {
   "property": "C54",
   "status": "proved",
   "theorems": [
    "C54_pose_equality"
   ],
   "note": ""
  },
  {
   "property": "C55",
   "status": "proved",
   "theorems": [
    "C55_pose_conversion"
   ],
   "note": ""
  },
  {
   "property": "C56",
   "status": "proved",
   "theorems": [
    "C56_twist_point_velocity"
   ],
   "note": ""
  },
  {
   "property": "C57",
   "status": "proved",
   "theorems": [
    "C57_compare_periodic",
    "C57_periodic_symmetry",
    "C57_periodic_reflection_refuted"
   ],
   "note": "Exact characterisation; the asymmetry around 0 is a proved refutation."
  },
  {
   "property": "C58",
   "status": "proved",
   "theorems": [
    "C58_round_trip_unstable",
    "C58_round_trip_step",
    "C58_round_trip_exact"
   ],
   "note": "Exactness on unit quaternions and instability around them (defect proved)."
  },
  {
   "property": "C59",
   "status": "proved",
   "theorems": [
    "C59_conversion_total",
    "C59_exp_random_total"
   ],
   "note": "Explicit error bounds for every legal operand, truncation windows included."
  },
  {
   "property": "C60",
   "status": "proved",
   "theorems": [
    "C60_rotate_total"
   ],
   "note": ""
  },
  {
   "property": "C61",
   "status": "proved",
   "theorems": [
    "C61_product_total",
    "C61_boxplus_total"
   ],
   "note": ""
  },
  {
   "property": "C62",
   "status": "proved",
   "theorems": [
    "C62_log_boxminus_total",
    "C62_disparity_total",
    "C62_endpoints_total"
   ],
   "note": ""
  },
  {
   "property": "C63",
   "status": "proved",
   "theorems": [
    "C63_history_total",
    "C63_quaternion_history_total"
   ],
   "note": "Bound by induction over the history, any length."
  },
  {
   "property": "C64",
   "status": "proved",
   "theorems": [
    "C64_debug_never_differs",
    "C64_legal_operations",
    "C64_unchecked_conversions",
    "C64_set_from_vectors",
    "C64_legal_history",
    "C64_exact_history",
    "C64_accepted_not_closed",
    "C64_matrix_history_throws",
    "C64_illegal_detected"
   ],
   "note": "Debug build modelled separately (ModelDebug2.v); two negative theorems record the limits of the assertions."
  },
  {
   "property": "C65",
   "status": "proved",
   "theorems": [
    "C65_setters_and_accessors",
    "C65_constructors",
    "C65_rotation",
    "C65_rebuild",
    "C65_debug_setters",
    "C65_failed_setter_keeps_value_refuted"
   ],
   "note": "Storage-level model (ModelAccess.v); includes the refutation that a throwing debug setter leaves the object unchanged. UnitQuaternion::setIdentity is C48."
  },
  {
   "property": "C66",
   "status": "proved",
   "theorems": [
    "C66_product",
    "C66_fix",
    "C66_history",
    "C66_assertion",
    "C66_rotate"
   ],
   "note": "IEEE semantics (Flocq) with any evaluation order, FMA or not; induction over the history."
  },
  {
   "property": "C67",
   "status": "proved",
   "theorems": [
    "C67_from_quaternion",
    "C67_history"
   ],
   "note": "IEEE semantics, any evaluation order; induction over the history."
  },
  {
   "property": "C68",
   "status": "proved",
   "theorems": [
    "C68_cast",
    "C68_unit_stays_unit"
   ],
   "note": "IEEE semantics; exact bit statements."
  },
  {
   "property": "C69",
   "status": "proved",
   "theorems": [
    "C69_history",
    "C69_superposition",
    "C69_sum"
   ],
   "note": "Induction over the call history; linearity for every conversion in RotationDiffConversionTraits. Calls that do not compile or link (RotationDiffBase += for non-velocity classes) are None in the model."
  },
  {
   "property": "C70",
   "status": "proved",
   "theorems": [
    "C70_quaternion",
    "C70_matrix",
    "C70_history",
    "C70_matrix_history"
   ],
   "note": "IEEE semantics; sin/cos/atan2 are any functions accurate to two (four) roundings, as stated in SpecLibm.libm_ok (exact_libm_ok shows such a library exists)."
  },
  {
   "property": "C71",
   "status": "proved",
   "theorems": [
    "C71_from_quaternion",
    "C71_convert",
    "C71_product",
    "C71_inverted",
    "C71_history",
    "C71_short_quaternion_nan",
    "C71_axis_not_unit"
   ],
   "note": "IEEE semantics, every order of evaluation, every math library satisfying SpecLibm.libm_ok; induction over the history. Two theorems exhibit inputs where a stronger claim fails (NaN, axis of length sqrt 2)."
  },
  {
   "property": "C72",
   "status": "proved",
   "theorems": [
    "C72_history",
    "C72_matrix_history",
    "C72_round_trip",
    "C72_matrix"
   ],
   "note": "IEEE semantics, every order of evaluation; induction over the history; quadratic growth of the position error is proved, not assumed."
  },
  {
   "property": "C73",
   "status": "proved",
   "theorems": [
    "C73_quaternion",
    "C73_from_matrix",
    "C73_round_trip",
    "C73_scaled_identity_nan"
   ],
   "note": "IEEE semantics, every order of evaluation; the branch taken is the one of the rounded numbers."
  },
  {
   "property": "C74",
   "status": "proved",
   "theorems": [
    "C74_convert",
    "C74_product",
    "C74_inverted",
    "C74_fix",
    "C74_rotate",
    "C74_history",
    "C74_mixed_history"
   ],
   "note": "IEEE semantics, every order of evaluation, every accurate math library. RotationVector objects multiplied by a matrix from the left are covered by C74_history (with its limit), not by C74_mixed_history."
  },
  {
   "property": "C75",
   "status": "proved",
   "theorems": [
    "C75_defect",
    "C75_unstable",
    "C75_float"
   ],
   "note": "C75_defect and C75_unstable are exact-real theorems for every quaternion in the range; C75_float exhibits the effect with the IEEE model (computed)."
  },
  {
   "property": "C76",
   "status": "proved",
   "theorems": [
    "C76_disparity",
    "C76_is_near",
    "C76_quaternions",
    "C76_unique_angle_axis",
    "C76_unique_vector",
    "C76_log",
    "C76_box_minus",
    "C76_box_plus",
    "C76_box_round_trip",
    "C76_interpolate"
   ],
   "note": "IEEE semantics, every order of evaluation, every math library satisfying SpecLibm.libm_ok. The errors are composed from C74 (product, inverse, conversion) and C50 (wrap)."
  },
  {
   "property": "C77",
   "status": "proved",
   "theorems": [
    "C77_clear",
    "C77_xyz",
    "C77_xyz_lock",
    "C77_zyx_band",
    "C77_zyx_refuted"
   ],
   "note": "IEEE semantics; the wrap is computed in double (mixed arithmetic with M_PI). C77_zyx_refuted exhibits the defect of C18 in floats."
  },
  {
   "property": "C78",
   "status": "proved",
   "theorems": [
    "C78_quaternion",
    "C78_matrix",
    "C78_matrix_of_quaternion",
    "C78_round_trip_differs",
    "C78_true_near",
    "C78_angle_axis_near",
    "C78_angle_axis_accepts",
    "C78_reflexive",
    "C78_symmetric"
   ],
   "note": "IEEE semantics; comparisons of an AngleAxis or RotationQuaternion (left) with another class do not compile against Eigen without operator== for these types and are not modelled. The converse of C78_true_near does not hold in floats (C78_round_trip_differs)."
  },
  {
   "property": "C79",
   "status": "proved",
   "theorems": [
    "C79_commutative",
    "C79_coefficients",
    "C79_exact_difference",
    "C79_scale",
    "C79_divide",
    "C79_vector_product",
    "C79_vector_product_mixed",
    "C79_sign",
    "C79_equal",
    "C79_equal_self",
    "C79_neutral",
    "C79_similar_true",
    "C79_similar_near",
    "C79_similar_order",
    "C79_similar_nan",
    "C79_max_min",
    "C79_cast"
   ],
   "note": "IEEE semantics; operands of equal dimension. Vector units may treat NaN differently in max()/min(); only NaN-free inputs are claimed (C79_similar_nan shows one NaN outcome of the std::max semantics)."
  },
  {
   "property": "C80",
   "status": "proved",
   "theorems": [
    "C80_dot",
    "C80_norm",
    "C80_norm_sign",
    "C80_normalized",
    "C80_normalized_range",
    "C80_project",
    "C80_project_range",
    "C80_cross",
    "C80_cross_antisymmetric",
    "C80_cross_self",
    "C80_cross_self_fused",
    "C80_sum",
    "C80_mean",
    "C80_sum_order"
   ],
   "note": "IEEE semantics, any order of the additions, any products fused; dimension times unit roundoff at most 1/100 (167772 coefficients for float). C80_normalized_range, C80_project_range, C80_cross_self_fused and C80_sum_order show the limits."
  },
  {
   "property": "C81",
   "status": "proved",
   "theorems": [
    "C81_same",
    "C81_axis",
    "C81_matrix",
    "C81_history",
    "C81_quaternions",
    "C81_product_throws",
    "C81_tiny_throws"
   ],
   "note": "IEEE semantics, every order of evaluation, every accurate math library. The accounts behind C81_history are upper bounds, not sharp. C81_matrix_ex also shows that 2^100 times the identity is accepted in float (overflow, then comparison with NaN)."
  },
  {
   "property": "C82",
   "status": "proved",
   "theorems": [
    "C82_quaternion_rate",
    "C82_quaternion_velocity",
    "C82_quaternion_roundtrip",
    "C82_matrix_rate",
    "C82_matrix_velocity",
    "C82_frames"
   ],
   "note": "IEEE semantics, every order of evaluation; the reference values are derivatives of arbitrary differentiable curves of rotations."
  },
  {
   "property": "C83",
   "status": "proved",
   "theorems": [
    "C83_zyx_velocity",
    "C83_xyz_velocity",
    "C83_zyx_rates",
    "C83_xyz_rates",
    "C83_gimbal",
    "C83_roundtrip"
   ],
   "note": "IEEE semantics, every order of evaluation, every math library with sin and cos within two roundings. GlobalAngularVelocity from EulerAnglesZyxDiff does not compile in kindr and is not modelled."
  },
  {
   "property": "C84",
   "status": "proved",
   "theorems": [
    "C84_quaternion",
    "C84_classes",
    "C84_throws",
    "C84_range",
    "C84_norm_lost",
    "C84_debug"
   ],
   "note": "IEEE semantics, every order of evaluation. Eigen's setFromTwoVectors (Eigen 3.3) is modelled from memory; its JacobiSVD, used for nearly opposite vectors, is an arbitrary function of which svd_accurate (SpecTwo.v) is assumed. The factor 1/h of the regular branch is real: C84_norm_lost."
  },
  {
   "property": "C85",
   "status": "proved",
   "theorems": [
    "C85_jacobian",
    "C85_worst",
    "C85_cancellation"
   ],
   "note": "IEEE semantics, every order of evaluation; the norm is bounded by 2^30 (beyond 2^63 the squared norm of a float vector overflows and cos is called with infinity, about which libm_ok says nothing). Which overload of cos and sin is called for float is a parameter (w). The loss of accuracy just above the threshold is a defect of the code: C85_cancellation."
  },
  {
   "property": "C86",
   "status": "proved",
   "theorems": [
    "C86_forward",
    "C86_inverse",
    "C86_gimbal",
    "C86_acceleration",
    "C86_second_derivative"
   ],
   "note": "IEEE semantics. The matrices whose derivatives are taken are characterised without the code (SpecSecond: gives_local, gives_global, inverts). The term 2^-100 in the bounds covers underflow. Rates above 1000 are not covered (the products could be bounded the same way; overflow near gimbal lock is the limit)."
  },
  {
   "property": "C87",
   "status": "proved",
   "theorems": [
    "C87_inverse",
    "C87_out_of_range",
    "C87_rotation_times_derivative"
   ],
   "note": "Every Eigen evaluation order and both ways of dividing are quantified. Between the range of C87_inverse and the two regions of C87_out_of_range nothing is claimed about the inverse."
  },
  {
   "property": "C88",
   "status": "proved",
   "theorems": [
    "C88_quaternion",
    "C88_matrix"
   ],
   "note": "The loop itself is user code (SpecMotion.v, integrate1); every function it calls is the model of the library. fix() on matrices is left out of C88_matrix."
  },
  {
   "property": "C89",
   "status": "proved",
   "theorems": [
    "C89_random",
    "C89_coverage"
   ],
   "note": "std::uniform_real_distribution is modelled by the formula draw * (max - min) + min of libstdc++ and libc++; the draw is any number of [0,1]. Nothing is claimed about the distribution of the draws (the code does not sample rotations uniformly)."
  },
  {
   "property": "C90",
   "status": "proved",
   "theorems": [
    "C90_transform",
    "C90_inverse_transform",
    "C90_product"
   ],
   "note": "Histories of quaternion and matrix poses are C72; C90 is about single calls, for every class."
  },
  {
   "property": "C91",
   "status": "proved",
   "theorems": [
    "C91_dead_reckoning"
   ],
   "note": "The loop itself is user code (SpecPoseSix.v, reckon1); every function it calls is the model of the library. The bound requires that the stated drift does not exceed M."
  },
  {
   "property": "C92",
   "status": "proved",
   "theorems": [
    "C92_coefficients",
    "C92_zero",
    "C92_overflow",
    "C92_penrose"
   ],
   "note": "Eigen's JacobiSVD is not modelled: its results are arguments. array().inverse() is 1/x (Eigen 3.2, 3.3)."
  },
  {
   "property": "C93",
   "status": "proved",
   "theorems": [
    "C93_copies",
    "C93_skew",
    "C93_quaternion_twist",
    "C93_global_twist"
   ],
   "note": "The rotation is off by A roundings and the derivative by B; the linear velocity by E."
  },
  {
   "property": "C94",
   "status": "proved",
   "theorems": [
    "C94_widen",
    "C94_cast",
    "C94_cast_first",
    "C94_cast_last",
    "C94_rv_quat",
    "C94_rv_aa",
    "C94_to_float",
    "C94_pairs"
   ],
   "note": "RotationVector from a RotationQuaternion of the other type is not modelled: RotationVector.hpp:329-342 mixes scalar types in Eigen expressions. From float to double, conversions that need a unit axis or quaternion keep that as a hypothesis in roundings of double."
  }
 ]
}