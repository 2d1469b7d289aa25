{
 "claims": [
  {
   "property": "C01",
   "status": "proved",
   "theorems": [
    "pose_action_compose",
    "pose_mul_assoc",
    "pose_neutral",
    "pose_inverse",
    "pose_inverse_product",
    "pose_rigid_closed"
   ],
   "note": "Exact real arithmetic."
  },
  {
   "property": "C02",
   "status": "proved",
   "theorems": [
    "rotation_preserves_geometry",
    "rotation_agrees_with_matrix",
    "rotation_product",
    "rotation_sign_irrelevant",
    "rotation_is_conjugation"
   ],
   "note": "Exact real arithmetic."
  },
  {
   "property": "C03",
   "status": "proved",
   "theorems": [
    "quaternion_of_rotation_matrix",
    "quaternion_matrix_roundtrip"
   ],
   "note": "Stronger than stated: every orthogonal matrix with determinant one is covered, through all four branches; the divisors are nonzero."
  },
  {
   "property": "C04",
   "status": "partial",
   "theorems": [
    "axis_angle_gives_unit",
    "axis_angle_defined",
    "axis_angle_is_rodrigues",
    "angle_of_rotation",
    "axis_angle_roundtrip_partial",
    "axis_angle_identity_refuted",
    "logarithm_roundtrip_partial",
    "logarithm_small_rotations",
    "logarithm_exact_refuted",
    "logarithm_of_exponential",
    "exponential_is_unit"
   ],
   "note": "REFUTED as stated: the identity rotation reports the zero axis, from which the constructor divides by zero (axis_angle_identity_refuted), and rotations below the 1e-12 threshold come back as the identity (logarithm_exact_refuted, error bounded by logarithm_small_rotations). Proved for everything else."
  },
  {
   "property": "C05",
   "status": "proved",
   "theorems": [
    "slerp_stays_on_sphere",
    "slerp_hits_endpoints",
    "slerp_constant_speed",
    "pose_interpolation_endpoints",
    "negate_if_closer_correct"
   ],
   "note": "All parameters t, both branches."
  },
  {
   "property": "C06",
   "status": "proved",
   "theorems": [
    "pose_vector_roundtrips",
    "pose_matrix_acts_as_pose",
    "pose_matrix_homomorphism",
    "pose_matrix_roundtrip"
   ],
   "note": "Exact real arithmetic."
  },
  {
   "property": "C07",
   "status": "partial",
   "theorems": [
    "double_inverse_refuted",
    "double_inverse_covariance",
    "double_inverse_map",
    "double_inverse_partial",
    "double_inverse_rotation",
    "inverse_jacobian_partial",
    "inverse_jacobian_refuted"
   ],
   "note": "REFUTED as stated: the rotation rows of the inversion Jacobian have the wrong sign, so inverting twice changes the covariance (variance 1 becomes 17 in double_inverse_refuted). The exact effect is double_inverse_map; the claim holds for zero translation (double_inverse_partial) and for the rotation block (double_inverse_rotation)."
  },
  {
   "property": "C08",
   "status": "proved",
   "theorems": [
    "additive_round_trip",
    "additive_valid"
   ],
   "note": "For rigid poses and symmetric covariances."
  },
  {
   "property": "C09",
   "status": "partial",
   "theorems": [
    "uncertain_point_refuted",
    "uncertain_point_ignored",
    "uncertain_point_partial",
    "point_covariance",
    "point_product_covariance"
   ],
   "note": "REFUTED as stated: the covariance of the point is ignored. The correct composition law is point_product_covariance; the claim holds for an exact point."
  },
  {
   "property": "C10",
   "status": "proved",
   "theorems": [
    "inverse2_two_sided",
    "inverse3_two_sided",
    "inverse_defined_iff_det",
    "det2_laws",
    "det3_laws"
   ],
   "note": ""
  },
  {
   "property": "C100",
   "status": "proved",
   "theorems": [
    "projection_dlt_exact",
    "projection_dlt_sound",
    "projection_dlt_normal_form",
    "p_full_svd_sufficient"
   ],
   "note": "gesvd is an oracle as in C99; \"determines\" is a hypothesis on the data, met by the corners of a cube (cube_found)."
  },
  {
   "property": "C101",
   "status": "partial",
   "theorems": [
    "fm_normalize_spec",
    "fm_normalize_fails",
    "fundamental_singular",
    "fundamental_exact",
    "fundamental_throws",
    "every_one",
    "every_spec",
    "fundamental_step_refuted"
   ],
   "note": "REFUTED as stated: fundamental_step_refuted, the number of points is checked before every step-th is chosen, so eight points with step 2 give four equations and a wrong matrix. Proved if the chosen correspondences determine the matrix; for step 1 these are all."
  },
  {
   "property": "C102",
   "status": "proved",
   "theorems": [
    "fundamental_from_poses_line",
    "fundamental_from_poses_epipolar",
    "fundamental_from_poses_nonzero"
   ],
   "note": "The 4x4 inverse and the pseudo-inverse are arguments with their defining equations as hypotheses (see C12, C13 for the code that computes them)."
  },
  {
   "property": "C103",
   "status": "proved",
   "theorems": [
    "tool_tip_optimal",
    "tool_tip_exact",
    "tool_tip_ambiguous",
    "two_poses_ambiguous",
    "tip_residual"
   ],
   "note": "gels is an oracle that minimises the residual."
  },
  {
   "property": "C104",
   "status": "partial",
   "theorems": [
    "tsai_lenz_exact",
    "tsai_half_turn_never_found",
    "tsai_half_turn_motion_refuted"
   ],
   "note": "REFUTED as stated where half turns are involved: a half turn between hand and eye is never found (tsai_half_turn_never_found), and with half turns between positions the signs chosen for the two axes may disagree, the identity being returned for exact data (tsai_half_turn_motion_refuted). Proved otherwise (tsai_lenz_exact). Inversion and gels are oracles."
  },
  {
   "property": "C105",
   "status": "proved",
   "theorems": [
    "tsai_lenz_less_than_half",
    "tsai_half_turn_never_found",
    "tsai_lenz_two_positions",
    "tsai_lenz_throws"
   ],
   "note": ""
  },
  {
   "property": "C106",
   "status": "proved",
   "theorems": [
    "expected_velocity_keeps_state",
    "expected_rotation_keeps_state",
    "expected_pose_keeps_state"
   ],
   "note": "Same assumptions as C83."
  },
  {
   "property": "C107",
   "status": "partial",
   "theorems": [
    "epipolar_distance_spec",
    "epipolar_distance_zero_iff",
    "epipolar_distance_undefined_iff",
    "homogeneous_from_scale",
    "homogeneous_to_scale_refuted"
   ],
   "note": "REFUTED as stated for homogeneous points: the last entry of the second point is ignored, so another multiple of the same point has another distance (homogeneous_to_scale_refuted). Proved for 2D points and for the scale of the first point."
  },
  {
   "property": "C108",
   "status": "proved",
   "theorems": [
    "two_view_exact",
    "multi_view_exact",
    "direction_check_idle",
    "multi_view_throws_iff"
   ],
   "note": "gesvd is an oracle whose last row of Vt minimises the residual among unit vectors; without the non-linear refinement (flag 0)."
  },
  {
   "property": "C109",
   "status": "proved",
   "theorems": [
    "reconstruct_exact"
   ],
   "note": "Munkres is an oracle that returns an assignment of least cost (see C32 for when the code does), gesvd as in C108, inverse and pseudo-inverse as in C102."
  },
  {
   "property": "C11",
   "status": "proved",
   "theorems": [
    "inner_product_exact",
    "inner_dynamic_exact",
    "norms_exact",
    "normalize_exact",
    "cross_product_laws",
    "outer_product_exact",
    "matrix_vector_exact",
    "matrix_vector_forward_exact",
    "matrix_matrix_exact",
    "matrix_vector_zero_columns_refuted"
   ],
   "note": "For at least one summed column; with zero columns the matrix-vector recursion does not end (matrix_vector_zero_columns_refuted), such a type is not instantiated in the library."
  },
  {
   "property": "C110",
   "status": "proved",
   "theorems": [
    "multi_projection_spec",
    "multi_projection_jacobian"
   ],
   "note": ""
  },
  {
   "property": "C111",
   "status": "proved",
   "theorems": [
    "lu_determinant",
    "laplace_is_det",
    "small_determinants"
   ],
   "note": "getrf is an oracle that returns a factorisation of the interchanged matrix; the specification is met by exactly one function up to entries outside the matrix, laplace_is_det shows that it exists for every size."
  },
  {
   "property": "C112",
   "status": "partial",
   "theorems": [
    "project_unproject",
    "unproject_project",
    "project_is_pinhole",
    "project_then_distort",
    "project_then_distort_refuted"
   ],
   "note": "REFUTED as stated for K(2,2) = -1 with tangential coefficients (project_then_distort_refuted). project_then_distort: the two agree for every point exactly if K(2,2) = 1 or both tangential coefficients vanish."
  },
  {
   "property": "C113",
   "status": "proved",
   "theorems": [
    "distort6_defined",
    "distort6_extends",
    "distort_none",
    "camera_distort_lens_distort",
    "radial_rotates",
    "transform_all_spec"
   ],
   "note": "Real arithmetic; a vanishing divisor (infinity or NaN) is None."
  },
  {
   "property": "C114",
   "status": "proved",
   "theorems": [
    "distort6_derivative"
   ],
   "note": "Derivative along every differentiable curve, wherever the divisor is not zero."
  },
  {
   "property": "C115",
   "status": "partial",
   "theorems": [
    "undistort_terminates",
    "undistort_improves",
    "undistort6_improves",
    "camera_undistort_improves",
    "undistort_fixed",
    "image_undistort_fixed",
    "undistort_error",
    "undistort_unique",
    "undistort_inverts_refuted"
   ],
   "note": "REFUTED as stated (undistort_inverts_refuted: with k1 = 1 the five steps in exact arithmetic stay rational while the undistorted point is irrational). Proved instead: the call ends, the residual never exceeds the one of the input, fixed points are returned exactly, and for radial coefficients >= 0 the undistorted point is unique and the squared error is at most the returned residual."
  },
  {
   "property": "C116",
   "status": "partial",
   "theorems": [
    "undistort_point_distorts",
    "undistort_point_refuted"
   ],
   "note": "REFUTED (undistort_point_refuted). undistort_point_distorts: for K(0,1) = 0 and K(2,2) = -1 the function is the forward distortion of CameraLens::distort."
  },
  {
   "property": "C117",
   "status": "proved",
   "theorems": [
    "back_identity_inverse",
    "inverse_times_unique",
    "back_identity_covariance",
    "back_identity_undefined",
    "back_identity_pseudo"
   ],
   "note": "gesvd is an oracle returning a singular value decomposition; real arithmetic."
  },
  {
   "property": "C118",
   "status": "partial",
   "theorems": [
    "back_diagonal_computes",
    "back_diagonal_square",
    "back_diagonal_refuted",
    "back_general_refuted",
    "back_general_symmetric"
   ],
   "note": "REFUTED as stated: backwardPropagationDiagonal weights only as many measurements as there are parameters (back_diagonal_refuted), backwardPropagation multiplies by Q instead of Q^T and has the same loop (back_general_refuted). Proved: what the diagonal version computes for every input (back_diagonal_computes), its correctness for square Jacobians (back_diagonal_square), correctness of the general version for square Jacobians and symmetric Q (back_general_symmetric)."
  },
  {
   "property": "C119",
   "status": "proved",
   "theorems": [
    "evaluate_composes",
    "calls_independent"
   ],
   "note": "Binder trees are modelled as data; the caches of nested Binders are part of the state."
  },
  {
   "property": "C12",
   "status": "partial",
   "theorems": [
    "transform_point_exact",
    "transform_point_44_4_refuted",
    "transform_point_44_4_exact_iff",
    "project_point_exact",
    "project_point_scale"
   ],
   "note": "REFUTED for the 4x4 matrix with a homogeneous 4-vector: line 181 uses entry (3,3) instead of (3,2). All other overloads proved."
  },
  {
   "property": "C120",
   "status": "proved",
   "theorems": [
    "expression_jacobian",
    "expression_jacobian_zero",
    "difference_of_parameters"
   ],
   "note": "The functions enter through a contract (C122); real arithmetic; derivative along every differentiable curve."
  },
  {
   "property": "C121",
   "status": "partial",
   "theorems": [
    "repeated_parameter_refuted",
    "repeated_parameter_computes",
    "expression_jacobian"
   ],
   "note": "REFUTED: for p + p the computed Jacobian is the identity, half of the derivative (repeated_parameter_computes, for every size). expression_jacobian covers expressions without repetition."
  },
  {
   "property": "C122",
   "status": "partial",
   "theorems": [
    "addition_contract",
    "subtraction_contract",
    "linear_contract",
    "store_contract",
    "dehomogenization_contract",
    "norm_contract",
    "norm_contract_refuted",
    "lie_contract",
    "intrinsics_contract"
   ],
   "note": "REFUTED for VectorNorm with more than one row on the left (norm_contract_refuted); proved for one row (norm_contract) and for all other functions. LieRotation: rotations of at least 1e-6; below, evaluate and Jacobian disagree (lie_jacobian_zero_refuted, C56)."
  },
  {
   "property": "C123",
   "status": "proved",
   "theorems": [
    "objective_jacobian"
   ],
   "note": "For rotation vectors of length at least 1e-6; the generated Jacobian of LieRotation is the one of utAlgorithm/Function/LieRotation.h."
  },
  {
   "property": "C124",
   "status": "partial",
   "theorems": [
    "bundle_jacobian",
    "bundle_jacobian_refuted"
   ],
   "note": "REFUTED as stated: Quaternion::operator* uses 2(x^2+w^2)-1, the Jacobian differentiates the homogeneous form w^2+x^2-y^2-z^2; they agree only on unit quaternions (bundle_jacobian), and OptNoNormalize lets the optimizer leave those (bundle_jacobian_refuted)."
  },
  {
   "property": "C125",
   "status": "partial",
   "theorems": [
    "predictions_fill_the_rows",
    "full_visibility_objective",
    "partial_visibility_refuted"
   ],
   "note": "REFUTED as stated: with a camera that misses a point, rows behind the end of the result vector are written (partial_visibility_refuted). Proved when all cameras see all points."
  },
  {
   "property": "C126",
   "status": "partial",
   "theorems": [
    "bundle_roundtrip",
    "bundle_poses_are_rigid",
    "bundle_terminates",
    "bundle_final_error",
    "exact_data_unchanged",
    "normalised_error",
    "normalised_error_refuted"
   ],
   "note": "All parts proved except that the returned, normalised poses have the error that was minimised: REFUTED as stated by normalised_error_refuted, proved when the optimizer ends with unit quaternions (normalised_error)."
  },
  {
   "property": "C127",
   "status": "proved",
   "theorems": [
    "bundle_gauge"
   ],
   "note": ""
  },
  {
   "property": "C128",
   "status": "proved",
   "theorems": [
    "oi_pose_optimal_translation",
    "oi_failure_writes_nothing"
   ],
   "note": "Eigenvalue routine and matrix inversion are oracles with their contracts (eigen_ok, inverse_ok) as hypotheses."
  },
  {
   "property": "C129",
   "status": "proved",
   "theorems": [
    "oi_error_monotone"
   ],
   "note": "Same oracles."
  },
  {
   "property": "C13",
   "status": "proved",
   "theorems": [
    "normalization_centres",
    "normalization_scale_zero",
    "normalization_matrix_normalizes",
    "normalization_matrix_inverse"
   ],
   "note": ""
  },
  {
   "property": "C130",
   "status": "proved",
   "theorems": [
    "oi_terminates"
   ],
   "note": "Same oracles."
  },
  {
   "property": "C131",
   "status": "proved",
   "theorems": [
    "exact_fit_reprojects",
    "reprojection_is_exact_fit",
    "behind_the_camera_same_error"
   ],
   "note": ""
  },
  {
   "property": "C132",
   "status": "proved",
   "theorems": [
    "homography_pose_rotation",
    "homography_pose_exact",
    "homography_pose_plain_exact",
    "homography_pose_plain_rigid",
    "facing_reprojects"
   ],
   "note": "Singular value decomposition of the 3x2 matrix is an oracle with contract svd32_ok."
  },
  {
   "property": "C133",
   "status": "partial",
   "theorems": [
    "planar_pose_exact",
    "rotated_plane_exact",
    "level_points_pose",
    "level_points_refuted"
   ],
   "note": "REFUTED as stated: points with a common z = h other than zero give a pose off by h along the normal (level_points_refuted, level_points_pose gives the exact result). Proved for z = 0 and for slanted planes. Oracles: homography SVD (h_svd_ok), 3x2 SVD on scaled frames, matrix inversion."
  },
  {
   "property": "C134",
   "status": "partial",
   "theorems": [
    "projection_init_exact",
    "projection_init",
    "projection_init_refuted"
   ],
   "note": "REFUTED as stated: for a camera matrix whose third row has length r the translation comes out multiplied by r^2 (projection_init, projection_init_refuted). Proved for r = 1 (projection_init_exact)."
  },
  {
   "property": "C135",
   "status": "proved",
   "theorems": [
    "refined_pose",
    "refinement_never_worse",
    "refinement_ends"
   ],
   "note": "Linear solvers are arbitrary functions; refinement_never_worse assumes that a system containing NaN is not answered with numbers (nan_stays)."
  },
  {
   "property": "C136",
   "status": "partial",
   "theorems": [
    "reprojection_error_is_sum",
    "init_pose_rigid",
    "init_projection_guard",
    "computed_residual",
    "computed_covariance",
    "computed_covariance_refuted"
   ],
   "note": "REFUTED as stated for the covariance: it is 2n times the covariance for the variance the residual stands for (computed_covariance, computed_covariance_refuted). Residual and rigidity proved."
  },
  {
   "property": "C137",
   "status": "partial",
   "theorems": [
    "collinearity_test",
    "collinear_points_missed",
    "collinearity_test_refuted"
   ],
   "note": "REFUTED as stated in both directions; collinearity_test gives the exact condition."
  },
  {
   "property": "C138",
   "status": "proved",
   "theorems": [
    "syev_exists",
    "syev4_exists",
    "eigen_ok_exists",
    "full_svd_exists",
    "gesvd_exists",
    "least_direction_always",
    "dlt_svd_exists",
    "svd8_exists",
    "svd_exists",
    "penrose_exists",
    "least_squares_exists",
    "svd32_exists",
    "svd33_exists",
    "rq_exists",
    "getrf_exists",
    "eigenvectors_exist"
   ],
   "note": "the spectral theorem and the singular value decomposition are proved from scratch for all sizes (Spectral.v); floating point error of the routines is outside the model"
  },
  {
   "property": "C139",
   "status": "proved",
   "theorems": [
    "online_fit",
    "online_information",
    "online_order",
    "online_signs",
    "online_result_unit"
   ],
   "note": "the LAPACK inversion is an oracle with the contract lapack_ok (met by some routine for every size: lapack_exists)"
  },
  {
   "property": "C14",
   "status": "proved",
   "theorems": [
    "conic_matrix_roundtrip",
    "matrix_conic_roundtrip",
    "conic_pixel_exact",
    "translate_conic_exact",
    "translate_conic_group",
    "flip_conic_exact",
    "flip_conic_involutive",
    "scale_conic_exact",
    "conic_inverse_exact",
    "conic_det_exact",
    "conic_inverse_involutive"
   ],
   "note": ""
  },
  {
   "property": "C140",
   "status": "partial",
   "theorems": [
    "online_error",
    "online_result_error",
    "online_converges",
    "online_half_turn_refuted",
    "online_half_turn_sign_refuted"
   ],
   "note": "REFUTED as stated for half turns: a calibration that is a half turn is never returned (online_half_turn_refuted), and exact half-turn measurements can lead to the opposite rotation (online_half_turn_sign_refuted). Proved for all other calibrations and measurements."
  },
  {
   "property": "C141",
   "status": "partial",
   "theorems": [
    "rhk_always_valid",
    "rhk_compromise",
    "rhk_exact_state",
    "rhk_sign",
    "rhk_sign_refuted"
   ],
   "note": "REFUTED as stated for the sign rule: for every rotation by more than a quarter turn there is a calibration for which negateIfCloser picks the wrong sign (rhk_sign_refuted); right below a quarter turn (rhk_sign). The rest is proved for all inputs."
  },
  {
   "property": "C142",
   "status": "proved",
   "theorems": [
    "kalman_map"
   ],
   "note": "linear measurement functions; for nonlinear ones the update is the same with the linearisation"
  },
  {
   "property": "C143",
   "status": "proved",
   "theorems": [
    "estimated_pose",
    "estimate_no_worse",
    "estimate_returns",
    "lm_no_worse"
   ],
   "note": "estimate_no_worse leaves out initial rotations by less than about 2e-12 (taken for none by toLogarithm)"
  },
  {
   "property": "C144",
   "status": "partial",
   "theorems": [
    "start_from_camera",
    "start_from_camera_refuted"
   ],
   "note": "REFUTED as stated: the code starts at camPose * T where camPose^-1 * T is the pose (start_from_camera_refuted: exact data, start with error 16). start_from_camera: the start is right exactly when the camera pose is its own inverse."
  },
  {
   "property": "C145",
   "status": "partial",
   "theorems": [
    "estimate_local",
    "bundles_independent",
    "empty_bundle",
    "empty_first_bundle_refuted"
   ],
   "note": "REFUTED as stated for an empty first bundle: its end index -1 means all points (empty_first_bundle_refuted). Proved for non-empty bundles, and for empty bundles that are not the first."
  },
  {
   "property": "C146",
   "status": "partial",
   "theorems": [
    "too_few_points",
    "negative_minimum",
    "bundle_beyond",
    "no_camera",
    "multi_camera_all"
   ],
   "note": "REFUTED as stated: a negative minimum refuses everything (negative_minimum), data without cameras pass the check and are undefined (no_camera), a bundle beyond the points is undefined (bundle_beyond). The rule is proved for non-negative minima, ranges within the points and at least one camera."
  },
  {
   "property": "C147",
   "status": "proved",
   "theorems": [
    "points_jacobian",
    "points_observable"
   ],
   "note": ""
  },
  {
   "property": "C148",
   "status": "partial",
   "theorems": [
    "pose_covariance_inverse",
    "centred_covariance",
    "covariance_units",
    "covariance_units_refuted",
    "unseen_is_certain_refuted",
    "covariance_too_few"
   ],
   "note": "REFUTED as stated: the factor is the mean distance divided by 3, a length and not the square of one, so the same data in other units give another covariance (covariance_units_refuted); changes of the pose that collinear points do not determine are given variance zero (unseen_is_certain_refuted). Proved: symmetric, positive semidefinite, residual times the inverse of J^T J if the Jacobian is well conditioned (pose_covariance_inverse)."
  },
  {
   "property": "C149",
   "status": "partial",
   "theorems": [
    "essential_pose_exact",
    "essential_of_poses",
    "pose_fundamental_round_trip",
    "equidistant_point_refuted"
   ],
   "note": "REFUTED without the condition on the distances: for a point at equal distance from both cameras a legal singular value decomposition makes the first triangulation divide by zero (equidistant_point_refuted). Proved for all other points (essential_pose_exact, pose_fundamental_round_trip)."
  },
  {
   "property": "C15",
   "status": "partial",
   "theorems": [
    "conic_center_exact",
    "conic_center_defined",
    "conic_center_exception_refuted"
   ],
   "note": "Centre proved. REFUTED for the exception: the guard compares 1/x with zero, so no input throws; a zero discriminant gives non-finite coordinates."
  },
  {
   "property": "C150",
   "status": "proved",
   "theorems": [
    "square_homography_maps",
    "square_homography_exact",
    "square_homography_regular_iff",
    "square_homography_unique"
   ],
   "note": ""
  },
  {
   "property": "C151",
   "status": "partial",
   "theorems": [
    "tip_jacobian_derivative",
    "tip_jacobian_axis_refuted",
    "tip_refine_optimal",
    "tip_step_downhill",
    "tip_damping",
    "tip_round_limit",
    "tip_refine_exact_refuted"
   ],
   "note": "Jacobian and optimality proved where the result is a number. REFUTED as stated: the Jacobian is NaN as soon as one residual component is zero, and for perfect measurements the refined function never returns the exact linear estimate."
  },
  {
   "property": "C152",
   "status": "partial",
   "theorems": [
    "tip_errors_meaning",
    "tip_errors_world",
    "tip_errors_few_refuted"
   ],
   "note": "Proved for two or more poses. REFUTED for one pose (deviation NaN) and for none (mean NaN, deviation 0)."
  },
  {
   "property": "C153",
   "status": "partial",
   "theorems": [
    "ransac_pose_exact",
    "fits_distance",
    "separated_by_distance",
    "ransac_pose_unset_refuted"
   ],
   "note": "Exactness proved under the stated conditions. REFUTED as stated: a consensus set of coinciding points makes the final estimation fail: success is then reported with the untouched pose (ransac_pose_unset_refuted)."
  },
  {
   "property": "C154",
   "status": "partial",
   "theorems": [
    "ransac_tip_exact",
    "ransac_tip_failure_refuted"
   ],
   "note": "Exactness proved. REFUTED for the failure part: both outputs are overwritten with the contents of an uninitialised vector."
  },
  {
   "property": "C155",
   "status": "partial",
   "theorems": [
    "ransac_first_qualifying",
    "ransac_best_refuted",
    "ransac3_reports_existing_consensus"
   ],
   "note": "REFUTED for the one- and two-range variants, which stop at the first hypothesis with enough support (proved); the three-argument variant returns the largest set of the executed iterations."
  },
  {
   "property": "C156",
   "status": "partial",
   "theorems": [
    "lookup_in_bounds",
    "lookup_pixel",
    "lookup_between",
    "lookup_lipschitz",
    "lookup_affine",
    "lookup_last_column_refuted"
   ],
   "note": "Proved where four pixels surround the coordinate. REFUTED for the last column and row, which read as zero."
  },
  {
   "property": "C157",
   "status": "partial",
   "theorems": [
    "lookup_sobel",
    "round_nearest",
    "lookup_jacobian_affine",
    "lookup_jacobian_derivative",
    "lookup_jacobian_smoothed",
    "lookup_jacobian_refuted",
    "lookup_border_jacobian_refuted"
   ],
   "note": "Proved for affine images away from the border; in general it is a smoothed central difference at the rounded coordinate. REFUTED as stated: not the derivative of the interpolation, and zero near the right and lower border."
  },
  {
   "property": "C158",
   "status": "partial",
   "theorems": [
    "archive_round_trip",
    "archive_injective",
    "archive_too_many",
    "archive_blank_refuted",
    "archive_counter_refuted",
    "archive_double_refuted"
   ],
   "note": "Proved for integers and non-blank characters, up to 2^32 values. REFUTED for blank characters (silently shifts the following values), for longer sequences (no separator when the counter wraps) and for doubles (six digits)."
  },
  {
   "property": "C159",
   "status": "partial",
   "theorems": [
    "timer_accounting",
    "timer_sequential",
    "timer_location_fixed",
    "timer_location_first",
    "timer_average",
    "timer_nested_refuted",
    "timer_set_back_refuted",
    "timer_location_refuted",
    "timer_average_refuted"
   ],
   "note": "Proved modulo 2^64 for properly nested blocks, exactly for sequential ones. REFUTED in corners: nested blocks of one timer count twice, a clock set back gives an astronomical time, the location may be that of an inner block, and the average before the first run is not a number. Threads are not modelled."
  },
  {
   "property": "C16",
   "status": "partial",
   "theorems": [
    "eccentricity_exact_iff",
    "eccentricity_rotation_refuted"
   ],
   "note": "REFUTED: the value is right exactly for axis-aligned ellipses."
  },
  {
   "property": "C160",
   "status": "partial",
   "theorems": [
    "now_fields",
    "now_monotone",
    "now_wraps",
    "now_wrap_refuted",
    "short_order",
    "short_unique",
    "short_length",
    "short_day_refuted"
   ],
   "note": "Proved within one local day at a fixed distance from UTC. REFUTED across days: the text has no date."
  },
  {
   "property": "C161",
   "status": "proved",
   "theorems": [
    "long_shape",
    "long_length",
    "long_unique",
    "date_exists"
   ],
   "note": "gmtime_r is an argument with the Gregorian calendar as contract; date_exists shows that the contract can be met for every 64 bit timestamp."
  },
  {
   "property": "C162",
   "status": "partial",
   "theorems": [
    "regex_correct",
    "glob_images",
    "glob_calibrations",
    "glob_boost",
    "glob_exact",
    "glob_fails",
    "glob_order",
    "glob_file",
    "glob_missing",
    "glob_numbered",
    "glob_case_refuted",
    "glob_pattern_refuted",
    "glob_numbers_refuted"
   ],
   "note": "Proved for directories; the pattern trees stand for the pattern texts. REFUTED in corners: mixed-case extensions are overlooked, a single file is taken whatever its name, a fruitless search is not reported if the list was not empty, and numbers of different length are sorted as text."
  },
  {
   "property": "C163",
   "status": "partial",
   "theorems": [
    "uniform_within",
    "uniform_within_own",
    "uniform_matrix_within",
    "uniform_matrix_onto",
    "uniform_onto",
    "normal_covariance_refuted"
   ],
   "note": "Proved for uniform vectors and matrices. REFUTED for the normal distribution with a covariance matrix: the constructor leaves the standard deviations uninitialised."
  },
  {
   "property": "C164",
   "status": "proved",
   "theorems": [
    "rotation_unit",
    "rotation_onto",
    "rotation_injective",
    "rotation_volume",
    "rotation_isotropic",
    "rotation_moments",
    "rotation_invariant",
    "rotation_uniform"
   ],
   "note": "Unit length proved. The map from the unit cube is one-to-one and onto the sphere and stretches volume everywhere by the same factor. Uniformity: the mean over the unit cube of every continuous function exists and does not change when the random rotations are composed with any fixed rotation, on either side (rotation_uniform); the moments of all linear forms are those of the sphere. The three random numbers are taken as independent and uniform (the contract of the generator)."
  },
  {
   "property": "C165",
   "status": "partial",
   "theorems": [
    "angle_horizontal_rays",
    "angle_vertical_rays",
    "angle_monotone",
    "angle_diagonal_value",
    "flip_projects",
    "flip_twice",
    "angle_diagonal_refuted",
    "angle_offset_refuted"
   ],
   "note": "Sides proved for a principal point in the middle. REFUTED for the diagonal, which is too small by a factor of the square root of two (smaller than the horizontal angle of a wide image), and for other principal points."
  },
  {
   "property": "C166",
   "status": "partial",
   "theorems": [
    "less_spec",
    "equal_spec",
    "less_irreflexive",
    "less_transitive",
    "less_total",
    "less_not_equal",
    "less_nan_refuted"
   ],
   "note": "Proved for numbers. REFUTED for NaN: incomparability is not transitive."
  },
  {
   "property": "C167",
   "status": "proved",
   "theorems": [
    "rms_mean",
    "rms_defined",
    "rms_zero",
    "rms_rotated"
   ],
   "note": ""
  },
  {
   "property": "C168",
   "status": "partial",
   "theorems": [
    "calib_last_write",
    "calib_write_frame",
    "calib_full_disk",
    "calib_read_failure",
    "calib_measurement_fresh",
    "calib_measurement_round_trip",
    "calib_drop_all_or_nothing",
    "calib_measurement_failure_refuted",
    "calib_truncated_refuted"
   ],
   "note": "Proved with the boost archives given by contract. REFUTED as stated: a write to a full disk reports success and leaves a file that cannot be read (calib_truncated_refuted); the measurement reader destroys the old measurement before it knows whether the file can be read, and lets foreign exceptions through (calib_measurement_failure_refuted)."
  },
  {
   "property": "C169",
   "status": "proved",
   "theorems": [
    "rounded_product",
    "rounded_chain"
   ],
   "note": "Double precision arithmetic of Flocq: one rounding to nearest per operation, no fused multiply-add, no extended precision."
  },
  {
   "property": "C17",
   "status": "proved",
   "theorems": [
    "ransac_reports_existing_consensus",
    "ransac3_reports_existing_consensus"
   ],
   "note": "All three RANSAC overloads; estimator, evaluator and random source are arbitrary functions. Closed under the global context."
  },
  {
   "property": "C170",
   "status": "partial",
   "theorems": [
    "log_domain",
    "slerp_domain",
    "axis_finite",
    "angle_domain_refuted"
   ],
   "note": "Proved for toLogarithm (any quaternion, also NaN) and slerp (unit up to one per cent). REFUTED as stated for angle and toAxisAngle: ( 0, 0, 0, 49 ) normalises to a w larger than one, angle and axis are NaN; axis_finite is the positive rest."
  },
  {
   "property": "C171",
   "status": "proved",
   "theorems": [
    "rounded_normalize",
    "rounded_rotation",
    "rounded_unit_rotation"
   ],
   "note": "One rounding to nearest per operation."
  },
  {
   "property": "C172",
   "status": "partial",
   "theorems": [
    "ls_means_between",
    "ls_first_calls",
    "timestamp_cast",
    "ls_division_refuted",
    "ls_backstep_refuted"
   ],
   "note": "Means and first eleven calls proved. REFUTED as stated for later calls: with Unix time in seconds the variance cancels to zero, the twelfth call divides by it and converts the result to an integer (undefined behaviour); a local clock one nanosecond before its first reading is undefined behaviour already in the second call."
  },
  {
   "property": "C173",
   "status": "partial",
   "theorems": [
    "mean_rounding",
    "covariance_rounding",
    "variance_below_zero",
    "mean_of_equal_refuted"
   ],
   "note": "Error bounds proved. REFUTED as stated: the mean of 0.1, 0.1, 0.1 is larger than 0.1 and the variance of these values is negative (mean_of_equal_refuted); variance_below_zero bounds how far below zero a variance can be."
  },
  {
   "property": "C174",
   "status": "partial",
   "theorems": [
    "inner_product_rounding",
    "norm_rounding",
    "inner_product_storage_refuted",
    "norm_zero_refuted"
   ],
   "note": "Error bounds proved. REFUTED as stated: fixed vectors are summed from the last component, dynamic ones from the first, and the results differ (inner_product_storage_refuted); the length of ( 2^-600 ) is zero (norm_zero_refuted)."
  },
  {
   "property": "C175",
   "status": "partial",
   "theorems": [
    "identity_second",
    "identity_first",
    "identity_unsized",
    "identity_first_short",
    "identity_moves",
    "identity_subscript",
    "identity_order",
    "identity_plus_refuted"
   ],
   "note": "REFUTED as stated only for the last part: operator+ and operator- change the iterator they are applied to (identity_plus_refuted); no caller in the library uses them. The rest is proved."
  },
  {
   "property": "C176",
   "status": "partial",
   "theorems": [
    "exception_text_line",
    "exception_text_unique",
    "exception_text_refuted",
    "exception_null_file_refuted"
   ],
   "note": "REFUTED as stated: throwStreamOverrun passes no file name, and with debug messages switched on the constructor streams the null pointer (exception_null_file_refuted); with quotation marks in file names texts are ambiguous (exception_text_refuted). Line always, everything else without quotation marks: proved."
  },
  {
   "property": "C177",
   "status": "partial",
   "theorems": [
    "simplex_start_points",
    "simplex_zero_start_refuted"
   ],
   "note": "Proved for parameters that do not start at zero: the starting simplex extends along each of them. REFUTED as stated: the start is enlarged by a factor, so a parameter that starts at zero gives a flat simplex and stays exactly zero for ever, whatever the function."
  },
  {
   "property": "C18",
   "status": "partial",
   "theorems": [
    "ransac_early_abort_complete",
    "ransac3_early_abort_complete",
    "ransac_large_input_refuted"
   ],
   "note": "Proved for fewer than 2^31 items; REFUTED beyond that: the int cast in the early exit test abandons a full consensus (ransac_large_input_refuted)."
  },
  {
   "property": "C19",
   "status": "partial",
   "theorems": [
    "ransac_failure_leaves_result",
    "ransac_zero_minimum_refuted",
    "ransac_final_failure_refuted"
   ],
   "note": "Proved for a positive minimum consensus. REFUTED as stated for minimum consensus 0 (result overwritten while 0 is returned) and when the final estimation fails (its failure is ignored)."
  },
  {
   "property": "C20",
   "status": "proved",
   "theorems": [
    "lm_reports_its_residual",
    "lm_never_worse"
   ],
   "note": "For any linear solver oracle, normalisation, weight function with non-negative weights and termination criterion."
  },
  {
   "property": "C21",
   "status": "proved",
   "theorems": [
    "lm_terminates_within_limit",
    "lm_terminates_within_limit_svd",
    "lm_unlimited_diverges"
   ],
   "note": "For any problem and any solver behaviour."
  },
  {
   "property": "C22",
   "status": "partial",
   "theorems": [
    "lm_nan_accepted_refuted"
   ],
   "note": "REFUTED: the test fErr >= fErrPrev is false for NaN, so the step is accepted and NaN is returned."
  },
  {
   "property": "C23",
   "status": "proved",
   "theorems": [
    "simplex_state_coherent",
    "simplex_best_monotone",
    "simplex_returns_best_seen",
    "simplex_selection",
    "simplex_trial_point",
    "simplex_contraction",
    "simplex_terminates_within_limit"
   ],
   "note": "Any function, any normalisation, dimension at least one. Stronger than stated: the returned value is the minimum over all points evaluated."
  },
  {
   "property": "C24",
   "status": "proved",
   "theorems": [
    "discrete_jacobian_affine",
    "discrete_jacobian_limit",
    "discrete_jacobian_quadratic_error",
    "discrete_jacobian_zero_width",
    "linear_function_jacobian"
   ],
   "note": "Also: entries converge to the partial derivatives as the width goes to zero; a zero width has no result."
  },
  {
   "property": "C25",
   "status": "partial",
   "theorems": [
    "derivative_spec",
    "sphere_derivative_spec",
    "radial_distortion_jacobians",
    "dehomogenization_jacobian",
    "normalize_jacobian",
    "quaternion_rotation_jacobian",
    "quaternion_vector_jacobians",
    "quaternion_rotation_jacobian_refuted",
    "quaternion_error_jacobian",
    "lie_jacobian_exact",
    "lie_jacobian_zero",
    "lie_jacobian_zero_refuted",
    "single_point_multi_projection_jacobian",
    "multiple_point_projection_jacobian",
    "multiple_camera_projection_jacobian",
    "projection_error_jacobians",
    "art_error_jacobian"
   ],
   "note": "Proved for distortion, dehomogenisation, normalisation, projections and, along all motions that keep the quaternion on the unit sphere, for rotations. REFUTED for changes of the quaternion length (quaternion_rotation_jacobian_refuted) and for LieRotation inside the cut-off of fromLogarithm (lie_jacobian_zero_refuted), where it is the Jacobian of the exact exponential map."
  },
  {
   "property": "C26",
   "status": "proved",
   "theorems": [
    "kalman_covariance_valid",
    "kalman_textbook",
    "kalman_gain_optimal",
    "kalman_no_innovation",
    "kalman_well_defined",
    "kalman_identity_agrees"
   ],
   "note": "The LAPACK inversion is a hypothesis (lapack_ok)."
  },
  {
   "property": "C27",
   "status": "proved",
   "theorems": [
    "transform_range_joint_covariance",
    "transform_range_linear",
    "transform_range_frame",
    "transform_range_valid",
    "transform_range_symmetry_needed",
    "transform_cov_valid",
    "binary_transform_joint",
    "binary_transform_valid"
   ],
   "note": "All dimensions and ranges, overlapping or not, for symmetric covariances; symmetry is necessary."
  },
  {
   "property": "C28",
   "status": "proved",
   "theorems": [
    "average_exact",
    "average_order",
    "error_average_exact",
    "error_average_valid",
    "rotation_average_sign",
    "rotation_average_half_turn_refuted",
    "rotation_average_unit",
    "rotation_average_copies",
    "rotation_average_optimal",
    "pose_average_parts"
   ],
   "note": "For a zero scalar part the sign does matter (rotation_average_half_turn_refuted)."
  },
  {
   "property": "C29",
   "status": "proved",
   "theorems": [
    "assign_valid",
    "assign_nearest",
    "kmeans_rounds",
    "kmeans_labels",
    "kmeans_error",
    "greedy_seeds",
    "seeds_from_input",
    "seeds_none_refuted"
   ],
   "note": "Nearest is stated for finite means; with a NaN mean (empty cluster) labels stay valid. Asked for zero seeds the routine writes one (seeds_none_refuted)."
  },
  {
   "property": "C30",
   "status": "proved",
   "theorems": [
    "correlation_range",
    "correlation_symmetric",
    "correlation_defined",
    "correlation_self",
    "correlation_affine",
    "correlation_extreme",
    "correlation_prefix"
   ],
   "note": ""
  },
  {
   "property": "C31",
   "status": "partial",
   "theorems": [
    "filtered_iteration_diverges_refuted",
    "filtered_iteration_no_match",
    "filtered_iteration_correct_iff",
    "filtered_size"
   ],
   "note": "REFUTED: operator++ does not move past a matching element, so the loop never ends; iteration is right exactly for empty sequences."
  },
  {
   "property": "C32",
   "status": "partial",
   "theorems": [
    "munkres_result_optimal_partial",
    "munkres_terminates_iff",
    "munkres_termination_refuted",
    "munkres_reduction_invariant",
    "munkres_zero_assignment_minimal",
    "munkres_match_lists_inverse",
    "munkres_nonsquare_refuted"
   ],
   "note": "REFUTED as stated: find_uncovered_in_matrix shadows its output parameters, so the solver loops forever on [[1,2],[3,4]] (munkres_termination_refuted) and, exactly, on every matrix for which the greedy selection of zeros after row reduction is incomplete (munkres_terminates_iff). Whenever it returns, the result is a minimal permutation. Non-square input violates an assignment precondition (munkres_nonsquare_refuted). Integer costs."
  },
  {
   "property": "C33",
   "status": "proved",
   "theorems": [
    "sync_covariance_valid",
    "sync_moves_towards_measurement",
    "sync_first_event_exact",
    "sync_fixed_point",
    "sync_counts_events",
    "sync_counter_restarts",
    "sync_ls_counts_events",
    "sync_ls_warmup_exact",
    "sync_ls_exact_on_lines",
    "sync_ls_constant_native_refuted"
   ],
   "note": "Over idealised reals with wrapping 64-bit timestamps; all call sequences. The least-squares variant is covered too: exact on collinear data, and divides by zero for a constant native clock."
  },
  {
   "property": "C34",
   "status": "proved",
   "theorems": [
    "sync_outlier_run_bounded",
    "sync_outlier_run_attained",
    "sync_rejections_bounded"
   ],
   "note": "At most 21 consecutive rejections, bound attained; at most one third of all events rejected, none among the first hundred."
  },
  {
   "property": "C35",
   "status": "partial",
   "theorems": [
    "ros_get_length",
    "ros_length_exact",
    "ros_round_trip",
    "ros_sequence",
    "ros_write_safe",
    "ros_long_string_refuted"
   ],
   "note": "Proved for all values whose encoding is shorter than 2^32 bytes. REFUTED beyond: the length field of a string of 2^32 bytes or more wraps and the writer runs out of its buffer (ros_long_string_refuted)."
  },
  {
   "property": "C36",
   "status": "partial",
   "theorems": [
    "ros_read_safe",
    "ros_overrun_sticky",
    "ros_read_32bit_refuted",
    "ros_vector_phantom_refuted"
   ],
   "note": "Proved for address spaces with room for a 32-bit offset beyond the buffer (every 64-bit platform). REFUTED for 32-bit pointers, which wrap, and for the wrapping length product: four bytes can announce 2^29 doubles whose checked size is zero (ros_vector_phantom_refuted)."
  },
  {
   "property": "C37",
   "status": "partial",
   "theorems": [
    "msgpack_vector_round_trip",
    "msgpack_dynamic_vector_round_trip",
    "msgpack_dynamic_vector_refuted",
    "msgpack_quaternion_round_trip",
    "msgpack_pose_round_trip",
    "msgpack_measurement_round_trip",
    "msgpack_pose_measurement_round_trip",
    "msgpack_empty_measurement",
    "msgpack_stream_order",
    "msgpack_exhausted_keeps_old",
    "msgpack_zone_vector_refuted",
    "msgpack_error_vector_round_trip",
    "msgpack_error_pose_round_trip"
   ],
   "note": "Proved for fixed vectors, rotations, poses, uncertain values and measurements with a payload, and for dynamic vectors read into a vector of the right length. REFUTED for dynamic vectors read into a shorter vector, for the zone overload of vectors and for the time of an empty measurement."
  },
  {
   "property": "C38",
   "status": "partial",
   "theorems": [
    "msgpack_matrix_round_trip_iff",
    "msgpack_tall_matrix_refuted",
    "msgpack_empty_matrix_refused"
   ],
   "note": "REFUTED as stated: the stride is the number of rows, so a matrix survives iff it is square or has one row."
  },
  {
   "property": "C39",
   "status": "partial",
   "theorems": [
    "archive_camera_round_trip",
    "archive_camera_constructors",
    "archive_camera3_refuted",
    "archive_camera_hostile_count_refuted",
    "camera_general_size_refuted",
    "msgpack_camera_round_trip"
   ],
   "note": "Proved for all constructors that record the right count. REFUTED for the constructor with three radial coefficients: the third is lost."
  },
  {
   "property": "C40",
   "status": "partial",
   "theorems": [
    "serial_one_session",
    "serial_refused_unless_open",
    "serial_double_close_refuted",
    "serial_reopen_refuted",
    "serial_failed_open_leaks_refuted",
    "serial_flush_unchecked_refuted",
    "serial_flush_after_failed_open_refuted"
   ],
   "note": "Proved for objects closed only by their destructor whose opens do not fail half-way. REFUTED otherwise: close() does not clear m_portOpen, so the destructor closes the descriptor again and the port cannot be reopened; a failing configuration leaks the descriptor."
  },
  {
   "property": "C41",
   "status": "partial",
   "theorems": [
    "state_layout_partition",
    "noise_setters_exact",
    "update_offsets",
    "noise_setter_order_refuted"
   ],
   "note": "Proved for all orders; REFUTED for a setter called with an order the model lacks (nothing checks it): it overwrites the noise of another quantity."
  },
  {
   "property": "C42",
   "status": "partial",
   "theorems": [
    "time_update_exact",
    "time_update_exact_rotation",
    "advance_compose",
    "time_update_composes",
    "time_update_jacobian_linear",
    "time_update_in_place",
    "rotation_update_composes",
    "rotation_update_tiny_refuted",
    "rotation_update_order2_refuted"
   ],
   "note": "Proved for positions and angular derivatives of every order and for the quaternion with constant velocity above the cut-off. REFUTED below the 1e-12 cut-off (tiny steps do not rotate) and for angular accelerations (order 2)."
  },
  {
   "property": "C43",
   "status": "partial",
   "theorems": [
    "update_interval_exact",
    "prediction_interval_iff",
    "prediction_earlier_refuted"
   ],
   "note": "REFUTED as stated: the prediction subtracts unsigned timestamps, so an earlier time is taken 2^64 ns into the future; correct iff t >= last measurement. The time update is proved right on both sides."
  },
  {
   "property": "C44",
   "status": "partial",
   "theorems": [
    "quaternion_update_velocity_jacobian_iff",
    "quaternion_update_velocity_jacobian_corrected",
    "quaternion_update_rotation_jacobian_iff",
    "exp_step_integrate"
   ],
   "note": "REFUTED as stated: the velocity block has a factor dt too many, so it is the derivative iff dt is 0 or 1; the quaternion block (identity) is right iff nothing rotates. The corrected block is proved."
  },
  {
   "property": "C45",
   "status": "proved",
   "theorems": [
    "gl_maps_rectangle",
    "gl_maps_depth",
    "depth_is_distance",
    "gl_defined",
    "gl33_is_camera"
   ],
   "note": "Proved without the unit-length hypothesis: the depth is the distance to the principal plane for every viewing row."
  },
  {
   "property": "C46",
   "status": "proved",
   "theorems": [
    "decompose_factors",
    "decompose_defined"
   ],
   "note": "For every RQ routine meeting its contract (triangle times orthogonal matrix is the left block)."
  },
  {
   "property": "C47",
   "status": "proved",
   "theorems": [
    "pose_dual_quaternion_round_trip",
    "dual_quaternion_pose_round_trip",
    "dual_part_orthogonal",
    "dual_quaternion_of_product",
    "pose_vectors_agree"
   ],
   "note": "Both round trips, orthogonality for every pose, and composition of poses as product of dual quaternions."
  },
  {
   "property": "C48",
   "status": "proved",
   "theorems": [
    "scale_recovers",
    "scale_is_ratio",
    "scale_undefined"
   ],
   "note": "Also: in general the scale is the ratio of the root-mean-square radii, and coinciding points give 0/0."
  },
  {
   "property": "C49",
   "status": "proved",
   "theorems": [
    "horn_objective",
    "qsand_scaled_rotation",
    "rotation_cost_quadratic",
    "form_maximal_iff_rotation_optimal",
    "rotation_optimal"
   ],
   "note": ""
  },
  {
   "property": "C50",
   "status": "proved",
   "theorems": [
    "homography_system_iff",
    "hmaps_iff_projected",
    "projection_system_iff",
    "pmaps_iff_projected",
    "fm_system_iff",
    "tip_system_iff",
    "tip_residual"
   ],
   "note": "The normalisation scales must be nonzero, which the callers divide by; the rank of the data is not assumed."
  },
  {
   "property": "C51",
   "status": "proved",
   "theorems": [
    "relative_poses_count",
    "relative_neighbours_exact",
    "relative_neighbours_chain",
    "relative_poses_lexicographic",
    "pairs_complete",
    "pairs_sorted",
    "generate_relative_correct",
    "motion_equation",
    "hand_eye_motions",
    "incremental_update",
    "incremental_updates",
    "incremental_motions"
   ],
   "note": "Count, order and the hand-eye equation in both directions; also the list kept between calls by HandEyeCalibration equals the one built at once."
  },
  {
   "property": "C52",
   "status": "partial",
   "theorems": [
    "tukey_weight_antitone_partial",
    "tukey_perfect_suppressed_refuted",
    "tukey_weight_unbounded",
    "compute_weights_blocks",
    "compute_weights_overrun",
    "compute_weights_zero_rows"
   ],
   "note": "REFUTED as stated: a measurement without error gets weight 0 while all others get a positive one. Monotone for non-zero errors."
  },
  {
   "property": "C53",
   "status": "partial",
   "theorems": [
    "cast_matrix_to_quaternion_partial",
    "cast_half_turn",
    "cast_matrix_to_quaternion_refuted",
    "cast_quaternion_to_matrix"
   ],
   "note": "REFUTED as stated: for half turns all signs of the axis are lost (cast_half_turn), so half turns about an axis with components of both signs come out wrong (cast_matrix_to_quaternion_refuted). Proved for all other rotation matrices."
  },
  {
   "property": "C54",
   "status": "proved",
   "theorems": [
    "quadric_line_conic_exact",
    "project_quadric_exact",
    "project_ellipsoid_agrees",
    "line_conic_backprojection",
    "ellipsoid_quadric_dual",
    "project_ellipsoid_silhouette",
    "point_conic_contact",
    "spheroid_on_ground"
   ],
   "note": ""
  },
  {
   "property": "C55",
   "status": "partial",
   "theorems": [
    "integration_unit",
    "integration_axis_angle",
    "integration_rodrigues",
    "velocity_between_exact",
    "integration_functor_correct_iff",
    "integration_functor_refuted",
    "integration_functor_jacobian_rows",
    "integration_functor_jacobian_iff"
   ],
   "note": "Integration proved (above the cut-off of 1e-12 rad). REFUTED for the functor: its threshold is 1e12 instead of 1e-12, so it returns a non-unit quaternion for every non-zero rotation up to 1e12 rad."
  },
  {
   "property": "C56",
   "status": "proved",
   "theorems": [
    "euler_constructor",
    "euler_constructor_accessor"
   ],
   "note": "All angles. Also: the XZY accessor inverts the constructor."
  },
  {
   "property": "C57",
   "status": "proved",
   "theorems": [
    "product_left_jacobian",
    "product_right_jacobian",
    "point_jacobian",
    "perturb_error",
    "jacobian_unique",
    "product_associative",
    "product_exact_operand",
    "product_neutral",
    "product_valid",
    "interpolation_valid"
   ],
   "note": "Derivatives in the sense of Coquelicot is_derive along every direction."
  },
  {
   "property": "C58",
   "status": "partial",
   "theorems": [
    "additive_covariance_refuted",
    "additive_error_map",
    "conversion_jacobians"
   ],
   "note": "REFUTED: toAdditiveErrorVector uses the Jacobian of the opposite conversion."
  },
  {
   "property": "C59",
   "status": "partial",
   "theorems": [
    "invert_multiply_refuted",
    "invert_multiply_valid"
   ],
   "note": "REFUTED: the Jacobians of a*b are used for ~a*b. The covariance stays symmetric positive semidefinite."
  },
  {
   "property": "C60",
   "status": "partial",
   "theorems": [
    "cast_axis_angle_consistent",
    "cast_rotation_vector_consistent",
    "cast_rotation_vector_is_exponential",
    "cast_axis_angle_roundtrip_partial",
    "cast_identity_refuted",
    "cast_rotation_vector_roundtrip",
    "cast_matrix_axis_angle_partial",
    "cast_matrix_axis_angle_half_turn_refuted"
   ],
   "note": "REFUTED as stated: quaternion to axis-angle divides by zero for the identity and matrix to axis-angle divides by zero for half turns. Proved for all other rotations (rotation vectors at or above the 1e-10 threshold)."
  },
  {
   "property": "C61",
   "status": "partial",
   "theorems": [
    "euler_sequence_partial",
    "euler_south_pole_refuted",
    "euler_accessor_partial",
    "euler_accessors_agree",
    "euler_near_lock_refuted"
   ],
   "note": "REFUTED as stated: at the south pole the first angle has the wrong sign in every sequence (euler_south_pole_refuted); close to gimbal lock one angle is dropped (euler_near_lock_refuted). Proved away from the poles, at the north pole and in gimbal lock proper."
  },
  {
   "property": "C62",
   "status": "partial",
   "theorems": [
    "lm_step_decreases_linearisation",
    "lm_affine_decreases",
    "lm_weighted_system",
    "lm_stop_rule",
    "lm_perfect_fit_diverges"
   ],
   "note": "The decrease claims are proved. The last sentence is REFUTED: at zero residual the relative precision test never holds, so without an iteration limit the call does not return (lm_perfect_fit_diverges)."
  },
  {
   "property": "C63",
   "status": "proved",
   "theorems": [
    "gauss_newton_affine",
    "gauss_newton_failure"
   ],
   "note": "Solver behaviour is a hypothesis about the normal equations only."
  },
  {
   "property": "C64",
   "status": "partial",
   "theorems": [
    "tukey_outlier_unbounded_refuted"
   ],
   "note": "REFUTED: the weight is 1/sqrt(rho) instead of rho/error, so the contribution grows without bound."
  },
  {
   "property": "C65",
   "status": "partial",
   "theorems": [
    "rothec_measurement_jacobian",
    "rothec_combine_jacobian_a",
    "rothec_combine_jacobian_b_iff",
    "rothec_combine_jacobian_b_refuted"
   ],
   "note": "REFUTED for the matrix with respect to b: jacobian2 = -jacobian1 is right only if x has no vector part. The other two are proved."
  },
  {
   "property": "C66",
   "status": "partial",
   "theorems": [
    "pose_normalize_unit",
    "pose_normalize_projection",
    "pose_normalize_projection_refuted"
   ],
   "note": "Proved for the homogeneous rotation matrix. REFUTED for the matrix form 1-2(y^2+z^2) used by the projection functions."
  },
  {
   "property": "C67",
   "status": "proved",
   "theorems": [
    "pseudo_invert_penrose",
    "penrose_unique",
    "pseudo_invert_least_squares"
   ],
   "note": "The LAPACK decomposition is a hypothesis (svd)."
  },
  {
   "property": "C68",
   "status": "proved",
   "theorems": [
    "lh_to_rh_conjugation",
    "lh_to_rh_involutive",
    "lh_to_rh_multiplicative",
    "lh_to_rh_points",
    "lh_to_rh_rotation"
   ],
   "note": ""
  },
  {
   "property": "C69",
   "status": "partial",
   "theorems": [
    "semi_axes_exact",
    "semi_axes_defined",
    "semi_axes_order",
    "semi_axes_circle_refuted",
    "conic_area_exact"
   ],
   "note": "Proved for real ellipses other than circles. REFUTED for circles (0/0 in the angle) and for the order of the axes when a = c or the equation is negated (semi_axes_order)."
  },
  {
   "property": "C70",
   "status": "proved",
   "theorems": [
    "upper_lower_exact",
    "left_right_exact",
    "limits_defined",
    "horizontal_intersection_exact"
   ],
   "note": ""
  },
  {
   "property": "C71",
   "status": "partial",
   "theorems": [
    "classification_exclusive",
    "classification_invariant",
    "circle_exact",
    "tolerance_scale_refuted"
   ],
   "note": "REFUTED for the tests with a tolerance (parabola, degenerate): they depend on the scale of the equation."
  },
  {
   "property": "C72",
   "status": "partial",
   "theorems": [
    "cov_weight_exact",
    "design_exact",
    "conic_inv_cov_valid",
    "conic_inv_cov_exact",
    "design_convention_refuted"
   ],
   "note": "REFUTED for the convention: the formulas assume a x^2 + 2bxy + ..., all other functions a x^2 + bxy + ...."
  },
  {
   "property": "C73",
   "status": "proved",
   "theorems": [
    "kalman_information",
    "kalman_information_state",
    "kalman_order_independent"
   ],
   "note": ""
  },
  {
   "property": "C74",
   "status": "proved",
   "theorems": [
    "error_pose_average_exact"
   ],
   "note": ""
  },
  {
   "property": "C75",
   "status": "partial",
   "theorems": [
    "round_cost",
    "kmeans_cost",
    "kmeans_nan_kept",
    "kmeans_empty_cluster_refuted",
    "seeds_apart",
    "seeds_repeated_refuted"
   ],
   "note": "Monotonicity proved for runs with finite means. REFUTED for finiteness: an empty cluster becomes NaN and stays so. Distinct seeds proved for positive random numbers, refuted for zero."
  },
  {
   "property": "C76",
   "status": "partial",
   "theorems": [
    "gaussian_weighted_exact",
    "gaussian_weighted_second_moment",
    "gaussian_mean_optimal",
    "gaussian_plain_exact",
    "gaussian_index_exact",
    "gaussian_index_empty_refuted"
   ],
   "note": "Moments proved. REFUTED for the failure report of the per-label estimator: a label that does not occur gives NaN and success."
  },
  {
   "property": "C77",
   "status": "proved",
   "theorems": [
    "mahalanobis_exact",
    "mahalanobis_affine"
   ],
   "note": "Determinant and inverse (LAPACK) are hypotheses."
  },
  {
   "property": "C78",
   "status": "partial",
   "theorems": [
    "probability_shape",
    "probability_degenerate",
    "probability_proportional",
    "probability_density_refuted"
   ],
   "note": "Proportional to the density with a factor that depends on the dimension only. REFUTED for the normalisation (exponent N/2 under the square root)."
  },
  {
   "property": "C79",
   "status": "partial",
   "theorems": [
    "em_weights_sum",
    "em_components_valid",
    "em_monotone",
    "em_loop_monotone",
    "em_call_monotone",
    "em_stops",
    "em_weights_wiped_refuted",
    "em_collapse_refuted"
   ],
   "note": "Weights, components and monotonicity of the likelihood (one round and the whole loop) proved for data of every dimension and any number of components, as long as no component shrinks below the determinant threshold. REFUTED as stated: data points that no component covers wipe out all weights; a component that shrinks to a point makes the likelihood drop to minus infinity."
  },
  {
   "property": "C80",
   "status": "partial",
   "theorems": [
    "archive_vector_round_trip",
    "archive_matrix_round_trip",
    "archive_pose_round_trip",
    "archive_error_pose_round_trip",
    "archive_error_vector_round_trip",
    "archive_measurement_round_trip",
    "archive_measurement_refuted"
   ],
   "note": "Proved, except REFUTED for an empty measurement, which is dereferenced."
  },
  {
   "property": "C81",
   "status": "partial",
   "theorems": [
    "inside_out_exact",
    "inside_out_velocity_exact",
    "inside_out_axis_refuted"
   ],
   "note": "REFUTED as stated: the non-unit quaternion of the functor (C55) pushes the position outwards in every step. Exact when the functor is."
  },
  {
   "property": "C82",
   "status": "proved",
   "theorems": [
    "inverse_velocity_exact",
    "invert_velocity_value",
    "invert_velocity_jacobian"
   ],
   "note": ""
  },
  {
   "property": "C83",
   "status": "proved",
   "theorems": [
    "filter_step_invariant",
    "filter_invariant",
    "rotation_measurement_never_degenerate",
    "rotation_filter_never_degenerate"
   ],
   "note": "For every LAPACK meeting its contract, non-negative process noise and positive definite measurement covariances. Velocity measurements may normalise a zero vector (outcome None); the invariant is about runs that do not."
  },
  {
   "property": "C84",
   "status": "proved",
   "theorems": [
    "first_pose_adopted",
    "prediction_is_time_update"
   ],
   "note": "For the inside-out mode prediction at exactly the last time is excluded (hypothesis of the theorem): predictPose applies a zero-length update there."
  },
  {
   "property": "C85",
   "status": "partial",
   "theorems": [
    "rotation_sign_irrelevant",
    "pose_sign_measurement",
    "pose_sign_refuted"
   ],
   "note": "Proved for orientations. REFUTED for poses: only the value is negated, not the cross covariance with the position; proved to matter iff position and orientation errors are correlated."
  },
  {
   "property": "C86",
   "status": "partial",
   "theorems": [
    "rkf_step_invariant",
    "rkf_invariant",
    "rkf_rotation_never_degenerate",
    "rkf_predict_total",
    "rkf_first_rotation_adopted",
    "rkf_velocity_first_refuted"
   ],
   "note": "Proved, except REFUTED for the first orientation after a velocity: a velocity that arrives first starts the clock, so the first orientation is blended with the initial guess."
  },
  {
   "property": "C87",
   "status": "partial",
   "theorems": [
    "decompose_reproduces_camera",
    "decompose_recovers_camera",
    "decompose_translation",
    "decompose_proportional_iff",
    "decompose_scale_refuted"
   ],
   "note": "REFUTED as stated: calibration and rotation are recovered for every scale, but the translation comes out multiplied by the length of the viewing row (K is rescaled, the last column is not); the product is the camera iff that length is 1 or the last column is zero."
  },
  {
   "property": "C88",
   "status": "proved",
   "theorems": [
    "off_axis_maps_screen",
    "off_axis_defined",
    "correct_origin_flips",
    "correct_origin_involution",
    "correct_origin_keeps_shape"
   ],
   "note": ""
  },
  {
   "property": "C89",
   "status": "partial",
   "theorems": [
    "rotation_vector_pose_round_trip",
    "rotation_vector_identity_refuted"
   ],
   "note": "REFUTED as stated: rotation_vector_identity_refuted (a pose without rotation gives 0/0). Proved for every rotation of at least 1e-10."
  },
  {
   "property": "C90",
   "status": "partial",
   "theorems": [
    "hemisphere_alignment_short",
    "hemisphere_alignment_length",
    "hemisphere_alignment_inverts",
    "hemisphere_alignment_refuted"
   ],
   "note": "REFUTED as stated: hemisphere_alignment_refuted; a turn of more than half a turn comes out as its inverse (hemisphere_alignment_inverts). Proved unchanged up to half a turn, and the length bound."
  },
  {
   "property": "C91",
   "status": "proved",
   "theorems": [
    "dual_quaternion_sound",
    "dual_quaternion_accuracy",
    "single_axis_rejected"
   ],
   "note": "gesvd is an oracle with the contract svd8_contract (U, s, Vt orthonormal, sorted). The input quaternions must agree in sign (see C93)."
  },
  {
   "property": "C92",
   "status": "partial",
   "theorems": [
    "dual_quaternion_complete",
    "dual_quaternion_complete_refuted"
   ],
   "note": "REFUTED as stated: dual_quaternion_complete_refuted (kernel basis with orthogonal real and dual part, natural when X has no translation, gives 0/0 and failure). dual_quaternion_complete says exactly when it succeeds."
  },
  {
   "property": "C93",
   "status": "partial",
   "theorems": [
    "quaternion_sign_refuted"
   ],
   "note": "REFUTED as stated: with one hand quaternion negated the true pose is returned for no decomposition, and for one a half turn about y is returned as success."
  },
  {
   "property": "C94",
   "status": "partial",
   "theorems": [
    "selection_matched",
    "selection_empty_refuted"
   ],
   "note": "Proved for clusters with members. REFUTED as stated (selection_empty_refuted): a cluster without members yields uninitialised poses."
  },
  {
   "property": "C95",
   "status": "partial",
   "theorems": [
    "reset_indices_first",
    "reset_indices_refuted"
   ],
   "note": "REFUTED as stated: the pose iterator is never advanced, so the first member of the cluster is stored whatever the distances (reset_indices_first)."
  },
  {
   "property": "C96",
   "status": "partial",
   "theorems": [
    "residual_zero_iff",
    "residual_underestimates",
    "residual_rms_refuted"
   ],
   "note": "REFUTED as stated: residual_rms_refuted; the result is a third of the mean distance, at most a third of the documented value (residual_underestimates). Proved: zero exactly for a perfect pose."
  },
  {
   "property": "C97",
   "status": "partial",
   "theorems": [
    "pose_optimal",
    "pose_exact",
    "absolute_orientation_exact",
    "rotation_fails_iff",
    "absolute_orientation_failure_refuted"
   ],
   "note": "Optimality and exactness proved for every eigenvalue routine meeting syev4_contract. REFUTED for the documented throw: the identity pose is returned (absolute_orientation_failure_refuted)."
  },
  {
   "property": "C98",
   "status": "partial",
   "theorems": [
    "opt_jacobian_xy_partial",
    "opt_jacobian_refuted"
   ],
   "note": "REFUTED as stated: the z row holds derivatives of the wrong diagonal entry (opt_jacobian_refuted). Proved for the x and y rows."
  },
  {
   "property": "C99",
   "status": "proved",
   "theorems": [
    "homography_dlt_exact",
    "homography_dlt_sound",
    "homography_dlt_optimal",
    "homography_unique",
    "full_svd_sufficient"
   ],
   "note": "gesvd is an oracle whose last right singular vector minimises the energy; full_svd_sufficient derives this from the usual contract."
  }
 ]
}