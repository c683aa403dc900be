{
 "claims": [
  {
   "property": "C03",
   "status": "proved",
   "theorems": [
    "c03_typed_equals_untyped",
    "c03_not_unique_differs"
   ],
   "note": "second theorem shows the uniqueness hypothesis is needed"
  },
  {
   "property": "C04",
   "status": "proved",
   "theorems": [
    "c04_reverse_equals_forward",
    "c04_reverse_accepted_iff"
   ],
   "note": ""
  },
  {
   "property": "C05",
   "status": "proved",
   "theorems": [
    "c05_dynamic_equals_static",
    "c05_dynamic_absent_zero",
    "c05_address_clash_differs"
   ],
   "note": "hypothesis: the target's address is not shared by another object (needed: c05_address_clash_differs)"
  },
  {
   "property": "C06",
   "status": "proved",
   "theorems": [
    "c06_dynamic_reverse"
   ],
   "note": ""
  },
  {
   "property": "C07",
   "status": "partial",
   "theorems": [
    "c07_dynamic_nary_stacks",
    "c07_static_nary_stacks_partial",
    "c07_static_nary_stacks_refuted",
    "c07_static_nary_rejected",
    "c07_dynamic_compound_derivative",
    "c07_selected_elements",
    "c07_selects_children"
   ],
   "note": "dynamic mode proved, including that the stacked matrix is the derivative of the compound value; static forward mode refuted (JacobianEvaluator.hpp 291-302 uses the index among the kept children as row index)"
  },
  {
   "property": "C11",
   "status": "proved",
   "theorems": [
    "c11_sound_minimal",
    "c11_complete",
    "c11_unary"
   ],
   "note": ""
  },
  {
   "property": "C31",
   "status": "proved",
   "theorems": [
    "c31_block_shape",
    "c31_write_read",
    "c31_cover",
    "c31_bands"
   ],
   "note": ""
  },
  {
   "property": "C33",
   "status": "proved",
   "theorems": [
    "c33_matrixmap",
    "c33_count",
    "c33_missing_key"
   ],
   "note": ""
  },
  {
   "property": "C34",
   "status": "proved",
   "theorems": [
    "c34_unique_leaves_exact",
    "c34_unique_leaves_list",
    "c34_union_of_lists",
    "c34_rejected_list"
   ],
   "note": ""
  },
  {
   "property": "C02",
   "status": "proved",
   "theorems": [
    "c02_value_is_denoted_function",
    "c02_methods_agree"
   ],
   "note": ""
  },
  {
   "property": "C10",
   "status": "proved",
   "theorems": [
    "c10_parametrization_independent",
    "c10_never_stuck"
   ],
   "note": ""
  },
  {
   "property": "C13",
   "status": "proved",
   "theorems": [
    "c13_results_valid",
    "c13_prepared_valid"
   ],
   "note": ""
  },
  {
   "property": "C14",
   "status": "proved",
   "theorems": [
    "c14_associative",
    "c14_identity_neutral",
    "c14_inverse",
    "c14_inverse_of_product",
    "c14_inverse_involutive"
   ],
   "note": ""
  },
  {
   "property": "C15",
   "status": "proved",
   "theorems": [
    "c15_action_compatible",
    "c15_inverse_undoes",
    "c15_rotation_isometry",
    "c15_rotation_preserves_cross",
    "c15_transform_preserves_distance"
   ],
   "note": ""
  },
  {
   "property": "C16",
   "status": "proved",
   "theorems": [
    "c16_unary",
    "c16_binary"
   ],
   "note": ""
  },
  {
   "property": "C19",
   "status": "proved",
   "theorems": [
    "c19_boxplus_of_boxminus_rotation",
    "c19_boxminus_of_boxplus_rotation",
    "c19_boxplus_of_boxminus_transform",
    "c19_boxminus_of_boxplus_transform"
   ],
   "note": "away from the small-angle branches and from angle pi, as the property says"
  },
  {
   "property": "C41",
   "status": "proved",
   "theorems": [
    "c41_symbolic_leaves"
   ],
   "note": ""
  },
  {
   "property": "C42",
   "status": "proved",
   "theorems": [
    "c42_add_sub_cancel",
    "c42_negation",
    "c42_addition_abelian",
    "c42_scaling",
    "c42_norms",
    "c42_affine"
   ],
   "note": ""
  },
  {
   "property": "C45",
   "status": "proved",
   "theorems": [
    "c45_evaluateTo_same_value",
    "c45_other_kind_rejected",
    "c45_conversion_same_jacobian"
   ],
   "note": ""
  },
  {
   "property": "C01",
   "status": "proved",
   "theorems": [
    "c01_jacobian_is_derivative",
    "c01_derivative_unique",
    "c01_other_modes_same_matrix",
    "c01_reverse_is_derivative",
    "c01_computed_value_moves",
    "c01_jacobian_is_chain_rule"
   ],
   "note": "side conditions in SpecDeriv.smooth; targets are ordinary (not symbolic Identity/Zero) leaves; nodes: scalar, vector, rotation, rigid transform operators (compounds: C07)"
  },
  {
   "property": "C12",
   "status": "proved",
   "theorems": [
    "c12_conversion_preserves",
    "c12_expression_conversion",
    "c12_matrix_quaternion_matrix",
    "c12_quaternion_matrix_quaternion"
   ],
   "note": "All pairs of parametrizations of rotations and rigid transforms; quaternion round trip up to sign."
  },
  {
   "property": "C17",
   "status": "proved",
   "theorems": [
    "c17_exp_is_rotation_by_norm",
    "c17_exp_is_flow",
    "c17_log_of_exp",
    "c17_exp_of_log",
    "c17_log_small_angle",
    "c17_small_log_of_exp"
   ],
   "note": "exp is also shown to be the time-1 value of the unique constant-velocity motion."
  },
  {
   "property": "C18",
   "status": "partial",
   "theorems": [
    "c18_small_angle_close_partial",
    "c18_unit_norm_refuted",
    "c18_error_refuted"
   ],
   "note": "The claim is false of the code: the quaternion is never unit for non-zero vectors, and the sign of the second Taylor coefficient is wrong, so the error is cubic. Proved: the error bounds that do hold."
  },
  {
   "property": "C20",
   "status": "partial",
   "theorems": [
    "c20_exp_is_flow",
    "c20_log_of_exp",
    "c20_exp_of_log",
    "c20_small_angle_partial",
    "c20_small_angle_refuted",
    "c20_small_exp_invalid_refuted",
    "c20_small_exp_of_log_refuted",
    "c20_small_exp_close_partial",
    "c20_small_log_close_partial"
   ],
   "note": "Proved above the small-angle threshold and at zero rotation. Below the threshold the claim is false of the code (refuted with witnesses; exact formula given)."
  },
  {
   "property": "C21",
   "status": "proved",
   "theorems": [
    "c21_rotation_jacobians_inverse",
    "c21_rigid_jacobians_inverse",
    "c21_local_rotation",
    "c21_local_rigid"
   ],
   "note": "API level below pi; local formulas below 2 pi."
  },
  {
   "property": "C22",
   "status": "partial",
   "theorems": [
    "c22_exp_rotation_at_zero",
    "c22_log_at_identity_refuted",
    "c22_log_rigid_refuted",
    "c22_exp_rigid_refuted",
    "c22_exp_jacobian_small_angle"
   ],
   "note": "Holds for exp of a relative rotation. For the other three the derivative exists but the library's matrix is 0/0 (refuted)."
  },
  {
   "property": "C23",
   "status": "partial",
   "theorems": [
    "c23_frames_sound_partial",
    "c23_transform_refuted",
    "c23_scale_refuted",
    "c23_exp_refuted",
    "c23_box_refuted",
    "c23_sum_rotations_refuted"
   ],
   "note": "Sound for expressions in the fragment SpecFrames.frame_strict; for each excluded operation the claim is false of the code (refuted). frame_cast is a deliberate override."
  },
  {
   "property": "C24",
   "status": "proved",
   "theorems": [
    "c24_compose_exact",
    "c24_rotate_exact",
    "c24_transform_exact",
    "c24_sum_exact",
    "c24_difference_exact",
    "c24_required_frames",
    "c24_rejected_anywhere",
    "c24_variable_frames",
    "c24_unframed_never_rejected"
   ],
   "note": "Acceptance is characterised semantically: accepted iff the result is the announced quantity for every placement of the frames."
  },
  {
   "property": "C25",
   "status": "proved",
   "theorems": [
    "c25_value_independent_of_frames",
    "c25_frame_cast_only_annotation",
    "c25_construct_independent_of_frames",
    "c25_jacobian_independent_of_frames",
    "c25_reverse_independent_of_frames"
   ],
   "note": "Jacobians: at points where C01 applies; each object has one framed type."
  },
  {
   "property": "C35",
   "status": "proved",
   "theorems": [
    "c35_dense",
    "c35_operations",
    "c35_uncross"
   ],
   "note": "Operand lifetime of the returned Eigen expressions is not modelled."
  },
  {
   "property": "C36",
   "status": "proved",
   "theorems": [
    "c36_products",
    "c36_neutral",
    "c36_chains"
   ],
   "note": "Products of the symbolic factors the evaluators multiply; returned references are not modelled."
  },
  {
   "property": "C37",
   "status": "proved",
   "theorems": [
    "c37_random_valid",
    "c37_random_surjective"
   ],
   "note": "For draws in [0,1] over the reals."
  },
  {
   "property": "C43",
   "status": "partial",
   "theorems": [
    "c43_equal_accepted",
    "c43_close_rotations_accepted",
    "c43_accepted_rotations_close",
    "c43_rotations_symmetric",
    "c43_transforms_accepted_iff",
    "c43_transforms_symmetric_partial",
    "c43_transforms_symmetric_refuted",
    "c43_vectors_iff",
    "c43_vectors_equal_symmetric",
    "c43_isZero_iff"
   ],
   "note": "Symmetry for rigid transforms holds outside the small-angle range and is false of the code inside it (refuted for every threshold)."
  },
  {
   "property": "C32",
   "status": "proved",
   "theorems": [
    "c32_plus_elementwise",
    "c32_minus_elementwise",
    "c32_length_mismatch_rejected",
    "c32_plus_of_minus",
    "c32_minus_of_plus",
    "c32_minus_self",
    "c32_plus_zero",
    "c32_value_as_vector",
    "c32_isApprox_elementwise"
   ],
   "note": "Elements are leaves (no nested compounds). Rotation elements: outside the small-angle approximations, as in C19."
  },
  {
   "property": "C38",
   "status": "proved",
   "theorems": [
    "c38_full_whitens",
    "c38_full_unique",
    "c38_diagonal_whitens",
    "c38_stddev_list",
    "c38_constructions_agree",
    "c38_full_undefined",
    "c38_invertible"
   ],
   "note": "Eigen's symmetric eigensolver enters as a function assumed to return some eigendecomposition; the result does not depend on which. One-dimensional noise is the case n = 1."
  },
  {
   "property": "C39",
   "status": "proved",
   "theorems": [
    "c39_residual",
    "c39_same_residual_with_jacobians",
    "c39_zero_iff"
   ],
   "note": "Vector and compound predictions."
  },
  {
   "property": "C40",
   "status": "partial",
   "theorems": [
    "c40_jacobians_partial",
    "c40_unit_noise",
    "c40_whitened_refuted"
   ],
   "note": "False of the code: the residual is multiplied by inverseSqrtCov, the Jacobians are not (refuted with a witness). Proved: the matrices are the derivatives of the prediction, and correct for unit noise; compounds only where C07 holds."
  },
  {
   "property": "C44",
   "status": "proved",
   "theorems": [
    "c44_reads_part",
    "c44_transform_parts",
    "c44_assigns_part",
    "c44_wrong_kind_rejected",
    "c44_read_after_write",
    "c44_assigns_leaf",
    "c44_constructs_leaf",
    "c44_constructs_transform",
    "c44_invert_in_place",
    "c44_programs"
   ],
   "note": "Reading and assigning the rotation and translation of transforms and twists, assigning and constructing leaves from expressions; right-hand sides are evaluated in the old memory, so aliasing is covered. CompactRigidTransform has no assignment from an expression (c44_assigns_leaf excludes it; constructing one is covered). c44_programs: any sequence of constructions, assignments and part assignments leaves every variable with its declared type and the mathematically computed value."
  },
  {
   "property": "C27",
   "status": "proved",
   "theorems": [
    "c27_assigned_leaf_is_seen",
    "c27_others_do_not_matter"
   ],
   "note": "Expression objects in memory, including references to named expressions, Dynamic and proxies."
  },
  {
   "property": "C28",
   "status": "proved",
   "theorems": [
    "c28_eval_is_current",
    "c28_any_history",
    "c28_queries_leave_no_trace"
   ],
   "note": "For any cache contents and any history of assignments, rebindings, evaluations and differentiations."
  },
  {
   "property": "C29",
   "status": "partial",
   "theorems": [
    "c29_forward",
    "c29_reverse",
    "c29_forward_is_derivative",
    "c29_reverse_is_derivative",
    "c29_static_is_derivative",
    "c29_static_chain_compiles",
    "c29_static_binary_refuted"
   ],
   "note": "Value: C28. Dynamic forward and reverse modes: proved in full. Static jacobian(): correct whenever it compiles, but it does not compile for a binary operation with a proxy operand (refuted)."
  },
  {
   "property": "C26",
   "status": "proved",
   "theorems": [
    "c26_no_dangling",
    "c26_stays_evaluable",
    "c26_always_builds",
    "c26_programs",
    "c26_const_temporary_refuted",
    "c26_ref_of_temporary_refuted"
   ],
   "note": "For all program texts mixing named, moved-from and temporary operands, makeDynamic, makeProxy and ref, and all programs of declarations, assignments, rebindings and destructions. The two exceptions in the statement are refuted with witnesses."
  },
  {
   "property": "C30",
   "status": "proved",
   "theorems": [
    "c30_rebinds_only_that_proxy",
    "c30_target_outlives_proxies"
   ],
   "note": "For all memories reachable by programs. shared_ptr is modelled by its guarantee: the owned target is destroyed only when no live object holds it."
  },
  {
   "property": "C09",
   "status": "proved",
   "theorems": [
    "c09_numerical_jacobian_converges",
    "c09_compound_converges",
    "c09_through_proxies_converges",
    "c09_many_targets_converge",
    "c09_small_step_quotients",
    "c09_columns_are_difference_quotients",
    "c09_code_step_is_small_angle"
   ],
   "note": "Convergence for every expression, leaf target and point at which C01 applies (rotations and rigid transforms perturbed with the small-angle exponential included), for compounds of such expressions whose elements evaluate to stored types, and for expression objects in memory with references, Dynamics and proxies, with respect to leaves and to Dynamics (c09_through_proxies_converges). Columns are exact difference quotients outside the small-angle range of exp, and within K|d| of them inside it; the code's step sqrt(eps) always selects the small-angle formula for rotational coordinates (c09_code_step_is_small_angle). Not covered: targets that are themselves compounds, nested compounds."
  },
  {
   "property": "C46",
   "status": "proved",
   "theorems": [
    "c46_joint_motion",
    "c46_reverse_joint_motion"
   ],
   "note": "At points where C01 applies."
  },
  {
   "property": "C47",
   "status": "proved",
   "theorems": [
    "c47_early_evaluation",
    "c47_jacobian_chain_rule"
   ],
   "note": "At points where C01 applies; the intermediate variable has the sub-expression's output type."
  },
  {
   "property": "C48",
   "status": "proved",
   "theorems": [
    "c48_reads_layout",
    "c48_assigns_through_view",
    "c48_disjoint_unaffected",
    "c48_blocks_are_parts",
    "c48_shared_memory_derivative",
    "c48_copy_assign",
    "c48_overlapping_copy_refuted",
    "c48_variable_data"
   ],
   "note": "Views have unit inner stride. Copying a mapped leaf into one whose memory partly overlaps is outside the statement and does not copy the value (refuted with a witness). Lifetime of the viewed memory is not modelled."
  },
  {
   "property": "C49",
   "status": "proved",
   "theorems": [
    "c49_product_drift",
    "c49_stays_orthonormal",
    "c49_rotate",
    "c49_quaternion_drift",
    "c49_quaternion_norm",
    "c49_quaternion_rotate",
    "c49_quaternion_matrix",
    "c49_rigid_drift",
    "c49_transform",
    "c49_inverse_quaternion",
    "c49_inverse_rigid"
   ],
   "note": "IEEE doubles (Flocq), round to nearest even; any order of the three- and four-term sums, with or without fused multiply-add. Rotation matrices, quaternions and rigid transforms with matrix rotations. Rigid transforms stored with a quaternion are covered through c49_quaternion_drift and c49_quaternion_rotate, not by a chain theorem of their own."
  },
  {
   "property": "C50",
   "status": "proved",
   "theorems": [
    "c50_exp_unit",
    "c50_exp_accurate"
   ],
   "note": "IEEE doubles; sin and cos with a relative error below one ulp (a hypothesis on the C library, met by correctly rounded functions). The accuracy bound is the larger of the rounding error and the error of the small-angle formula."
  },
  {
   "property": "C51",
   "status": "partial",
   "theorems": [
    "c51_rigid_log_refuted",
    "c51_rigid_log_away_partial"
   ],
   "note": "Proved for rotations by 2^-20 or more and away from half turns: the translation part is within 4800(e + 2^-53 + 2^-53/|w|^2)|t| of the exact one, e being the relative error of the rotation part. Refuted near zero: just above the threshold of the small-angle branch the computed translation part is more than 25 percent off, for a correctly rounded input matrix, correctly rounded sin/cos/acos and every order of summation."
  },
  {
   "property": "C52",
   "status": "partial",
   "theorems": [
    "c52_log_jacobian_refuted",
    "c52_log_jacobian_away_partial"
   ],
   "note": "Proved for rotations from 2^-20 to a half turn: every entry is within 2^-42(1 + 1/|w|^2) + 2048e of the exact Jacobian when the rotation vector is within e|w|. Refuted for every non-zero rotation vector of length at most 2^-27: every computed entry is infinite or NaN although the exact Jacobian is within 2^-27 of the identity (with correctly rounded cos, for which cos of such an angle is 1)."
  },
  {
   "property": "C53",
   "status": "partial",
   "theorems": [
    "c53_exp_jacobian_refuted",
    "c53_exp_jacobian_away_partial"
   ],
   "note": "Proved for rotations from 2^-20 to a half turn: the block is within 2^-42(1 + 1/|w|^2)|u| of the exact one. Refuted for rotations about an axis by 2^-400 to 2^-27 and perpendicular translation: the computed block is exactly zero although the exact one is half the cross matrix of the translation."
  },
  {
   "property": "C54",
   "status": "proved",
   "theorems": [
    "c54_log_accurate",
    "c54_log_exp",
    "c54_log_chain",
    "c54_box_minus"
   ],
   "note": "IEEE doubles; sin, cos and acos with a relative error below one ulp, acos NaN outside [-1,1] (hypotheses on the C library, met by correctly rounded functions). The bound grows like 1/(1 + cos|v|) towards a half turn; C55 shows that it must."
  },
  {
   "property": "C55",
   "status": "partial",
   "theorems": [
    "c55_half_turn_refuted"
   ],
   "note": "Refuted: for the rotation about z by pi - 2^-30, correctly rounded, the computed logarithm has a component above ten million instead of pi."
  },
  {
   "property": "C56",
   "status": "proved",
   "theorems": [
    "c56_evaluateTo_accurate",
    "c56_eval_accurate",
    "c56_polynomial_accurate"
   ],
   "note": "IEEE doubles; libm with errors below one ulp. The bound is relative to a bound on the coordinates (size), computed from the exact leaves, that counts sums as sums of absolute values: no claim is made about cancellation. Not covered: Twist, angle-axis, Identity and Zero leaves, the logarithm of a rigid transform. Divisors and normalized vectors must not be smaller than half the bound on their size (no cancellation), arc cosines only of numbers up to 0.9."
  },
  {
   "property": "C57",
   "status": "proved",
   "theorems": [
    "c57_isSame_decides",
    "c57_same_everywhere",
    "c57_equivalence",
    "c57_copy"
   ],
   "note": "On objects built by the programs of SpecStore. A Dynamic moved into an operation counts as the expression it holds."
  },
  {
   "property": "C08",
   "status": "partial",
   "theorems": [
    "c08_absent_zero",
    "c08_jacobian_absent_zero_partial",
    "c08_jacobian_absent_zero_refuted",
    "c08_absent_rejected",
    "c08_with_assertions"
   ],
   "note": "false for jacobian() on expressions with distinct leaf types and another object of an occurring type; with assertions enabled (no NDEBUG) the program is aborted in exactly that case, and the claim holds otherwise (c08_with_assertions)"
  },
  {
   "property": "C58",
   "status": "partial",
   "theorems": [
    "c58_independent_threads",
    "c58_static_expressions",
    "c58_dependent_threads_race",
    "c58_shared_dynamic_races_refuted",
    "c58_shared_dynamic_refuted",
    "c58_assignment_is_current"
   ],
   "note": "False as stated: two threads that only evaluate the same Dynamic through proxies race, because evaluation replaces the mutable lazy_evaluator (c58_shared_dynamic_refuted: a thread reads an evaluator the other has just destroyed). Proved: safe for all threads none of which changes what another uses, where a Dynamic reached through a proxy counts as changed; in particular for any number of threads on expressions without proxies; and the condition is necessary (c58_dependent_threads_race). Threads do not rebind proxies or construct or destroy objects others use; one access to a leaf value or evaluator is one step; no weak-memory effects (they need a data race)."
  },
  {
   "property": "C59",
   "status": "proved",
   "theorems": [
    "c59_jacobian_normwise",
    "c59_polynomial_normwise",
    "c59_jacobian_accurate",
    "c59_polynomial_jacobian",
    "c59_absent_zero"
   ],
   "note": "IEEE doubles; any order, grouping and fusing of the additions in every entry of every product. Normwise bound (root of the summed squares of the errors) relative to nsize, the product along the path of how much the local Jacobians stretch vectors, 1 for rotations: no growth with depth beyond the count of roundings. Also an entrywise bound relative to jsize, which has a factor for the inner dimension at each product. Between the root and the target only inverse, minus, squaredNorm, rotation(), translation(), conversions, norm and normalized of vectors at least half as long as the bound on their length, log of rotations by 1/16 to 3 radians, exp of rotation vectors of 1/16 to 4 radians or below 2^-27, and the binary operations without division; elsewhere everything covered by C56. Forward modes only (jacobian(x), evalWithJacobians(x), dynamic forward)."
  },
  {
   "property": "C60",
   "status": "proved",
   "theorems": [
    "c60_reverse_accurate",
    "c60_dynamic_reverse_accurate",
    "c60_polynomial_reverse",
    "c60_polynomial_dynamic",
    "c60_modes_agree",
    "c60_reverse_needs_types",
    "c60_absent_zero"
   ],
   "note": "IEEE doubles; any order, grouping and fusing of the additions in every entry of every product. Errors in the Frobenius norm, relative to the product along the way of how much the local Jacobians stretch vectors (summed over the occurrences in the dynamic mode). All operations of the expression must have modelled local Jacobians: inverse, minus, squaredNorm, rotation(), translation(), conversions, norm and normalized of vectors at least half as long as the bound on their length, log of rotations by 1/16 to 3 radians, exp of rotation vectors of 1/16 to 4 radians or below 2^-27, and the binary operations without division. Simplification: an adjoint is rounded before it is added to the map."
  },
  {
   "property": "C61",
   "status": "proved",
   "theorems": [
    "c61_to_quaternion",
    "c61_matrix_round_trip",
    "c61_quaternion_round_trip"
   ],
   "note": "IEEE doubles; Shepperd's method as in Eigen's Quaternion(const Matrix3 &). Errors are root of the summed squares (matrix) and Euclidean distance (quaternion). C56 uses it for whole expressions (conversions, and products of a matrix transform with a compact one)."
  },
  {
   "property": "C62",
   "status": "partial",
   "theorems": [
    "c62_unit_partial",
    "c62_angle_partial",
    "c62_unit_refuted",
    "c62_angle_refuted"
   ],
   "note": "IEEE doubles. The full statement is false of the code: normalize(v) squares the coordinates without scaling, so v = (2^-600, 0, 0) is returned unchanged and v = (2^600, 0, 0) becomes 0; acos does not clamp, so the angle between (1, 1, 1) and itself is NaN. Proved for lengths between 2^-400 and 2^400 and, for the angle, cosines of size up to 0.9; missing there: angles within 0.45 of 0 and pi whose computed cosine stays below 1."
  }
 ]
}