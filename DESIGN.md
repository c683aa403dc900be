# Formal model of wavelab/wave_geometry

(Plan written before the proofs; kept up to date as the model grows. Section 4 records
what is proved, section 5 the findings.)

## 1. What is modelled

wave_geometry is a header-only C++ expression-template library: operators build a tree of
expression objects, `eval()` prepares the tree (inserts conversions) and walks it bottom-up,
`jacobian()` walks it again multiplying local Jacobians. The model is exact real
arithmetic (`Coq.Reals`), except for a separate layer (`ModelFloat.v`) that models selected
functions on IEEE doubles. Where a C++ operation is
undefined or yields NaN/inf (0/0, x/0, acos outside [-1,1], dangling references) the model
returns a distinct outcome (`None` / an explicit error constructor) or the theorem carries
the guard explicitly. C++ templates that fail to compile are an outcome too (`None`,
`NoCompile`).

Layers (files in rocq/theories; paths relative to include/wave/geometry/src):

| layer | model | specification | proofs, theorems | C++ modelled |
|---|---|---|---|---|
| matrices, 3-vectors, quaternions, limits (support, not code) | `Mat.v`, `V3.v`, `Calc.v` | | | Eigen dense algebra (trusted reading of Eigen semantics) |
| metaprograms, containers | `ModelMeta.v` | `SpecMeta.v` | `MetaProofs`, `PropsMeta`, `PropsLists` | util/meta/*.hpp, core/functions/AddConversions.hpp, unique-leaf traits, core/storage/BlockMatrix.hpp, util/math/MatrixMap.hpp |
| differentiation on evaluated trees | `ModelJac.v` | `SpecJac.v` | `JacProofs`, `NaryProofs`, `PropsJac` | core/functions/{Jacobian,TypedJacobian,DynamicJacobian,ReverseJacobian,DynamicReverseJacobian}Evaluator.hpp, IsSame(Type).hpp |
| leaf operations | `ModelLeaf.v` | `SpecLeaf.v` | `LeafProofs`, `PropsLie`, `PropsLieJac`, `PropsSmall` | geometry/leaf/*.hpp, geometry/base/*.hpp, geometry/op/*.hpp (evalImpl, jacobianImpl, conversions) |
| expressions, preparation, evaluation | `ModelExpr.v` | `SpecExpr.v` | `ExprProofs`, `PropsExpr`, `PropsVec` | core/functions/{PrepareExpr,PrepareOutput,Evaluator}.hpp, core/traits, base/ExpressionBase.hpp |
| derivatives | | `SpecDeriv.v`, `SpecTotal.v` | `DerivProofs`, `DerivUn`, `DerivTree`, `JacDef`, `PropsDeriv`, `TotalDeriv`, `PropsTotal` | the two rows above together |
| numerical Jacobians | `ModelNum.v`, `ModelNumDyn.v` | `SpecNum.v` | `NumProofs`, `NumLimit`, `PropsNum`, `NumLip`, `NumExp0`, `NumVal`, `NumTree`, `NumStep`, `PropsNumSmall`, `PropsNumComp`, `NumDyn`, `PropsNumDyn`, `PropsNumMany` | core/functions/NumericalJacobian.hpp, Dynamic.hpp and Proxy.hpp (displaced evaluation) |
| frames | `ModelFrames.v` | `SpecFrames.v` | `FramesProofs`, `PropsFrames` | geometry/frames/*.hpp, frame asserts and traits of geometry/op/*.hpp |
| math utilities, random values | `ModelUtil.v` | `SpecUtil.v` | `PropsUtil` | util/math/{CrossMatrix,IdentityMatrix,math}.hpp, Random() |
| fuzzy comparison | `ModelApprox.v` | (in theorems) | `PropsApprox` | isApprox, isZero |
| compounds | `ModelCompound.v` | `SpecCompound.v` | `PropsCompound` | geometry/base/CompoundBase.hpp, core/storage/NaryStorage.hpp |
| estimation | `ModelEstim.v` | `SpecEstim.v` | `NoiseProofs`, `PropsNoise`, `PropsEstim`, `PropsCompJac` | estimation/*.hpp |
| parts, assignment | `ModelMember.v` | `SpecMember.v`, `SpecProgram.v` | `PropsMember`, `PropsProgram` | core/op/MemberAccess.hpp, LeafStorage.hpp, transform constructors |
| leaves over foreign memory, raw arrays | `ModelView.v` | `SpecView.v` | `PropsView` | LeafStorage.hpp over Eigen::Map/Ref/Block and `double &`, rotationBlock/translationBlock, estimation/FactorVariable.hpp |
| identity of expressions | `ModelSame.v` | `SpecSame.v` | `PropsSame` | IsSame.hpp (isSame, containsSame), Proxy.hpp (isSame), the assertion in TypedJacobianEvaluator.hpp |
| threads | `ModelConc.v` | `SpecConc.v` | `ConcGen`, `ConcDyn`, `PropsConc` | Dynamic.hpp (constructEvaluator, lazy_evaluator), Proxy.hpp, Evaluator.hpp, LeafStorage.hpp (assignment) as sequences of accesses, interleaved |
| double precision | `ModelFloat.v`, `ModelFloatQ.v`, `ModelFloatExpr.v`, `ModelFloatJac.v`, `ModelFloatRev.v` | `SpecFlt.v`, `SpecFltQ.v`, `SpecFltLog.v`, `SpecFltExpr.v`, `SpecFltJac.v`, `SpecFltNorm.v`, `SpecFltRev.v` | `FloatProofs`, `FloatDrift`, `PropsDrift`, `FloatExp`, `PropsExpFlt`, `FloatNear`, `PropsNear`, `PropsLogFlt`, `FloatQuat`, `FloatAct`, `PropsQuatFlt`, `FloatLog`, `FloatLog2`, `PropsLogAcc`, `PropsHalfTurn`, `FloatNorm`, `FloatStep`, `FloatStep2`, `FloatShep`, `FloatDiv`, `FloatTree`, `PropsFltExpr`, `PropsShep`, `PropsDivFlt`, `FloatCoef`, `FloatLogJac`, `FloatRtLog`, `FloatExpJac`, `PropsAway`, `FloatJac`, `ExpLip`, `FloatJacExp`, `FloatJacLoc`, `FloatJacTree`, `PropsFltJac`, `NormLib`, `NormStep`, `NormLoc`, `NormTree`, `PropsFltNorm`, `FloatRev`, `PropsFltRev` | MatrixRotation.hpp (compose, rotate, log), QuaternionRotation.hpp (compose, rotate, inverse, to matrix), RigidTransformBase.hpp (compose, inverse), TransformBase.hpp (transform), RelativeRotation.hpp (exp), RigidTransformBase.hpp (log), op/LogMap.hpp (Jacobian), Twist.hpp (Jacobian of exp), the local Jacobians without division, log, exp and the chain rule in forward and reverse mode, on IEEE doubles of the Flocq library |
| dynamic expressions | `ModelDyn.v` | `SpecDyn.v` | `DynProofs`, `PropsDyn` | dynamic/*.hpp |
| operand storage and lifetimes | `ModelStore.v` | `SpecStore.v` | `StoreProofs`, `PropsStore` | core/storage/{RefSelector,UnaryStorage,BinaryStorage}.hpp, util/macros.hpp, overloads of the operators |

The property theorems are in `Props*.v`, each followed by `Print Assumptions` and
accompanied by an `Example` that meets its hypotheses. Definitions in `Spec*.v` say what the
properties mean and do not use the model's evaluators.

## 2. Trusted base

* Coq 8.16.1 kernel.
* Axioms of the standard library's classical reals only (`ClassicalDedekindReals.sig_forall_dec`,
  `ClassicalDedekindReals.sig_not_dec`, `FunctionalExtensionality.functional_extensionality_dep`
  and, where trigonometry/analysis needs it, `Classical_Prop.classic`), as listed by
  `Print Assumptions` under each theorem. No axioms of our own.
* The reading of the C++ text: each model definition cites file and lines.
* Eigen: products, blocks, `Quaternion * Vector`, `toRotationMatrix`, `Quaternion(Matrix3)`,
  `AngleAxis` conversions and `inverse` are modelled from Eigen's documented/known
  definitions; Eigen is not in the repository.
* Not modelled: floating-point rounding outside `ModelFloat.v`, alignment, `boost::optional`/`flat_map` internals,
  C++ overload resolution as such (its outcome is modelled per operand type), performance.

## 3. Plan per property

| id | how it is modelled and proved |
|---|---|
| C01 | deep embedding of expressions; derivative specified through `derivable_pt_lim` along arbitrary curves; per-operation lemmas, then induction on trees |
| C02 | evaluators are modelled separately (value part of each path) and proved equal by induction |
| C03, C04, C05, C06, C08 | the evaluators are modelled on trees with arbitrary local Jacobian matrices of arbitrary sizes; equalities by structural induction |
| C07 | n-ary nodes; expected refuted for the static forward evaluator (wrong row index when a child does not contain the target), proved for the dynamic one |
| C09 | difference quotient as a function of delta; limit from C01; second-order agreement of the library's displaced values with the exact ones, carried through every operation, and through Dynamics and proxies by expanding them |
| C10, C11, C45 | typed values, overload table, conversion search as in AddConversions.hpp; denotation into rotation matrices |
| C12 - C16 | algebra over R (ring/field/nsatz) on quaternions and 3x3 matrices |
| C17 - C22 | trigonometric identities with explicit branch conditions; small-angle branches expected refuted/partial |
| C23 - C25 | frame checker as in frame_traits.hpp and the static_asserts; world semantics; Transform gap expected refuted |
| C26, C27 | memory model with value categories; arg_t/storage_t as in RefSelector.hpp; UB outcome for dangling |
| C28 - C30 | state machine with heap of dynamic nodes with cached evaluators, induction over histories |
| C31 - C34 | lists of sizes/types; induction |
| C35 - C37 | algebra |
| C38 - C40 | covariance/whitening over matrices of any size; Factor Jacobian expected refuted |
| C41 - C45 | algebra / per-overload statements |
| C46, C47 | joint motion of several leaves and substitution of sub-expressions: chain rule from C01 along arbitrary curves |
| C48 | memory as an array of reals, views as (base, stride, type): layout arithmetic, then C45 for assignment and C46 for derivatives of shared memory |
| C49 - C56 | IEEE doubles from Flocq (`BinarySingleNaN`, round to nearest even); the order of summation and the C library's sin/cos/acos are parameters; forward error analysis on norms of rows (C49), on both branches of exp (C50), witnesses and ranges where differences cancel (C51 - C53, C55, expected refuted); perturbation of x / sin x by the mean value theorem, with the branch taken by the computed angle (C54); induction on prepared expressions with one relative error per rounding (C56) |
| C57 | nodes of the store with C++ types and addresses, isSame as written; equality of the denoted functions and structure of the test proved from typing and allocation |
| C58 | interleaving semantics of threads whose steps read or write one leaf value or one cached evaluator; frame lemma per thread, induction on schedules, and witnesses of races |
| C59 | the same for Jacobians: entrywise error of sums of products in any order, local Jacobian by local Jacobian, then induction along the forward chain rule against the exact Jacobian of C01; once entrywise and once with operator and Frobenius norms |
| C60 | the reverse sweeps on doubles: induction from the root down, adjoint by adjoint, against the exact occurrences of C02; then the additions into the map |
| C61 | real perturbation analysis of each of the four cases on the largest coefficient; the comparison of stored entries bounds the exact coefficient from below wherever a case can be selected |
| C62 | error of a quotient by a perturbed divisor; mean value theorem for the arc cosine away from its ends; expected refuted for vectors whose squared length underflows or overflows and for parallel vectors |

## 4. What is proved

Axioms listed by `Print Assumptions`: D = `ClassicalDedekindReals.sig_forall_dec`,
N = `ClassicalDedekindReals.sig_not_dec`, F = `FunctionalExtensionality.functional_extensionality_dep`,
C = `Classical_Prop.classic`, - = closed under the global context. All are axioms of the
standard library's real numbers. (The additional names a whole-library `coqchk` prints,
`Coq.ssr.ssrunder.*` and the sealed constants of `Rdefinitions`, are opaque module members of
the standard library, not assumptions of these theorems.)

A name ending in `_refuted` is a proof that the property, or the named part of it, is false
of the model, by a witness; the corresponding finding is in section 5. A name ending in
`_partial` proves part of the property; the note says what is missing.

| property | status | theorems (axioms) | note |
|---|---|---|---|
| C01 | proved | `c01_jacobian_is_derivative` (DNCF), `c01_derivative_unique` (DNCF), `c01_other_modes_same_matrix` (DNCF), `c01_reverse_is_derivative` (DNCF), `c01_computed_value_moves` (DNCF), `c01_jacobian_is_chain_rule` (DF) | side conditions in SpecDeriv.smooth; targets are ordinary (not symbolic Identity/Zero) leaves; nodes: scalar, vector, rotation, rigid transform operators (compounds: C07) |
| C02 | proved | `c02_value_is_denoted_function` (DNCF), `c02_methods_agree` (DNCF) |  |
| C03 | proved | `c03_typed_equals_untyped` (DF), `c03_not_unique_differs` (DF) | second theorem shows the uniqueness hypothesis is needed |
| C04 | proved | `c04_reverse_equals_forward` (DF), `c04_reverse_accepted_iff` (D) |  |
| C05 | proved | `c05_dynamic_equals_static` (DF), `c05_dynamic_absent_zero` (DF), `c05_address_clash_differs` (DF) | hypothesis: the target's address is not shared by another object (needed: c05_address_clash_differs) |
| C06 | proved | `c06_dynamic_reverse` (DF) |  |
| C07 | partial | `c07_dynamic_nary_stacks` (DF), `c07_static_nary_stacks_partial` (DF), `c07_static_nary_stacks_refuted` (DF), `c07_static_nary_rejected` (D), `c07_dynamic_compound_derivative` (DNCF), `c07_selected_elements` (-), `c07_selects_children` (D) | dynamic mode proved, including that the stacked matrix is the derivative of the compound value; static forward mode refuted (JacobianEvaluator.hpp 291-302 uses the index among the kept children as row index) |
| C08 | partial | `c08_absent_zero` (DF), `c08_jacobian_absent_zero_partial` (DF), `c08_jacobian_absent_zero_refuted` (DF), `c08_absent_rejected` (D), `c08_with_assertions` (DF) | false for jacobian() on expressions with distinct leaf types and another object of an occurring type; with assertions enabled (no NDEBUG) the program is aborted in exactly that case, and the claim holds otherwise (c08_with_assertions) |
| C09 | proved | `c09_numerical_jacobian_converges` (DNCF), `c09_compound_converges` (DNCF), `c09_through_proxies_converges` (DNCF), `c09_many_targets_converge` (DNCF), `c09_small_step_quotients` (DNCF), `c09_columns_are_difference_quotients` (DNCF), `c09_code_step_is_small_angle` (DNF) | Convergence for every expression, leaf target and point at which C01 applies (rotations and rigid transforms perturbed with the small-angle exponential included), for compounds of such expressions whose elements evaluate to stored types, and for expression objects in memory with references, Dynamics and proxies, with respect to leaves and to Dynamics (c09_through_proxies_converges). Columns are exact difference quotients outside the small-angle range of exp, and within K/d/ of them inside it; the code's step sqrt(eps) always selects the small-angle formula for rotational coordinates (c09_code_step_is_small_angle). Not covered: targets that are themselves compounds, nested compounds. |
| C10 | proved | `c10_parametrization_independent` (DNCF), `c10_never_stuck` (DNCF) |  |
| C11 | proved | `c11_sound_minimal` (-), `c11_complete` (-), `c11_unary` (-) |  |
| C12 | proved | `c12_conversion_preserves` (DNCF), `c12_expression_conversion` (DNCF), `c12_matrix_quaternion_matrix` (DNCF), `c12_quaternion_matrix_quaternion` (DNCF) | All pairs of parametrizations of rotations and rigid transforms; quaternion round trip up to sign. |
| C13 | proved | `c13_results_valid` (DNCF), `c13_prepared_valid` (DNCF) |  |
| C14 | proved | `c14_associative` (DNCF), `c14_identity_neutral` (DNCF), `c14_inverse` (DNCF), `c14_inverse_of_product` (DNCF), `c14_inverse_involutive` (DNCF) |  |
| C15 | proved | `c15_action_compatible` (DNCF), `c15_inverse_undoes` (DNCF), `c15_rotation_isometry` (DNCF), `c15_rotation_preserves_cross` (DNCF), `c15_transform_preserves_distance` (DNCF) |  |
| C16 | proved | `c16_unary` (DNCF), `c16_binary` (DNF) |  |
| C17 | proved | `c17_exp_is_rotation_by_norm` (DNCF), `c17_exp_is_flow` (DNCF), `c17_log_of_exp` (DNCF), `c17_exp_of_log` (DNCF), `c17_log_small_angle` (DNCF), `c17_small_log_of_exp` (DNCF) | exp is also shown to be the time-1 value of the unique constant-velocity motion. |
| C18 | partial | `c18_small_angle_close_partial` (DNCF), `c18_unit_norm_refuted` (DNCF), `c18_error_refuted` (DNCF) | The claim is false of the code: the quaternion is never unit for non-zero vectors, and the sign of the second Taylor coefficient is wrong, so the error is cubic. Proved: the error bounds that do hold. |
| C19 | proved | `c19_boxplus_of_boxminus_rotation` (DNCF), `c19_boxminus_of_boxplus_rotation` (DNCF), `c19_boxplus_of_boxminus_transform` (DNCF), `c19_boxminus_of_boxplus_transform` (DNCF) | away from the small-angle branches and from angle pi, as the property says |
| C20 | partial | `c20_exp_is_flow` (DNCF), `c20_log_of_exp` (DNCF), `c20_exp_of_log` (DNCF), `c20_small_angle_partial` (DNCF), `c20_small_angle_refuted` (DNCF), `c20_small_exp_invalid_refuted` (DNCF), `c20_small_exp_of_log_refuted` (DNCF), `c20_small_exp_close_partial` (DNCF), `c20_small_log_close_partial` (DNCF) | Proved above the small-angle threshold and at zero rotation. Below the threshold the claim is false of the code (refuted with witnesses; exact formula given). |
| C21 | proved | `c21_rotation_jacobians_inverse` (DNCF), `c21_rigid_jacobians_inverse` (DNCF), `c21_local_rotation` (DNF), `c21_local_rigid` (DNF) | API level below pi; local formulas below 2 pi. |
| C22 | partial | `c22_exp_rotation_at_zero` (DNCF), `c22_log_at_identity_refuted` (DNCF), `c22_log_rigid_refuted` (DNCF), `c22_exp_rigid_refuted` (DNCF), `c22_exp_jacobian_small_angle` (DNCF) | Holds for exp of a relative rotation. For the other three the derivative exists but the library's matrix is 0/0 (refuted). |
| C23 | partial | `c23_frames_sound_partial` (DNCF), `c23_transform_refuted` (DNCF), `c23_scale_refuted` (DNCF), `c23_exp_refuted` (DNCF), `c23_box_refuted` (DNCF), `c23_sum_rotations_refuted` (DNCF) | Sound for expressions in the fragment SpecFrames.frame_strict; for each excluded operation the claim is false of the code (refuted). frame_cast is a deliberate override. |
| C24 | proved | `c24_compose_exact` (DNF), `c24_rotate_exact` (DNF), `c24_transform_exact` (DNF), `c24_sum_exact` (DNF), `c24_difference_exact` (DNF), `c24_required_frames` (-), `c24_rejected_anywhere` (DNCF), `c24_variable_frames` (DNCF), `c24_unframed_never_rejected` (DNCF) | Acceptance is characterised semantically: accepted iff the result is the announced quantity for every placement of the frames. |
| C25 | proved | `c25_value_independent_of_frames` (DNCF), `c25_frame_cast_only_annotation` (DNCF), `c25_construct_independent_of_frames` (DNCF), `c25_jacobian_independent_of_frames` (DNCF), `c25_reverse_independent_of_frames` (DNCF) | Jacobians: at points where C01 applies; each object has one framed type. |
| C26 | proved | `c26_no_dangling` (-), `c26_stays_evaluable` (DNCF), `c26_always_builds` (-), `c26_programs` (-), `c26_const_temporary_refuted` (DNCF), `c26_ref_of_temporary_refuted` (DNCF) | For all program texts mixing named, moved-from and temporary operands, makeDynamic, makeProxy and ref, and all programs of declarations, assignments, rebindings and destructions. The two exceptions in the statement are refuted with witnesses. |
| C27 | proved | `c27_assigned_leaf_is_seen` (DNCF), `c27_others_do_not_matter` (DNCF) | Expression objects in memory, including references to named expressions, Dynamic and proxies. |
| C28 | proved | `c28_eval_is_current` (DNCF), `c28_any_history` (DNCF), `c28_queries_leave_no_trace` (DNCF) | For any cache contents and any history of assignments, rebindings, evaluations and differentiations. |
| C29 | partial | `c29_forward` (DNCF), `c29_reverse` (DNCF), `c29_forward_is_derivative` (DNCF), `c29_reverse_is_derivative` (DNCF), `c29_static_is_derivative` (DNCF), `c29_static_chain_compiles` (DNCF), `c29_static_binary_refuted` (DNCF) | Value: C28. Dynamic forward and reverse modes: proved in full. Static jacobian(): correct whenever it compiles, but it does not compile for a binary operation with a proxy operand (refuted). |
| C30 | proved | `c30_rebinds_only_that_proxy` (-), `c30_target_outlives_proxies` (-) | For all memories reachable by programs. shared_ptr is modelled by its guarantee: the owned target is destroyed only when no live object holds it. |
| C31 | proved | `c31_block_shape` (D), `c31_write_read` (D), `c31_cover` (D), `c31_bands` (D) |  |
| C32 | proved | `c32_plus_elementwise` (DNCF), `c32_minus_elementwise` (DNCF), `c32_length_mismatch_rejected` (DNCF), `c32_plus_of_minus` (DNCF), `c32_minus_of_plus` (DNCF), `c32_minus_self` (DNCF), `c32_plus_zero` (DNCF), `c32_value_as_vector` (DNF), `c32_isApprox_elementwise` (DNCF) | Elements are leaves (no nested compounds). Rotation elements: outside the small-angle approximations, as in C19. |
| C33 | proved | `c33_matrixmap` (D), `c33_count` (D), `c33_missing_key` (D) |  |
| C34 | proved | `c34_unique_leaves_exact` (-), `c34_unique_leaves_list` (-), `c34_union_of_lists` (-), `c34_rejected_list` (-) |  |
| C35 | proved | `c35_dense` (DF), `c35_operations` (DF), `c35_uncross` (DF) | Operand lifetime of the returned Eigen expressions is not modelled. |
| C36 | proved | `c36_products` (DF), `c36_neutral` (DF), `c36_chains` (DF) | Products of the symbolic factors the evaluators multiply; returned references are not modelled. |
| C37 | proved | `c37_random_valid` (DNCF), `c37_random_surjective` (DNCF) | For draws in [0,1] over the reals. |
| C38 | proved | `c38_full_whitens` (DNCF), `c38_full_unique` (DNCF), `c38_diagonal_whitens` (DF), `c38_stddev_list` (DF), `c38_constructions_agree` (DNCF), `c38_full_undefined` (DNCF), `c38_invertible` (DNCF) | Eigen's symmetric eigensolver enters as a function assumed to return some eigendecomposition; the result does not depend on which. One-dimensional noise is the case n = 1. |
| C39 | proved | `c39_residual` (DNCF), `c39_same_residual_with_jacobians` (DNCF), `c39_zero_iff` (DNCF) | Vector and compound predictions. |
| C40 | partial | `c40_jacobians_partial` (DNCF), `c40_unit_noise` (DNCF), `c40_whitened_refuted` (DNCF) | False of the code: the residual is multiplied by inverseSqrtCov, the Jacobians are not (refuted with a witness). Proved: the matrices are the derivatives of the prediction, and correct for unit noise; compounds only where C07 holds. |
| C41 | proved | `c41_symbolic_leaves` (DNCF) |  |
| C42 | proved | `c42_add_sub_cancel` (DNCF), `c42_negation` (DNCF), `c42_addition_abelian` (DNCF), `c42_scaling` (DNCF), `c42_norms` (DNCF), `c42_affine` (DNCF) |  |
| C43 | partial | `c43_equal_accepted` (DNCF), `c43_close_rotations_accepted` (DNCF), `c43_accepted_rotations_close` (DNCF), `c43_rotations_symmetric` (DNCF), `c43_transforms_accepted_iff` (DNCF), `c43_transforms_symmetric_partial` (DNCF), `c43_transforms_symmetric_refuted` (DNCF), `c43_vectors_iff` (DNCF), `c43_vectors_equal_symmetric` (DNCF), `c43_isZero_iff` (DNCF) | Symmetry for rigid transforms holds outside the small-angle range and is false of the code inside it (refuted for every threshold). |
| C44 | proved | `c44_reads_part` (DNF), `c44_transform_parts` (DNCF), `c44_assigns_part` (DNCF), `c44_wrong_kind_rejected` (DNCF), `c44_read_after_write` (DNCF), `c44_assigns_leaf` (DNCF), `c44_constructs_leaf` (DNCF), `c44_constructs_transform` (DNCF), `c44_invert_in_place` (DNCF), `c44_programs` (DNCF) | Reading and assigning the rotation and translation of transforms and twists, assigning and constructing leaves from expressions; right-hand sides are evaluated in the old memory, so aliasing is covered. CompactRigidTransform has no assignment from an expression (c44_assigns_leaf excludes it; constructing one is covered). c44_programs: any sequence of constructions, assignments and part assignments leaves every variable with its declared type and the mathematically computed value. |
| C45 | proved | `c45_evaluateTo_same_value` (DNCF), `c45_other_kind_rejected` (DNCF), `c45_conversion_same_jacobian` (DNCF) |  |
| C46 | proved | `c46_joint_motion` (DNCF), `c46_reverse_joint_motion` (DNCF) | At points where C01 applies. |
| C47 | proved | `c47_early_evaluation` (DNCF), `c47_jacobian_chain_rule` (DNCF) | At points where C01 applies; the intermediate variable has the sub-expression's output type. |
| C48 | proved | `c48_reads_layout` (D), `c48_assigns_through_view` (DNCF), `c48_disjoint_unaffected` (DNCF), `c48_blocks_are_parts` (D), `c48_shared_memory_derivative` (DNCF), `c48_copy_assign` (-), `c48_overlapping_copy_refuted` (DF), `c48_variable_data` (D) | Views have unit inner stride. Copying a mapped leaf into one whose memory partly overlaps is outside the statement and does not copy the value (refuted with a witness). Lifetime of the viewed memory is not modelled. |
| C49 | proved | `c49_product_drift` (DNCF), `c49_stays_orthonormal` (DNCF), `c49_rotate` (DNCF), `c49_quaternion_drift` (DNCF), `c49_quaternion_norm` (DNCF), `c49_quaternion_rotate` (DNCF), `c49_quaternion_matrix` (DNCF), `c49_rigid_drift` (DNCF), `c49_transform` (DNCF), `c49_inverse_quaternion` (DF), `c49_inverse_rigid` (DNCF) | IEEE doubles (Flocq), round to nearest even; any order of the three- and four-term sums, with or without fused multiply-add. Rotation matrices, quaternions and rigid transforms with matrix rotations. Rigid transforms stored with a quaternion are covered through c49_quaternion_drift and c49_quaternion_rotate, not by a chain theorem of their own. |
| C50 | proved | `c50_exp_unit` (DNCF), `c50_exp_accurate` (DNCF) | IEEE doubles; sin and cos with a relative error below one ulp (a hypothesis on the C library, met by correctly rounded functions). The accuracy bound is the larger of the rounding error and the error of the small-angle formula. |
| C51 | partial | `c51_rigid_log_refuted` (DNCF), `c51_rigid_log_away_partial` (DNCF) | Proved for rotations by 2^-20 or more and away from half turns: the translation part is within 4800(e + 2^-53 + 2^-53//w/^2)/t/ of the exact one, e being the relative error of the rotation part. Refuted near zero: just above the threshold of the small-angle branch the computed translation part is more than 25 percent off, for a correctly rounded input matrix, correctly rounded sin/cos/acos and every order of summation. |
| C52 | partial | `c52_log_jacobian_refuted` (DNCF), `c52_log_jacobian_away_partial` (DNCF) | Proved for rotations from 2^-20 to a half turn: every entry is within 2^-42(1 + 1//w/^2) + 2048e of the exact Jacobian when the rotation vector is within e/w/. Refuted for every non-zero rotation vector of length at most 2^-27: every computed entry is infinite or NaN although the exact Jacobian is within 2^-27 of the identity (with correctly rounded cos, for which cos of such an angle is 1). |
| C53 | partial | `c53_exp_jacobian_refuted` (DNCF), `c53_exp_jacobian_away_partial` (DNCF) | Proved for rotations from 2^-20 to a half turn: the block is within 2^-42(1 + 1//w/^2)/u/ of the exact one. Refuted for rotations about an axis by 2^-400 to 2^-27 and perpendicular translation: the computed block is exactly zero although the exact one is half the cross matrix of the translation. |
| C54 | proved | `c54_log_accurate` (DNCF), `c54_log_exp` (DNCF), `c54_log_chain` (DNCF), `c54_box_minus` (DNCF) | IEEE doubles; sin, cos and acos with a relative error below one ulp, acos NaN outside [-1,1] (hypotheses on the C library, met by correctly rounded functions). The bound grows like 1/(1 + cos/v/) towards a half turn; C55 shows that it must. |
| C55 | partial | `c55_half_turn_refuted` (DNCF) | Refuted: for the rotation about z by pi - 2^-30, correctly rounded, the computed logarithm has a component above ten million instead of pi. |
| C56 | proved | `c56_evaluateTo_accurate` (DNCF), `c56_eval_accurate` (DNCF), `c56_polynomial_accurate` (DNCF) | IEEE doubles; libm with errors below one ulp. The bound is relative to a bound on the coordinates (size), computed from the exact leaves, that counts sums as sums of absolute values: no claim is made about cancellation. Not covered: Twist, angle-axis, Identity and Zero leaves, the logarithm of a rigid transform. Divisors and normalized vectors must not be smaller than half the bound on their size (no cancellation), arc cosines only of numbers up to 0.9. |
| C57 | proved | `c57_isSame_decides` (-), `c57_same_everywhere` (DNCF), `c57_equivalence` (-), `c57_copy` (-) | On objects built by the programs of SpecStore. A Dynamic moved into an operation counts as the expression it holds. |
| C58 | partial | `c58_independent_threads` (DNCF), `c58_static_expressions` (DNCF), `c58_dependent_threads_race` (DNCF), `c58_shared_dynamic_races_refuted` (DNCF), `c58_shared_dynamic_refuted` (DNCF), `c58_assignment_is_current` (DNCF) | False as stated: two threads that only evaluate the same Dynamic through proxies race, because evaluation replaces the mutable lazy_evaluator (c58_shared_dynamic_refuted: a thread reads an evaluator the other has just destroyed). Proved: safe for all threads none of which changes what another uses, where a Dynamic reached through a proxy counts as changed; in particular for any number of threads on expressions without proxies; and the condition is necessary (c58_dependent_threads_race). Threads do not rebind proxies or construct or destroy objects others use; one access to a leaf value or evaluator is one step; no weak-memory effects (they need a data race). |
| C59 | proved | `c59_jacobian_normwise` (DNCF), `c59_polynomial_normwise` (DNCF), `c59_jacobian_accurate` (DNCF), `c59_polynomial_jacobian` (DNCF), `c59_absent_zero` (DNCF) | IEEE doubles; any order, grouping and fusing of the additions in every entry of every product. Normwise bound (root of the summed squares of the errors) relative to nsize, the product along the path of how much the local Jacobians stretch vectors, 1 for rotations: no growth with depth beyond the count of roundings. Also an entrywise bound relative to jsize, which has a factor for the inner dimension at each product. Between the root and the target only inverse, minus, squaredNorm, rotation(), translation(), conversions, norm and normalized of vectors at least half as long as the bound on their length, log of rotations by 1/16 to 3 radians, exp of rotation vectors of 1/16 to 4 radians or below 2^-27, and the binary operations without division; elsewhere everything covered by C56. Forward modes only (jacobian(x), evalWithJacobians(x), dynamic forward). |
| C60 | proved | `c60_reverse_accurate` (DNCF), `c60_dynamic_reverse_accurate` (DNCF), `c60_polynomial_reverse` (DNCF), `c60_polynomial_dynamic` (DNCF), `c60_modes_agree` (DNCF), `c60_reverse_needs_types` (DNCF), `c60_absent_zero` (DNCF) | IEEE doubles; any order, grouping and fusing of the additions in every entry of every product. Errors in the Frobenius norm, relative to the product along the way of how much the local Jacobians stretch vectors (summed over the occurrences in the dynamic mode). All operations of the expression must have modelled local Jacobians: inverse, minus, squaredNorm, rotation(), translation(), conversions, norm and normalized of vectors at least half as long as the bound on their length, log of rotations by 1/16 to 3 radians, exp of rotation vectors of 1/16 to 4 radians or below 2^-27, and the binary operations without division. Simplification: an adjoint is rounded before it is added to the map. |
| C61 | proved | `c61_to_quaternion` (DNCF), `c61_matrix_round_trip` (DNCF), `c61_quaternion_round_trip` (DNCF) | IEEE doubles; Shepperd's method as in Eigen's Quaternion(const Matrix3 &). Errors are root of the summed squares (matrix) and Euclidean distance (quaternion). C56 uses it for whole expressions (conversions, and products of a matrix transform with a compact one). |
| C62 | partial | `c62_unit_partial` (DNCF), `c62_angle_partial` (DNCF), `c62_unit_refuted` (DNCF), `c62_angle_refuted` (DNCF) | IEEE doubles. The full statement is false of the code: normalize(v) squares the coordinates without scaling, so v = (2^-600, 0, 0) is returned unchanged and v = (2^600, 0, 0) becomes 0; acos does not clamp, so the angle between (1, 1, 1) and itself is NaN. Proved for lengths between 2^-400 and 2^400 and, for the angle, cosines of size up to 0.9; missing there: angles within 0.45 of 0 and pi whose computed cosine stays below 1. |

## 5. Findings

Behaviour of the code that contradicts a property or its own documentation, found while
modelling. Those marked with a theorem are proved of the model.

1. **Static n-ary Jacobian uses the wrong row block.** `JacobianEvaluator.hpp` 291-302 filters
   the children that contain the target and then uses the index *among the kept children* as
   block row, so a compound whose first child does not contain the target gets its blocks
   in the wrong rows (`c07_static_nary_stacks_refuted`).
2. **`Factor::evaluateWithJacobians` does not whiten the Jacobians.** The residual is multiplied
   by `inverseSqrtCov()`, the Jacobians are not (`Factor_impl.hpp` 44-60,
   `c40_whitened_refuted`).
3. **Jacobians are 0/0 at zero rotation** for log of a rotation, exp of a twist and log of
   a rigid transform, although the derivative exists (`c22_*_refuted`).
4. **`Transform` does not check the middle frame** of the vector it is applied to
   (`Transform.hpp` 22), so a displacement between two points can be "transformed" like a
   position (`c23_transform_refuted`). Scale, exp, box operators and sums of relative rotations
   announce frames by convention that no interpretation makes sound (`c23_*_refuted`).
5. **Small-angle `exp` of a relative rotation is never a unit quaternion** for a non-zero
   vector, and the second Taylor coefficient has the wrong sign (+1/48 instead of -1/48), so
   the error is cubic (`c18_*_refuted`).
6. **Small-angle `exp` of a twist uses B = 0**, so the rotation block is I + [w]x, not orthogonal
   (`c20_small_*_refuted`).
7. **Typed Jacobians identify the target by type, not by address**: `jacobian(x)` of an
   expression with unique leaf types that does not contain `x`, but contains another object of
   x's type, is not zero (`c08_jacobian_absent_zero_refuted`).
8. **`evalWithJacobians(targets)`** with a target type that does not occur does not compile,
   while `jacobian(target)` returns zero (`c08_absent_rejected`).
9. **isApprox of rigid transforms is not symmetric** in the small-angle range
   (`c43_transforms_symmetric_refuted`).
10. **Temporaries by reference.** A const rvalue operand binds to the `const &` overloads and a
    reference to the dying temporary is stored (`c26_const_temporary_refuted`); `ref()` and
    the RefProxy constructor accept temporaries although the documentation says they cannot
    (`c26_ref_of_temporary_refuted`).
11. **Static `jacobian()` of a binary operation with a proxy operand does not compile**
    (`contains_same_type` has no case for proxies; `c29_static_binary_refuted`).
12. **The numerical Jacobian's step is inside the small-angle approximation**: with
    delta = sqrt(eps) the perturbation of a rotation always takes the approximate branch
    (`c09_code_step_is_small_angle`). The columns still agree with the exact difference
    quotients to first order and converge (`c09_small_step_quotients`,
    `c09_numerical_jacobian_converges`).
13. Matrix log at angle pi divides by sin(pi) (zero over the reals); the exp value
    switches branch at |v|^4 > eps while its Jacobian switches at |v|^2 > eps. Below the
    threshold log returns (sin t / t) v. For a matrix whose trace gives a cosine outside
    [-1,1] (not a rotation, or rounding) acos is NaN, the comparison `angle > eps` is false,
    and the small-angle formula is returned; the model does the same.
14. `NaryStorage::operator=` (57-62) and `CompoundLeafStorage::operator=` (58-65) cannot be
    instantiated or deduced; a CompactRigidTransform cannot be assigned from an expression.
15. `CompactRigidTransform(Eigen::RotationBase, ...)` delegates to itself; `rotation() &&` of
    `TransformBase.hpp` 93-95 has a typo.
16. `MatrixMap`'s const `operator[]` does not compile; asking the non-const one for a missing
    key inserts a zero-width block (`c33_missing_key`);
    `evaluateDynamicReverseJacobiansHelper` calls a `find` that MatrixMap lacks.
17. There is no typed Jacobian evaluator for n-ary expressions, and `contains_same_type` has no
    n-ary case, so compounds of distinct leaf types cannot be differentiated statically
    (`c07_static_nary_rejected`).
18. `Twist`'s documentation says translation first, the code stores rotation first.
    `Twist::rotation()`/`translation()` on a temporary return a view of it (the lifetime of
    viewed memory is not modelled).
19. The dynamic evaluators compare bare addresses: an object and its first member at the
    same address are confused (`c05_address_clash_differs`). Comparing a `Dynamic*` with a
    `DynamicBase*` relies on object layout.
20. `Subtract` of a translation from a point, when the middle frames agree, announces a
    three-frame result a point cannot carry, so it does not compile.
21. `RefProxy`'s documentation says that assigning a proxy variable changes expressions built
    from it; proxies are copied into expressions, so it does not (`c30_rebinds_only_that_proxy`).
22. `uniformRandom`'s closed upper bound with rounding may give s > 1 and NaN (not visible over
    the reals). `DiagonalNoise::FromStdDev(s...)` uses an Eigen initialiser that exists for at
    most four arguments.
23. `Normalize` drops frames. `Sum(Zero<Translation>, Zero<Point>)` evaluates to
    `Zero<Translation>`.
24. By-value expression objects are assignable, so a reference cycle can be built; evaluating
    it would not terminate (excluded by the well-formedness the theorems assume; no program
    of `SpecStore` builds one).
25. `FactorVariable<Scalar>` and `FactorVariable<RotationQ>` do not compile: `data()` and
    `size()` are called on a double or an `Eigen::Quaternion`, which have no such members
    (`variable_data` is undefined there).
26. Copy-assigning one mapped leaf to another whose memory partly overlaps it does not give
    the destination the source's value (`c48_overlapping_copy_refuted`); assigning any
    expression, even one reading the destination, does (`c48_assigns_through_view`).
27. A Jacobian with respect to a leaf that views memory other leaves also view is that leaf's
    contribution only; the derivative with respect to the memory is the sum
    (`c48_shared_memory_derivative`).
28. **In double precision, log of a rigid transform is wrong just above its threshold.** The
    coefficient `(1 - A/(2B))/theta^2` of the inverse of V cancels: at an angle of
    9*2^-29 (1.7e-8) and translation (0,1,0) the computed translation part is 81/64 instead of 1
    (`c51_rigid_log_refuted`).
29. **In double precision, the Jacobian of log of a rotation has no finite entry** for any
    non-zero rotation vector of length at most 2^-27 (7.5e-9), because `1 - cos` is zero there
    and is divided by (`c52_log_jacobian_refuted`).
30. **In double precision, the coupling block of the Jacobian of exp of a twist vanishes** for
    small rotations: all its coefficients are differences that cancel (`c53_exp_jacobian_refuted`).
    The errors of 28 to 30 fall off as 1/theta^2: from 2^-20 (1e-6) on they are below
    2^-42 (1 + 1/theta^2) times the size of the data (`c51_rigid_log_away_partial`,
    `c52_log_jacobian_away_partial`, `c53_exp_jacobian_away_partial`).
31. **In double precision, log of a rotation is wrong within about 1e-8 of a half turn.** The trace
    of the rounded matrix is -1, the angle is the double nearest to pi, and it is divided by the
    sine of that double (1.2e-16) instead of the sine of the angle: for the rotation about z by
    pi - 2^-30 the third component of the result exceeds 10^7 (`c55_half_turn_refuted`). Away from
    half turns the result is accurate (`c54_log_accurate`).

32. In builds with assertions, `jacobian(x)` of finding 7 aborts instead (`c08_with_assertions`). The
    assertion's `containsSame` (`IsSame.hpp` 87-110) has no overload for an operand that is a plain
    `double`, so in such builds `jacobian()` of an expression of distinct leaf types with a
    `double` operand does not compile.
33. **Evaluating one const expression from two threads is a data race if it reaches a `Dynamic`
    through a proxy** (`c58_shared_dynamic_refuted`): `Dynamic::dynEvaluate() const` destroys and
    reconstructs the mutable `lazy_evaluator` (`Dynamic.hpp` 39-45, 59-62, 119-120), so one thread
    can read the evaluator another has just destroyed. Expressions without proxies, and threads
    with Dynamics of their own, are safe.
34. **In double precision, normalize() does not scale and acos() does not clamp.** (2^-600, 0, 0) is
    returned unchanged, (2^600, 0, 0) becomes zero (`c62_unit_refuted`), and the angle
    acos(dot(normalize(v), normalize(v))) of v = (1, 1, 1) with itself is NaN, because the computed
    cosine is above 1 in every order of summation (`c62_angle_refuted`). For lengths from 2^-400 to
    2^400 normalize() is accurate, and so are angles not close to 0 or pi.

## 6. What is not modelled

* Rounding and overflow, except for the functions of `ModelFloat.v`, `ModelFloatQ.v`, `ModelFloatExpr.v`, `ModelFloatJac.v` and `ModelFloatRev.v` (C49 - C56, C59 - C62). Everywhere else
  scalars are exact reals and a NaN is the outcome `None`.
* Eigen's expression templates (products are evaluated eagerly; lifetimes of Eigen temporaries inside
  `CrossMatrix`/`IdentityMatrix` products are not modelled), alignment, move-only
  performance behaviour.
* Nested compounds (a compound whose element is a compound) and Jacobians with respect to a
  compound target (analytic or numerical).
* `Framed` leaves inside Dynamic expressions and compounds; `debug`/printing code; examples,
  benchmarks and tests of the repository.
* Lifetime of the memory viewed by `Eigen::Map`/`Ref`/block leaves and `Scalar<double &>`
  (their reads, writes and derivatives are modelled: C48), inner strides other than 1 and
  row-major maps; the order in which Eigen copies coefficients is modelled as ascending.
* The C++ type system as such: which overload is viable is modelled as tables on leaf types
  (`ty_un`, `ty_bin`, `kind_un`, `kind_bin`), read off the declarations.
