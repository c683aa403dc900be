{"id": "C01", "title": "expr.jacobian(leaf) is the true derivative", "statement": "For every expression built from scalars, vectors, points, rotations and rigid transforms with the library's operators, expr.jacobian(x) is the derivative of the evaluated expression with respect to a (left, global-frame) perturbation of the leaf x: along every differentiable motion of x with velocity v, the evaluated expression moves with velocity J*v, where J is the returned matrix. Velocities of rotations are taken as R'=[w]x R, of rigid transforms as R'=[w]x R, t'=[w]x t+u. Required side conditions (non-zero divisor, non-zero vector under norm/normalized, |x|<1 under acos, the general (non-small-angle) branch of exp and log) are stated per operation.", "quantifier": "all expression trees of any depth and shape, all leaf values meeting the side conditions, all target leaves (occurring any number of times), all velocities", "why_tests_cant": "Tests compare with finite differences at a few random points of a few hand-picked expressions; they cannot cover every tree or every point and finite differences carry error.", "anchors": ["include/wave/geometry/src/core/functions/JacobianEvaluator.hpp:JacobianEvaluator,evaluateJacobian", "include/wave/geometry/src/geometry/op/*.hpp:jacobianImpl,leftJacobianImpl,rightJacobianImpl", "include/wave/geometry/src/geometry/base/VectorBase.hpp", "include/wave/geometry/src/geometry/base/TransformBase.hpp", "include/wave/geometry/src/geometry/leaf/*.hpp"]}
{"id": "C02", "title": "Every evaluation method returns the same value", "statement": "eval(), evalWithJacobians(), evalWithJacobians(targets...) and the dynamic/numerical paths all report the same value for the same expression, and that value equals the function denoted by the expression tree applied to the current leaf values.", "quantifier": "all expression trees and leaf values", "why_tests_cant": "Only a handful of expressions are tried in tests.", "anchors": ["include/wave/geometry/src/core/functions/Evaluator.hpp:Evaluator", "include/wave/geometry/src/core/functions/PrepareOutput.hpp:eval", "include/wave/geometry/src/core/base/ExpressionBase.hpp:eval,evalWithJacobians"]}
{"id": "C03", "title": "Compile-time typed Jacobians agree with run-time identity Jacobians", "statement": "When every leaf type occurs at most once in an expression (so the library selects the typed evaluator), the typed Jacobian equals the untyped forward Jacobian for every leaf of the expression.", "quantifier": "all expression trees with pairwise distinct leaf types, all targets", "why_tests_cant": "The choice of evaluator is made per type at compile time; tests instantiate only some types.", "anchors": ["include/wave/geometry/src/core/functions/TypedJacobianEvaluator.hpp:TypedJacobianEvaluator,evaluateJacobianAuto,evaluateWithJacobiansAuto"]}
{"id": "C04", "title": "Static reverse mode equals forward mode, in leaf order", "statement": "evalWithJacobians() without arguments returns one Jacobian per leaf, in left-to-right order of leaves, and each equals the forward-mode Jacobian with respect to that leaf.", "quantifier": "all expression trees with distinct leaves", "why_tests_cant": "Infinitely many trees; accumulation order and adjoint transposition errors may cancel on small symmetric cases.", "anchors": ["include/wave/geometry/src/core/functions/ReverseJacobianEvaluator.hpp:ReverseJacobianEvaluator,evaluateWithReverseJacobians"]}
{"id": "C05", "title": "Dynamic forward mode equals static forward mode", "statement": "The dynamic-size forward Jacobian (address-based target) equals the static forward Jacobian on every expression, including repeated leaves, with an absent target giving an all-zero matrix of the right size.", "quantifier": "all trees, all target addresses", "why_tests_cant": "Two independent implementations; agreement has to hold on all trees.", "anchors": ["include/wave/geometry/src/core/functions/DynamicJacobianEvaluator.hpp:DynamicJacobianEvaluator,evaluateOneDynamicJacobian"]}
{"id": "C06", "title": "Dynamic reverse mode sums all occurrences of a leaf", "statement": "evaluateDynamicReverseJacobians returns, for each requested leaf, the forward Jacobian; a leaf object occurring several times gets the sum over its occurrences, a leaf that does not occur gets zero.", "quantifier": "all trees, any sharing pattern of leaf objects, all requested leaves", "why_tests_cant": "Sharing patterns and address orders are unbounded.", "anchors": ["include/wave/geometry/src/core/functions/DynamicReverseJacobianEvaluator.hpp:getLeaves,getLeavesMap,DynamicReverseJacobianEvaluator", "include/wave/geometry/src/util/math/MatrixMap.hpp:MatrixMap"]}
{"id": "C07", "title": "Jacobian of a compound (n-ary) expression stacks the Jacobians of its elements", "statement": "For a compound expression of n elements, the Jacobian with respect to any target is the vertical stack, in element order, of the elements' Jacobians, with zero rows for elements that do not depend on the target; in every differentiation mode.", "quantifier": "all n, all element expressions, all targets (in particular targets absent from some elements)", "why_tests_cant": "Tests cover a compound of two with a particular layout.", "anchors": ["include/wave/geometry/src/core/functions/JacobianEvaluator.hpp:JacobianEvaluator n-ary combineChildJacobians", "include/wave/geometry/src/core/functions/DynamicJacobianEvaluator.hpp n-ary"]}
{"id": "C08", "title": "A target that is not in the expression has zero Jacobian", "statement": "jacobian(x) is a zero matrix of size TangentSize(expr) x TangentSize(x) when the object x does not occur in expr, and is independent of x's value; the value of x does not influence eval().", "quantifier": "all expressions, all targets not occurring", "why_tests_cant": "Quantifies over all expressions and absent objects.", "anchors": ["include/wave/geometry/src/core/functions/JacobianEvaluator.hpp:evaluateOneJacobian", "include/wave/geometry/src/core/functions/TypedJacobianEvaluator.hpp:evaluateTypedJacobian", "include/wave/geometry/src/core/functions/IsSame.hpp:isSame"]}
{"id": "C09", "title": "Numerical Jacobian approximates the analytic one", "statement": "Each column of evaluateNumericalJacobian is the difference quotient (f(x [+] d e_i) [-] f(x))/d along the i-th tangent direction of the target only (exactly, or up to an error of order d when d is in the range of the library's small-angle exponential), and as d tends to 0 it converges to the corresponding column of jacobian(); for single expressions, for compounds, and for expressions with proxies with respect to a leaf or a Dynamic.", "quantifier": "all expressions, targets, columns", "why_tests_cant": "Convergence is a limit statement.", "anchors": ["include/wave/geometry/src/core/functions/NumericalJacobian.hpp:evaluateNumericalJacobianImpl,EvaluatorWithDelta", "include/wave/geometry/src/dynamic/Proxy.hpp:EvaluatorWithDelta", "include/wave/geometry/src/dynamic/Dynamic.hpp:dynEvaluateWithDelta"]}
{"id": "C10", "title": "The value does not depend on the parametrization of rotations", "statement": "Replacing rotation-matrix, unit-quaternion and angle-axis leaves by one another (same rotation) in any expression leaves the represented result unchanged, whatever mix is used; evaluation never gets stuck on a mix.", "quantifier": "all expressions over rotations and vectors, all assignments of parametrizations to leaves and all values", "why_tests_cant": "Number of mixes is exponential in expression size.", "anchors": ["include/wave/geometry/src/geometry/leaf/QuaternionRotation.hpp", "include/wave/geometry/src/geometry/leaf/MatrixRotation.hpp", "include/wave/geometry/src/geometry/leaf/AngleAxisRotation.hpp", "include/wave/geometry/src/core/functions/AddConversions.hpp"]}
{"id": "C11", "title": "Automatic conversion search is sound, complete and minimal", "statement": "If an operation is directly implemented for its operand types no conversion is inserted; otherwise the first workable conversion (right operand, then left, then both, in declared order) is inserted; if any single or pairwise conversion works the expression is accepted, otherwise it is rejected at compile time.", "quantifier": "all operand types, all conversion lists and all sets of implemented overloads", "why_tests_cant": "Template metaprogram over arbitrary user-extendable type lists.", "anchors": ["include/wave/geometry/src/core/functions/AddConversions.hpp:first_directly_evaluable_conversion_unary,first_directly_evaluable_conversion_binary", "include/wave/geometry/src/util/meta/template_helpers.hpp:first_satisfies"]}
{"id": "C12", "title": "Rotation conversions preserve the rotation", "statement": "Converting a valid rotation between matrix, quaternion and angle-axis yields a valid rotation of the target kind representing the same rotation; matrix->quaternion->matrix is the identity on all rotation matrices.", "quantifier": "all rotation matrices, unit quaternions, unit-axis angle-axis pairs", "why_tests_cant": "Branches of the matrix-to-quaternion algorithm split SO(3) into four regions.", "anchors": ["include/wave/geometry/src/geometry/leaf/QuaternionRotation.hpp:evalImpl(expr<Convert,...>)", "include/wave/geometry/src/geometry/leaf/AngleAxisRotation.hpp:evalImpl(expr<Convert,...>)", "include/wave/geometry/src/geometry/leaf/CompactRigidTransform.hpp"]}
{"id": "C13", "title": "Valid rotations stay valid", "statement": "If all rotation and rigid-transform leaves hold valid values (unit quaternion, orthonormal det-1 matrix, unit axis) then so does every intermediate and final rotation or rigid transform computed from them by compose, inverse, conversion, member access and exp in its general branch.", "quantifier": "all expressions, all valid leaf values", "why_tests_cant": "An invariant over arbitrarily long computations.", "anchors": ["include/wave/geometry/src/geometry/op/Compose.hpp", "include/wave/geometry/src/geometry/op/Inverse.hpp", "include/wave/geometry/src/geometry/op/ExpMap.hpp", "include/wave/geometry/src/geometry/base/RigidTransformBase.hpp"]}
{"id": "C14", "title": "Group laws of SO(3) and SE(3)", "statement": "Composition is associative, Identity is neutral on both sides, inverse(x)*x and x*inverse(x) are identity, inverse(x*y)=inverse(y)*inverse(x), inverse(inverse(x))=x - for rotations and rigid transforms in each parametrization and mix.", "quantifier": "all valid rotations and rigid transforms", "why_tests_cant": "Universally quantified algebraic laws.", "anchors": ["include/wave/geometry/src/geometry/op/Compose.hpp", "include/wave/geometry/src/geometry/op/Inverse.hpp", "include/wave/geometry/src/geometry/leaf/Identity.hpp"]}
{"id": "C15", "title": "Action on vectors", "statement": "(x*y)*p = x*(y*p); inverse(x)*(x*p)=p; rotation preserves lengths, dot and cross products; rigid transforms preserve distances.", "quantifier": "all valid rotations/transforms and all vectors", "why_tests_cant": "Universally quantified.", "anchors": ["include/wave/geometry/src/geometry/op/Rotate.hpp", "include/wave/geometry/src/geometry/op/Transform.hpp", "include/wave/geometry/src/geometry/base/TransformBase.hpp"]}
{"id": "C16", "title": "Matrix and compact rigid transforms are interchangeable", "statement": "Every operation (compose, inverse, transform, log, rotation(), translation(), conversion) on a 4x4-matrix rigid transform and on the quaternion+translation form of the same motion yields results representing the same motion or vector, and the last row of the 4x4 form stays (0,0,0,1).", "quantifier": "all valid rigid transforms and mixes", "why_tests_cant": "Universally quantified over values and operation mixes.", "anchors": ["include/wave/geometry/src/geometry/leaf/MatrixRigidTransform.hpp", "include/wave/geometry/src/geometry/leaf/CompactRigidTransform.hpp", "include/wave/geometry/src/geometry/base/RigidTransformBase.hpp"]}
{"id": "C17", "title": "exp and log of SO(3) are inverse", "statement": "log(exp(phi)) = phi for every relative rotation with norm in the general branch and < pi; exp(log(R)) = R for every rotation whose angle is in the general branch and < pi; exp(phi) is the rotation by |phi| about phi/|phi| (Rodrigues).", "quantifier": "all vectors / rotations in the stated ranges", "why_tests_cant": "Transcendental identity over a continuum.", "anchors": ["include/wave/geometry/src/geometry/leaf/RelativeRotation.hpp:evalImpl(expr<ExpMap>)", "include/wave/geometry/src/geometry/leaf/MatrixRotation.hpp:evalImpl(expr<LogMap>)"]}
{"id": "C18", "title": "exp of a small relative rotation is a valid rotation close to the exact one", "statement": "In the small-angle branch the returned quaternion is unit norm and equals the exact exponential to within the accuracy of the dropped Taylor terms.", "quantifier": "all vectors with |phi|^4 <= machine epsilon", "why_tests_cant": "Continuum of inputs; errors of 1e-9 are hidden by test tolerances.", "anchors": ["include/wave/geometry/src/geometry/leaf/RelativeRotation.hpp:evalImpl(expr<ExpMap>)"]}
{"id": "C19", "title": "Box-plus and box-minus are inverse to one another", "statement": "x [+] (y [-] x) = y and (x [+] d) [-] x = d on SO(3) and on SE(3), in the stated angle range; + and - operators build exactly these.", "quantifier": "all valid x,y with relative angle in the general branch and < pi, all d likewise", "why_tests_cant": "Universally quantified.", "anchors": ["include/wave/geometry/src/geometry/op/BoxPlus.hpp", "include/wave/geometry/src/geometry/op/BoxMinus.hpp", "include/wave/geometry/src/geometry/op/Compose.hpp:ComposeFlipped"]}
{"id": "C20", "title": "exp and log of SE(3) are inverse", "statement": "log(exp(xi)) = xi for every twist whose rotation part is < pi, exp(log(T)) = T for every rigid transform with rotation angle < pi; including small angles.", "quantifier": "all twists / rigid transforms in the range", "why_tests_cant": "Transcendental identity over a continuum including a branch.", "anchors": ["include/wave/geometry/src/geometry/leaf/Twist.hpp:evalImpl(expr<ExpMap>)", "include/wave/geometry/src/geometry/base/RigidTransformBase.hpp:evalImpl(expr<LogMap>)"]}
{"id": "C21", "title": "Jacobians of exp and log are inverse matrices", "statement": "The local Jacobian returned for log at R=exp(phi) times the local Jacobian returned for exp at phi is the identity matrix, in both orders (SO(3) and SE(3)).", "quantifier": "all phi / twists in the general branch below 2*pi", "why_tests_cant": "Continuum.", "anchors": ["include/wave/geometry/src/geometry/op/LogMap.hpp:jacobianImpl", "include/wave/geometry/src/geometry/leaf/RelativeRotation.hpp:jacobianImpl", "include/wave/geometry/src/geometry/leaf/Twist.hpp:jacobianImpl", "include/wave/geometry/src/geometry/base/RigidTransformBase.hpp:jacobianImpl(expr<LogMap>)"]}
{"id": "C22", "title": "Jacobians are finite wherever the function is differentiable", "statement": "exp and log are smooth at zero, so jacobian() of exp at the zero vector and of log at the identity must be defined (no 0/0) and equal to the identity matrix; on SO(3) and SE(3).", "quantifier": "the zero/identity point (all leaf parametrizations)", "why_tests_cant": "Random tests hit the singular point with probability zero.", "anchors": ["include/wave/geometry/src/geometry/op/LogMap.hpp:jacobianImpl", "include/wave/geometry/src/geometry/leaf/Twist.hpp:jacobianImpl"]}
{"id": "C23", "title": "Coordinate-frame checking is sound", "statement": "If a framed expression compiles, then its evaluated value is the geometric quantity its result frames announce, whenever every framed leaf holds the quantity its own frames announce (for one common placement of all frames in space).", "quantifier": "all framed expressions, all placements of all frames", "why_tests_cant": "Quantifies over all programs and all worlds.", "anchors": ["include/wave/geometry/src/geometry/frames/frame_traits.hpp", "include/wave/geometry/src/geometry/op/Sum.hpp", "include/wave/geometry/src/geometry/op/Subtract.hpp", "include/wave/geometry/src/geometry/op/Rotate.hpp", "include/wave/geometry/src/geometry/op/Transform.hpp", "include/wave/geometry/src/geometry/op/Compose.hpp", "include/wave/geometry/src/geometry/op/BoxPlus.hpp", "include/wave/geometry/src/geometry/op/BoxMinus.hpp", "include/wave/geometry/src/geometry/op/LogMap.hpp", "include/wave/geometry/src/geometry/op/ExpMap.hpp", "include/wave/geometry/src/geometry/op/Minus.hpp", "include/wave/geometry/src/geometry/op/Inverse.hpp"]}
{"id": "C24", "title": "Coordinate-frame mismatches are rejected", "statement": "Composition, rotation, transformation, addition and subtraction whose operand frames do not chain are rejected at compile time; an expression whose operands carry no frames is never rejected for frames.", "quantifier": "all operand frame combinations", "why_tests_cant": "Compile-time rejection cannot be observed in a unit test suite that must compile.", "anchors": ["include/wave/geometry/src/geometry/frames/frame_traits.hpp:same_frames", "include/wave/geometry/src/geometry/op/*.hpp static_asserts"]}
{"id": "C25", "title": "Frames have no effect on computed values", "statement": "Erasing all frame annotations of a well-framed expression changes neither the evaluated numbers nor any Jacobian; frame_cast changes only the annotation.", "quantifier": "all framed expressions and leaf values", "why_tests_cant": "Quantifies over all expressions.", "anchors": ["include/wave/geometry/src/geometry/frames/Framed.hpp:evalImpl", "include/wave/geometry/src/geometry/frames/frame_cast.hpp"]}
{"id": "C26", "title": "Expressions built from temporaries do not dangle", "statement": "An expression object built by the operators from any mix of temporaries and named objects stays evaluable, with the value of the expression written, as long as the named leaves and named expressions it mentions (and proxy targets) live: no reference to a destroyed temporary is stored. Exceptions, which do dangle: const temporaries, and ref() of a temporary Dynamic.", "quantifier": "all construction sequences mixing lvalues, const lvalues and rvalues of any nesting", "why_tests_cant": "Dangling references are undefined behaviour which may go unnoticed in tests.", "anchors": ["include/wave/geometry/src/core/storage/RefSelector.hpp:arg_selector,storage_selector,arg_t,cr_arg_t", "include/wave/geometry/src/util/macros.hpp", "include/wave/geometry/src/core/storage/UnaryStorage.hpp", "include/wave/geometry/src/core/storage/BinaryStorage.hpp"]}
{"id": "C27", "title": "Expressions are lazy: named leaves are read at evaluation time, temporaries are copied at construction", "statement": "After modifying a named leaf, evaluating an already built expression uses the new value; modifying anything else does not change the result.", "quantifier": "all construction/mutation/evaluation histories", "why_tests_cant": "All histories.", "anchors": ["include/wave/geometry/src/core/storage/RefSelector.hpp", "include/wave/geometry/src/core/functions/Evaluator.hpp"]}
{"id": "C28", "title": "Dynamic expressions never return stale results", "statement": "eval and Jacobians of expressions containing Dynamic/Proxy/RefProxy nodes always reflect the current leaf values and current bindings, although each Dynamic node caches its evaluator: after any history of leaf changes, rebinding, evaluations and derivative calls the result equals that of evaluating from scratch.", "quantifier": "all histories of calls on all proxy graphs", "why_tests_cant": "Staleness depends on the history of calls.", "anchors": ["include/wave/geometry/src/dynamic/Dynamic.hpp:evaluator,constructEvaluator,dynEvaluate,dynJacobian,dynReverseImpl", "include/wave/geometry/src/dynamic/Proxy.hpp:Evaluator"]}
{"id": "C29", "title": "A Proxy behaves like the expression it wraps", "statement": "Replacing a Proxy or RefProxy by the expression it refers to changes neither the value, nor forward, dynamic, reverse Jacobians with respect to leaves; differentiating with respect to the proxy treats it as an independent variable.", "quantifier": "all expressions with proxies nested to any depth", "why_tests_cant": "Unbounded nesting.", "anchors": ["include/wave/geometry/src/dynamic/Proxy.hpp:Evaluator,DynamicJacobianEvaluator,JacobianEvaluator,DynamicReverseJacobianEvaluator,getLeaves", "include/wave/geometry/src/dynamic/RefProxy.hpp"]}
{"id": "C30", "title": "Rebinding a proxy does not disturb expressions built earlier", "statement": "Assigning to a Proxy/RefProxy rebinds that proxy only: expressions previously built from it keep referring to the old target, and a Proxy's target lives as long as any copy.", "quantifier": "all histories of copy, rebind, destroy", "why_tests_cant": "Aliasing and lifetime over all histories.", "anchors": ["include/wave/geometry/src/dynamic/Proxy.hpp:Proxy,arg_selector", "include/wave/geometry/src/dynamic/RefProxy.hpp"]}
{"id": "C31", "title": "Block access of a block Jacobian partitions the matrix", "statement": "For any list of row and column block sizes, the blocks selected by (row index, column index) are in bounds, pairwise disjoint and together cover the matrix; rowsWrt/colsWrt select the corresponding bands.", "quantifier": "all block lists and indices", "why_tests_cant": "All template parameter packs.", "anchors": ["include/wave/geometry/src/core/storage/BlockMatrix.hpp", "include/wave/geometry/src/util/meta/type_list.hpp:cumulative_index_sequence"]}
{"id": "C32", "title": "Compound values behave element by element", "statement": "Box-plus, box-minus, isApprox and conversion to a plain vector of a compound act element by element in order; the box axioms hold for compounds whenever they hold for the elements; the offsets used are the prefix sums of the tangent sizes.", "quantifier": "all element lists", "why_tests_cant": "All parameter packs.", "anchors": ["include/wave/geometry/src/geometry/base/CompoundBase.hpp", "include/wave/geometry/src/core/storage/NaryStorage.hpp:valueAsVector,compoundIsApprox", "include/wave/geometry/src/util/meta/type_list.hpp:elementwisePlusTo"]}
{"id": "C33", "title": "MatrixMap keeps one independent block per key", "statement": "After construction from any list of (key,width) pairs, blocks of different keys do not overlap, updating one block leaves every other unchanged, duplicates of a key refer to one block, and all blocks lie inside the storage.", "quantifier": "all key/width lists, all update histories", "why_tests_cant": "All inputs and histories.", "anchors": ["include/wave/geometry/src/util/math/MatrixMap.hpp"]}
{"id": "C34", "title": "Uniqueness of leaves is decided exactly", "statement": "The library uses type-identified Jacobians / static reverse mode if and only if no leaf type occurs twice in the expression.", "quantifier": "all expression types", "why_tests_cant": "Decided by a template metaprogram over arbitrary trees.", "anchors": ["include/wave/geometry/src/core/traits/type_traits.hpp:has_unique_leaves_binary", "include/wave/geometry/src/util/meta/type_list.hpp:concat_if_unique,concat_if_unique_many,find"]}
{"id": "C35", "title": "CrossMatrix behaves like the 3x3 skew-symmetric matrix", "statement": "Every specialised product, sum, negation and conversion of crossMatrix(v) gives the same result as the dense 3x3 matrix [v]x: [v]x w = v x w, transposed/negated variants, products with 3xN and Nx3 matrices and with another cross matrix; uncrossMatrix(crossMatrix(v)) = v.", "quantifier": "all vectors and all 3xN / Nx3 matrices", "why_tests_cant": "All sizes and values.", "anchors": ["include/wave/geometry/src/util/math/CrossMatrix.hpp", "include/wave/geometry/src/util/math/math.hpp:uncrossMatrix"]}
{"id": "C36", "title": "IdentityMatrix is neutral", "statement": "Multiplying by the symbolic identity on either side, evaluating it, transposing or inverting it behaves as the dense identity, and skipping it in Jacobian products never changes a Jacobian.", "quantifier": "all matrices of all sizes", "why_tests_cant": "All sizes and values.", "anchors": ["include/wave/geometry/src/util/math/IdentityMatrix.hpp"]}
{"id": "C37", "title": "Random rotations are valid", "statement": "Whatever the uniform random source returns in [0,1], a random rotation is a unit quaternion.", "quantifier": "all outcomes of the random source", "why_tests_cant": "All random draws.", "anchors": ["include/wave/geometry/src/util/math/math.hpp:randomQuaternion"]}
{"id": "C38", "title": "Noise models whiten", "statement": "For the noise built from covariance S, normalising a residual r with it gives L r with L*S*L^T = I (full, diagonal and scalar noise; std-dev and covariance constructions agree).", "quantifier": "all covariance matrices of all sizes (diagonal: positive variances)", "why_tests_cant": "All sizes and values.", "anchors": ["include/wave/geometry/src/estimation/Noise.hpp:FullNoise,DiagonalNoise"]}
{"id": "C39", "title": "Factor residual", "statement": "evaluate() of a factor returns the normalised difference between the measurement function at the variables and the measured value; it is zero exactly when the prediction equals the measurement, and variables are passed in order.", "quantifier": "all measurement functions, values and noises", "why_tests_cant": "All functions and values.", "anchors": ["include/wave/geometry/src/estimation/impl/Factor_impl.hpp:evaluate", "include/wave/geometry/src/estimation/Factor.hpp"]}
{"id": "C40", "title": "Factor Jacobians are the derivatives of the returned residual", "statement": "The Jacobians written by a factor's evaluateWithJacobians are the derivatives of the (normalised) residual it returns, as documented.", "quantifier": "all measurement functions and noises", "why_tests_cant": "All functions and noises; unit-noise tests cannot see the missing scaling.", "anchors": ["include/wave/geometry/src/estimation/impl/Factor_impl.hpp:evaluateWithJacobians", "include/wave/geometry/src/estimation/Factor.hpp"]}
{"id": "C41", "title": "Identity and Zero leaves behave like the value they stand for", "statement": "Every operation on the symbolic Identity/Zero leaves gives the same represented result as the operation on the explicit identity transform/zero vector.", "quantifier": "all operations and all other operands", "why_tests_cant": "Overload set special cases across all types.", "anchors": ["include/wave/geometry/src/geometry/leaf/Identity.hpp", "include/wave/geometry/src/geometry/leaf/Zero.hpp"]}
{"id": "C42", "title": "Vector arithmetic laws", "statement": "(a+b)-b=a, -(-a)=a, a-b=a+(-b), s*v=v*s, (v/s)*s=v, norm()^2=squaredNorm(), |normalized()|=1, dot(v,v)=squaredNorm(), point/vector affine laws p+(q-p)=q.", "quantifier": "all vectors and non-zero scalars", "why_tests_cant": "All values.", "anchors": ["include/wave/geometry/src/geometry/base/VectorBase.hpp", "include/wave/geometry/src/geometry/base/AffineBase.hpp", "include/wave/geometry/src/geometry/base/ScalarBase.hpp"]}
{"id": "C43", "title": "isApprox is a sound tolerance test", "statement": "isApprox on rotations and rigid transforms accepts equal transforms in any parametrization and is symmetric; for rotations it accepts every pair whose relative angle is within the tolerance, and an accepted pair differs by an angle of at most sqrt(3) times the tolerance (outside the small-angle range). On vectors, points and scalars it accepts exactly when the distance is at most the tolerance times the smaller norm; isZero accepts exactly when every coordinate is within the tolerance.", "quantifier": "all values and tolerances", "why_tests_cant": "All values.", "anchors": ["include/wave/geometry/src/geometry/base/AffineBase.hpp:isApprox", "include/wave/geometry/src/geometry/base/TransformBase.hpp:isApprox", "include/wave/geometry/src/core/storage/NaryStorage.hpp:compoundIsApprox"]}
{"id": "C44", "title": "Member access reads and writes exactly one part", "statement": "rotation()/translation() of a transform or twist return the corresponding part; assigning to them replaces exactly that part with the evaluated right-hand side (also when the right-hand side mentions the same transform) and leaves the other part unchanged.", "quantifier": "all transforms, all right-hand sides", "why_tests_cant": "Aliasing over all expressions.", "anchors": ["include/wave/geometry/src/core/op/MemberAccess.hpp", "include/wave/geometry/src/geometry/base/TransformBase.hpp:RotationGetter,TranslationGetter", "include/wave/geometry/src/geometry/leaf/Twist.hpp"]}
{"id": "C45", "title": "Evaluating into a chosen result type only converts the result", "statement": "Assigning an expression to a leaf of another parametrization gives the same represented value as evaluating it normally, and its Jacobians are those of the unconverted expression.", "quantifier": "all expressions and destination types", "why_tests_cant": "All expression/destination pairs.", "anchors": ["include/wave/geometry/src/core/functions/PrepareOutput.hpp:prepareEvaluatorTo,evaluateTo", "include/wave/geometry/src/core/op/Convert.hpp", "include/wave/geometry/src/core/storage/LeafStorage.hpp"]}
{"id": "C46", "title": "Jacobians with respect to several variables describe their joint motion", "statement": "When several variables of an expression change at the same time, the value of the expression changes, to first order, by the sum over the variables of (Jacobian with respect to the variable) times (tangent-space velocity of the variable). This holds for the separately requested forward Jacobians and for the set returned by one reverse-mode call, and for variables that occur several times.", "quantifier": "all expressions, all sets of variables occurring in them, all simultaneous motions", "why_tests_cant": "Multivariate differentiability over all expressions and directions; tests perturb one variable at a time.", "anchors": ["include/wave/geometry/src/core/functions/DynamicJacobianEvaluator.hpp", "include/wave/geometry/src/core/functions/DynamicReverseJacobianEvaluator.hpp", "include/wave/geometry/src/core/functions/JacobianEvaluator.hpp"]}
{"id": "C47", "title": "Naming an intermediate result changes neither value nor derivatives", "statement": "Evaluating a sub-expression into a variable and using that variable gives the same value as writing the sub-expression in place; the Jacobian of the whole is the Jacobian with respect to the intermediate variable times the Jacobian of the sub-expression (plus the direct Jacobian if the target also occurs elsewhere).", "quantifier": "all expressions, all choices of sub-expression", "why_tests_cant": "All factorizations of all expressions.", "anchors": ["include/wave/geometry/src/core/functions/PrepareOutput.hpp:eval", "include/wave/geometry/src/core/functions/JacobianEvaluator.hpp", "include/wave/geometry/src/core/functions/DynamicJacobianEvaluator.hpp"]}
{"id": "C48", "title": "Leaves over foreign memory read, write and differentiate that memory", "statement": "A leaf that maps memory it does not own (an Eigen map or block, a reference to a double) reads its value from exactly the cells of its layout; assigning an expression to it writes the evaluated value there, also when the expression reads the same memory, and changes no other cell; expressions over disjoint memory keep their values. The rotation and translation blocks of a mapped transform or twist are views of exactly those parts. When several leaves map the same memory, the value of the expression moves with the sum of their Jacobians. The raw array of a factor variable is contiguous and determines, and is determined by, the variable's value.", "quantifier": "all memories, layouts, expressions, and sets of leaves over the same memory", "why_tests_cant": "Aliasing between arbitrary views and expressions.", "anchors": ["include/wave/geometry/src/core/storage/LeafStorage.hpp", "include/wave/geometry/src/geometry/leaf/Scalar.hpp", "include/wave/geometry/src/geometry/leaf/Twist.hpp:rotationBlock,translationBlock", "include/wave/geometry/src/geometry/leaf/MatrixRigidTransform.hpp:rotationBlock,translationBlock", "include/wave/geometry/src/estimation/FactorVariable.hpp"]}
{"id": "C49", "title": "Products and applications of rotations in double precision stay close to the exact ones", "statement": "Composing a chain of rotation matrices in double precision gives a matrix whose entries differ from the exact product by at most the number of factors times (six times the error of a factor plus 2^-48); it stays orthonormal to nine times that bound. Products of quaternions satisfy the same with four times the error of a factor plus 2^-47, and their norm, which is never restored, drifts no faster. Rotating a vector by a matrix or a quaternion, transforming a point by a rigid transform, converting a quaternion to a matrix and inverting have errors proportional to the lengths involved (plus a subnormal). The translation of a chain of n rigid transforms is off by at most 2 n^2 times that error times the longest translation.", "quantifier": "all chains of any length for which the bound is below one, all finite vectors of length up to 2^900, every order of summation and use of fused multiply-add", "why_tests_cant": "Rounding errors of all chains, not of one.", "anchors": ["include/wave/geometry/src/geometry/leaf/MatrixRotation.hpp:Compose,Rotate", "include/wave/geometry/src/geometry/leaf/QuaternionRotation.hpp:Compose,Rotate,Inverse,Convert", "include/wave/geometry/src/geometry/base/RigidTransformBase.hpp:Compose,Inverse", "include/wave/geometry/src/geometry/base/TransformBase.hpp:Transform"]}
{"id": "C50", "title": "The exponential map in double precision yields a unit quaternion close to the exact one", "statement": "exp() of a relative rotation in double precision never overflows or yields NaN, its squared norm is within 2^-47 of one, and its components are within 2^-43 + 2^-49 |v| of those of a unit quaternion of the exact rotation.", "quantifier": "all finite vectors of length up to 2^401, all mathematical libraries with error below one ulp, every order of summation", "why_tests_cant": "All doubles on both sides of the branch.", "anchors": ["include/wave/geometry/src/geometry/leaf/RelativeRotation.hpp:ExpMap"]}
{"id": "C51", "title": "The logarithm of a rigid transform in double precision is close to the exact one", "statement": "log() of a rigid transform whose matrix is the correctly rounded matrix of a transform gives a twist close to the exact one.", "quantifier": "all rigid transforms with rotation angle below pi", "why_tests_cant": "Cancellation near the threshold is invisible unless tests sample there.", "anchors": ["include/wave/geometry/src/geometry/base/RigidTransformBase.hpp:LogMap"]}
{"id": "C52", "title": "The Jacobian of the logarithm of a rotation in double precision is close to the exact one", "statement": "For rotation vectors of non-zero finite length the computed Jacobian of log() has finite entries close to the exact Jacobian.", "quantifier": "all non-zero rotation vectors", "why_tests_cant": "All doubles close to zero.", "anchors": ["include/wave/geometry/src/geometry/op/LogMap.hpp"]}
{"id": "C53", "title": "The Jacobian of the exponential of a twist in double precision is close to the exact one", "statement": "For twists with non-zero rotation the computed coupling block (derivative of the translation with respect to the rotation part) is close to the exact one.", "quantifier": "all twists with non-zero rotation", "why_tests_cant": "All doubles close to zero.", "anchors": ["include/wave/geometry/src/geometry/leaf/Twist.hpp:ExpMap jacobianImpl"]}
{"id": "C54", "title": "The logarithm of a rotation in double precision is close to the exact one away from half turns", "statement": "log() of a rotation by v stored as a matrix with error d in each entry is finite and within (20 d + 2^-45)/(1 + cos|v|) of v; so log(exp(v)), the logarithm of a chain of rotations and the boxminus of two rotations are close to the exact values.", "quantifier": "all rotation vectors of length below pi with d + 2^-50 <= (1 + cos|v|)/64, all stored matrices within d, every order of summation, every C library with errors below one ulp", "why_tests_cant": "The bound is about all doubles and includes matrices whose computed cosine exceeds one.", "anchors": ["include/wave/geometry/src/geometry/leaf/MatrixRotation.hpp:LogMap", "include/wave/geometry/src/geometry/op/BoxMinus.hpp"]}
{"id": "C55", "title": "The logarithm of a correctly rounded rotation matrix is close to the exact one up to half turns", "statement": "log() of the matrix of doubles nearest to a rotation by less than a half turn is close to the rotation vector.", "quantifier": "all rotations by less than a half turn", "why_tests_cant": "Only matrices within about 1e-8 of a half turn are affected.", "anchors": ["include/wave/geometry/src/geometry/leaf/MatrixRotation.hpp:LogMap"]}
{"id": "C56", "title": "Evaluating an expression in double precision gives a finite value close to the exact one", "statement": "Whatever expression is evaluated in double precision, the result contains no infinity or NaN and is close to the exact value of the expression: its relative error is (1 + d + 2^-44)^k - 1, where d is the error of the leaves and k is counted from the operations; without exponentials and logarithms it is at most 146 n^2 (d + 2^-44) in the coordinates and 32 n (d + 2^-44) in the rotation for n operands and operations, if no matrix is converted to a quaternion.", "quantifier": "all expression trees of the modelled operations on scalars, vectors, points, quaternions, rotation matrices and rigid transforms, including the conversions the library inserts, all stored leaves within d of their meaning, every order of summation at every node; intermediate values up to 2^400, total error below 1/2000, exponentials of vectors up to length 4, logarithms up to 3 radians, divisors and normalized vectors at least half as large as the bound on their size, arc cosines of numbers of size up to 0.9", "why_tests_cant": "A statement about all trees, all doubles and all compilers' choices at once.", "anchors": ["include/wave/geometry/src/core/functions/Evaluator.hpp", "include/wave/geometry/src/core/functions/PrepareOutput.hpp", "include/wave/geometry/src/core/functions/AddConversions.hpp", "include/wave/geometry/src/geometry/base/VectorBase.hpp", "include/wave/geometry/src/geometry/base/RigidTransformBase.hpp"]}
{"id": "C57", "title": "isSame(a, b) tells whether two expressions are the same function of the same objects", "statement": "isSame(a, b) is true exactly if the two expression objects have the same C++ type and apply the same operations to the same leaf objects (for proxies: to proxies of the same Dynamic). It is an equivalence; two expressions that are the same keep having equal values and Jacobians whatever is assigned to leaves later; a copy of an expression is the same as the original exactly if no leaf is stored inside it by value.", "quantifier": "all programs that build expressions from named objects, temporaries, moved objects, Dynamics and proxies; all pairs of live objects; all later leaf values", "why_tests_cant": "Tests compare a handful of expressions; the property ranges over all trees and storage choices.", "anchors": ["include/wave/geometry/src/core/functions/IsSame.hpp:isSame", "include/wave/geometry/src/dynamic/Proxy.hpp:isSame"]}
{"id": "C58", "title": "Evaluating and differentiating expressions from several threads", "statement": "Threads that evaluate and differentiate (const) expressions and assign to leaves do not disturb one another unless one assigns a leaf another uses: under every interleaving there is no data race, every thread ends, gets the answers it would get alone, and assigns the values it would assign alone.", "quantifier": "all expression objects, all numbers of threads, all sequences of calls per thread, all interleavings of their accesses to leaves and cached evaluators", "why_tests_cant": "Tests run one interleaving at a time and a data race need not show.", "anchors": ["include/wave/geometry/src/dynamic/Dynamic.hpp:constructEvaluator, lazy_evaluator", "include/wave/geometry/src/dynamic/Proxy.hpp:Evaluator", "include/wave/geometry/src/core/functions/Evaluator.hpp", "include/wave/geometry/src/core/storage/LeafStorage.hpp"]}
{"id": "C59", "title": "Jacobians computed in double precision are finite and close to the derivative", "statement": "Whatever expression is differentiated in double precision with respect to one of its objects, every entry of the returned matrix is finite and the matrix is close to the derivative of the expression: the root of the summed squares of the errors, relative to the product of how much the local Jacobians on the way to the object can stretch a vector, is (1 + d + 2^-44)^k - 1, where d is the error of the leaves and k is counted from the operations; without exponentials, logarithms and square roots it is at most 3792 n^3 (d + 2^-44) for n operands and operations. With respect to an object that does not occur in it, the matrix is exactly zero.", "quantifier": "all expression trees of the modelled operations; between the root and the object no division or arc cosine, norms and normalized vectors only of vectors at least half as long as the bound on their length, logarithms only of rotations by 1/16 to 3 radians and exponentials only of rotation vectors of 1/16 to 4 radians or below 2^-27; all stored leaves within d of their meaning, and every order, grouping and fusing of the additions in every entry of every matrix product; values and Jacobian sizes up to 2^400, total error below 1/2000", "why_tests_cant": "A statement about all trees, all doubles and all compilers' choices at once; tests compare with numerical derivatives up to a tolerance.", "anchors": ["include/wave/geometry/src/core/functions/JacobianEvaluator.hpp", "include/wave/geometry/src/core/functions/TypedJacobianEvaluator.hpp", "include/wave/geometry/src/core/functions/DynamicJacobianEvaluator.hpp", "include/wave/geometry/src/geometry/base/TransformBase.hpp", "include/wave/geometry/src/geometry/base/RigidTransformBase.hpp", "include/wave/geometry/src/geometry/base/VectorBase.hpp", "include/wave/geometry/src/util/math/CrossMatrix.hpp", "include/wave/geometry/src/geometry/leaf/RelativeRotation.hpp", "include/wave/geometry/src/geometry/op/LogMap.hpp"]}
{"id": "C60", "title": "Reverse-mode Jacobians computed in double precision are close to the derivatives", "statement": "evalWithJacobians() without a target and the dynamic reverse mode, in double precision, return for every object of the expression a finite matrix close to the derivative: the root of the summed squares of its errors, relative to the product of how much the local Jacobians on the way to the object can stretch a vector (summed over its occurrences), is (1 + d + 2^-44)^k - 1, where d is the error of the leaves and k is counted from the operations; without exponentials, logarithms and square roots it is at most 3794 n^3 (d + 2^-44) for n operands and operations. Forward and reverse mode differ by at most the sum of their errors. If two leaves have the same type the static call does not exist; for an object that does not occur the dynamic result is exactly zero.", "quantifier": "all expression trees of the modelled operations without division or arc cosine, norms and normalized vectors only of vectors at least half as long as the bound on their length, logarithms only of rotations by 1/16 to 3 radians and exponentials only of rotation vectors of 1/16 to 4 radians or below 2^-27, all stored leaves within d of their meaning, and every order, grouping and fusing of the additions in every entry of every matrix product; values and products up to 2^400, total error below 1/2000", "why_tests_cant": "A statement about all trees, all doubles and all compilers' choices at once; tests compare both modes up to a tolerance on a few expressions.", "anchors": ["include/wave/geometry/src/core/functions/ReverseJacobianEvaluator.hpp", "include/wave/geometry/src/core/functions/DynamicReverseJacobianEvaluator.hpp", "include/wave/geometry/src/util/math/MatrixMap.hpp"]}
{"id": "C61", "title": "Conversion of a rotation matrix to a quaternion in double precision is accurate for every rotation", "statement": "A stored rotation matrix within e of a rotation becomes a finite quaternion within 15 e + 2^-43 of a unit quaternion of that rotation, also near half turns and where the rounded entries select another case of the algorithm than the exact ones would. Converting there and back returns the same matrix up to 225 e + 2^-39, and the same quaternion or its opposite up to 225 e + 2^-39.", "quantifier": "all rotations, all stored matrices within 1/1000 of one (round trips: within 1/20000), all orders of summation", "why_tests_cant": "The set of rotations is a continuum, and the critical ones (half turns, equal diagonal entries) have measure zero.", "anchors": ["include/wave/geometry/src/geometry/leaf/QuaternionRotation.hpp:evalImpl(expr<Convert, QuaternionRotation>)", "include/wave/geometry/src/geometry/leaf/CompactRigidTransform.hpp:evalImpl(expr<Convert, CompactRigidTransform>)", "include/wave/geometry/src/geometry/base/RigidTransformBase.hpp:evalImpl(expr<Compose>)"]}
{"id": "C62", "title": "normalize() returns a unit vector and angles between vectors are accurate, in double precision", "statement": "For every finite nonzero vector v, normalize(v) in double precision is v / |v| up to rounding, so its length is 1 up to rounding; for every two such vectors acos(dot(normalize(v), normalize(w))) is finite and close to the angle between them.", "quantifier": "all vectors of doubles, every order of summation at every node, every C library with errors below one unit in the last place", "why_tests_cant": "All pairs of double vectors; failures need coordinates whose squares leave the range of doubles, or nearly parallel vectors.", "anchors": ["include/wave/geometry/src/geometry/base/VectorBase.hpp:evalImpl(expr<Normalize>)", "include/wave/geometry/src/geometry/base/VectorBase.hpp:evalImpl(expr<Dot>)", "include/wave/geometry/src/geometry/base/ScalarBase.hpp:evalImpl(expr<ACos>)"]}
