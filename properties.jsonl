{"id": "C01", "title": "Forward kinematics composes the parent chain", "statement": "For every skeleton that satisfies the constructor's check (each parent index is smaller than the joint's own index or 'no parent'), SkeletonState gives each joint a world transform equal to the composition, from the root down to the joint, of (translate by offset + tx,ty,tz) * preRotation * Rz * Ry * Rx * scale 2^s of every joint on its parent chain; a world point of a joint equals that composition applied to the local point.", "quantifier": "every valid skeleton (any number of joints, any tree or forest shape), every joint parameter vector, every joint and local point", "why_tests_cant": "tests build a handful of skeletons; the statement is about all trees of any depth and all real parameter values", "anchors": ["momentum/character/joint_state.cpp:JointStateT::set", "momentum/character/skeleton_state.cpp:SkeletonStateT::set", "momentum/math/transform.h:TransformT::operator*"]}
{"id": "C02", "title": "Forward kinematics is local to the subtree", "statement": "Changing the 7 joint parameters of joint k leaves the world transform (and the derivative axes) of every joint that is not k or a descendant of k unchanged.", "quantifier": "every valid skeleton, every pair of joint parameter vectors that differ only in joint k's block, every joint", "why_tests_cant": "needs all tree shapes and all parameter pairs", "anchors": ["momentum/character/skeleton_state.cpp:SkeletonStateT::set", "momentum/character/skeleton.cpp:SkeletonT::isAncestor"]}
{"id": "C03", "title": "Joint derivative accessors are the true partial derivatives", "statement": "For every joint j, every ancestor a of j (including j) and every point q fixed in joint j's frame with world position x: getTranslationDerivative(d) of a is d x / d t_d, getRotationDerivative(d, x - translation(a)) is d x / d r_d and getScaleDerivative(x - translation(a)) is d x / d s, where t_d, r_d, s are joint a's parameters.", "quantifier": "every skeleton chain of any length, every parameter value (real), every attached point, each of the 7 parameters", "why_tests_cant": "finite-difference tests only sample; the derivative identity has to hold everywhere", "anchors": ["momentum/character/joint_state.cpp:getRotationDerivative", "momentum/character/joint_state.cpp:getTranslationDerivative", "momentum/character/joint_state.cpp:getScaleDerivative", "momentum/character/joint_state.cpp:JointStateT::set"]}
{"id": "C04", "title": "Rigid transforms form a group and act on points", "statement": "Composition of transforms (rotation, translation, uniform scale) is associative with the identity as unit; for a unit rotation and nonzero scale inverse() is a two-sided inverse; (a*b)*p = a*(b*p); and toAffine3 / toMatrix agree with the action on points.", "quantifier": "all transforms with unit quaternion and nonzero scale, all points", "why_tests_cant": "algebraic law over an infinite domain", "anchors": ["momentum/math/transform.h:TransformT", "momentum/math/transform.cpp"]}
{"id": "C05", "title": "World rotations stay unit and scales stay positive", "statement": "If every joint's preRotation is a unit quaternion then every world and local rotation produced by forward kinematics is a unit quaternion and every scale is strictly positive, so every world transform is invertible.", "quantifier": "every valid skeleton with unit pre-rotations, every parameter vector", "why_tests_cant": "invariant by induction over the whole hierarchy", "anchors": ["momentum/character/joint_state.cpp:JointStateT::set", "momentum/math/transform.h:inverse"]}
{"id": "C06", "title": "isAncestor decides the ancestor relation", "statement": "On a valid skeleton isAncestor(j, a) terminates, never reads out of bounds, and returns true exactly when a is reachable from j by zero or more parent steps.", "quantifier": "every valid skeleton, every pair of joint indices", "why_tests_cant": "all trees; termination needs the parent<child invariant", "anchors": ["momentum/character/skeleton.cpp:isAncestor", "momentum/character/skeleton.cpp:SkeletonT"]}
{"id": "C07", "title": "commonAncestor returns the deepest common ancestor", "statement": "On a valid skeleton commonAncestor(a,b) terminates; if a and b have a common ancestor the result is one, and every other common ancestor is an ancestor of it; if they have none the result is kInvalidIndex; the result does not depend on the argument order.", "quantifier": "every valid skeleton (including several roots), every pair of joint indices or kInvalidIndex", "why_tests_cant": "needs all trees and forests; the multi-root case is where it fails", "anchors": ["momentum/character/skeleton.cpp:commonAncestor"]}
{"id": "C08", "title": "Parameter transform is affine and its two overloads agree", "statement": "apply(ModelParameters p) equals transform*p + offsets; apply(CharacterParameters{pose=p, no offsets}) gives the same joint parameters as apply(p).", "quantifier": "every transform, every parameter vector of matching size", "why_tests_cant": "all matrices and vectors; the overloads disagree when the transform has offsets", "anchors": ["momentum/character/parameter_transform.cpp:apply"]}
{"id": "C09", "title": "Subsetting a parameter transform commutes with zero padding", "statement": "For a parameter subset S, applying the reduced transform to the values of the kept parameters gives the same joint parameters as applying the original to the full vector in which all dropped parameters are zero; kept parameters keep their names and order; a joint parameter is active in the result only if a kept parameter drives it.", "quantifier": "every sparse transform, every parameter set, every parameter vector", "why_tests_cant": "all matrices, sets and vectors", "anchors": ["momentum/character/parameter_transform.cpp:subsetParameterTransform", "momentum/character/parameter_transform.cpp:simplify"]}
{"id": "C10", "title": "Subsetting keeps parameter sets, pose constraints and limits consistent", "statement": "After subsetting, a parameter set contains a new parameter exactly when the old set contained the old parameter; pose constraints and limits refer to the same named parameters as before; a limit is dropped exactly when it refers to a dropped parameter; no limit or pose constraint of the result refers to a parameter that does not exist.", "quantifier": "every transform, limit list and parameter set whose indices are in range", "why_tests_cant": "all combinations of index remappings", "anchors": ["momentum/character/parameter_transform.cpp:subsetParameterTransform"]}
{"id": "C11", "title": "Mapping joints keeps the joint parameters of mapped joints", "statement": "mapParameterTransformJoints with an injective map: the joint parameters of each mapped joint computed by the new transform equal the original joint's, joints not in the image get zero, and no model parameter is added, removed or renamed; blend-shape and face-expression parameter indices survive.", "quantifier": "every transform, every injective partial joint map, every parameter vector", "why_tests_cant": "all matrices and maps", "anchors": ["momentum/character/parameter_transform.cpp:mapParameterTransformJoints"]}
{"id": "C12", "title": "Model definition parsing terminates", "statement": "parseParameterTransform terminates for every input text.", "quantifier": "every channel-expression list", "why_tests_cant": "termination over all inputs; a self-referencing channel makes the triplet loop grow the list it iterates over", "anchors": ["momentum/io/skeleton/parameter_transform_io.cpp:parseParameter"]}
{"id": "C13", "title": "A channel that refers to another joint channel copies its dependence", "statement": "After parsing a list of channel expressions in which each reference names a channel defined earlier (and not itself), each channel's row of the transform equals the weighted sum of its parameters plus weight times the referenced row, and every new parameter name gets exactly one column.", "quantifier": "every list of channel expressions without self reference", "why_tests_cant": "all programs of the little language, any length and any reference depth", "anchors": ["momentum/io/skeleton/parameter_transform_io.cpp:parseParameter", "momentum/io/skeleton/parameter_transform_io.cpp:parseParameterTransform"]}
{"id": "C14", "title": "Robust loss derivative is the derivative of the loss", "statement": "For every loss kind (L2, L1, Cauchy, Welsch, general alpha) and scale c>0, deriv(s) is the derivative of value(s) with respect to the squared residual s, value(0)=0, and value is nonnegative and nondecreasing on s>=0.", "quantifier": "every alpha, every c>0, every s>=0", "why_tests_cant": "analytic identity over the reals", "anchors": ["momentum/math/generalized_loss.cpp:GeneralizedLossT::value", "momentum/math/generalized_loss.cpp:GeneralizedLossT::deriv"]}
{"id": "C15", "title": "Constraint gradients are the derivative of the error", "statement": "For a position or plane constraint on any joint of any skeleton, getGradient(p)_i is the partial derivative of getError at p with respect to model parameter i, for every enabled parameter, through forward kinematics, the linear parameter transform and the robust loss.", "quantifier": "every skeleton, parameter transform, constraint offset/target/weight, loss and parameter vector", "why_tests_cant": "chain rule over arbitrary hierarchies and matrices; finite differences only sample", "anchors": ["momentum/character_solver/constraint_error_function-inl.h:getGradientForSingleConstraint", "momentum/character_solver/position_error_function.cpp", "momentum/character_solver/plane_error_function.cpp"]}
{"id": "C16", "title": "Gradient equals twice Jacobian-transpose times residual", "statement": "For constraint error functions with nonnegative weights, the vector returned by getGradient equals 2 * J^T * r for the jacobian J and residual r returned by getJacobian, and |r|^2 is the error for the L2 loss.", "quantifier": "every constraint list, weight>=0 and state", "why_tests_cant": "universal over lists and matrices", "anchors": ["momentum/character_solver/constraint_error_function-inl.h:getJacobianForSingleConstraint", "momentum/character_solver/constraint_error_function-inl.h:getGradientForSingleConstraint"]}
{"id": "C17", "title": "Limit gradient is the derivative of the limit error", "statement": "For min-max, linear and half-plane parameter limits getGradient is the derivative of getError for every limit weight, and getJacobian's J^T r is half of it.", "quantifier": "every limit list, weight, and parameter vector (in the interior of each piece)", "why_tests_cant": "all weights and values; the code drops the per-limit weight for linear and half-plane limits", "anchors": ["momentum/character_solver/limit_error_function.cpp:getGradient", "momentum/character_solver/limit_error_function.cpp:getError", "momentum/character_solver/limit_error_function.cpp:getJacobian"]}
{"id": "C18", "title": "Limit error is zero exactly inside the limits", "statement": "With positive weights, the error of a set of min-max limits is nonnegative and is zero exactly when every limited, enabled parameter lies in its interval; applyPassiveJointParameterLimits puts every limited joint parameter inside its interval when lower<=upper, changes no other joint parameter and is idempotent.", "quantifier": "every limit list and vector", "why_tests_cant": "all limit lists and values", "anchors": ["momentum/character_solver/limit_error_function.cpp:getError", "momentum/character/parameter_limits.cpp:applyPassiveJointParameterLimits"]}
{"id": "C19", "title": "Model-parameter error gradient and Jacobian are consistent", "statement": "ModelParametersErrorFunction: gradient is the derivative of the error, equals 2 J^T r, and the number of used Jacobian rows equals the number of enabled parameters with positive weight and never exceeds getJacobianSize.", "quantifier": "every target, weight vector, enabled set and parameter vector", "why_tests_cant": "all vectors and sets; negative weights separate the two", "anchors": ["momentum/character_solver/model_parameters_error_function.cpp"]}
{"id": "C20", "title": "State error parameter gradient is the derivative of the error", "statement": "For StateErrorFunction the parameter part of getGradient is the derivative of the parameter part of getError for every target weight vector.", "quantifier": "every weight vector and parameter vector", "why_tests_cant": "all weights; the code misses one factor of the weight", "anchors": ["momentum/character_solver/state_error_function.cpp:getGradient"]}
{"id": "C21", "title": "A union of error functions contributes additively", "statement": "Adding a UnionErrorFunction to a solver function contributes its weight times the sum of its members to the error and to the gradient, whatever other error functions were evaluated before it.", "quantifier": "every list of member functions, weights and accumulated gradient", "why_tests_cant": "interference depends on evaluation history", "anchors": ["momentum/diff_ik/union_error_function.cpp:getGradient", "momentum/character_solver/skeleton_solver_function.cpp:getGradient"]}
{"id": "C22", "title": "Solver iteration count respects its bounds", "statement": "solve() runs at most maxIterations iterations, at least min(maxIterations, minIterations+1), stops early only after convergence, and terminates for every objective.", "quantifier": "every sequence of errors the objective can produce and every option setting", "why_tests_cant": "all histories of error values", "anchors": ["momentum/solver/solver.cpp:solve"]}
{"id": "C23", "title": "Solver returns the error of the parameters it returns", "statement": "The value returned by solve() is the objective evaluated at the parameters it writes back.", "quantifier": "every objective, every start point, every iteration count", "why_tests_cant": "all histories; the returned error belongs to the previous iterate", "anchors": ["momentum/solver/solver.cpp:solve", "momentum/solver/gauss_newton_solver.cpp:doIteration", "momentum/solver/gradient_descent_solver.cpp"]}
{"id": "C24", "title": "Gauss-Newton line search never accepts an increase", "statement": "With line search on, an iteration of GaussNewtonSolver or SubsetGaussNewtonSolver leaves the parameters at a point whose error does not exceed the error before the iteration.", "quantifier": "every objective and direction", "why_tests_cant": "all objectives; after 10 failed halvings the last trial point is kept", "anchors": ["momentum/solver/gauss_newton_solver.cpp:updateParameters", "momentum/solver/subset_gauss_newton_solver.cpp"]}
{"id": "C25", "title": "Disabled parameters are never moved by the subset solvers", "statement": "SubsetGaussNewtonSolver changes only enabled parameters, however many iterations run, and the compacted normal equations it solves are exactly the enabled rows and columns.", "quantifier": "every objective, enabled set and iteration count", "why_tests_cant": "all subsets and histories", "anchors": ["momentum/solver/subset_gauss_newton_solver.cpp"]}
{"id": "C26", "title": "Trust-region steps never increase the error", "statement": "A trust-region QR iteration either keeps the parameters it started from or moves to parameters with a smaller error; the radius stays positive and at most maxTrustRegionRadius.", "quantifier": "every objective and every sequence of trial steps", "why_tests_cant": "all trial histories", "anchors": ["momentum/character_solver/trust_region_qr.cpp:doIteration"]}
{"id": "C27", "title": "Householder reflection annihilates and preserves norms", "statement": "computeHouseholderVec returns a reflection that maps the given vector to (mu,0,...,0) with mu^2 = |x|^2 and applying it to any column preserves inner products.", "quantifier": "every vector of every length", "why_tests_cant": "all real vectors", "anchors": ["momentum/math/online_householder_qr.cpp:computeHouseholderVec", "momentum/math/online_householder_qr.cpp:applyHouseholderTransformation"]}
{"id": "C28", "title": "Online QR keeps the normal equations", "statement": "After any sequence of reset/addMutating calls, R^T R = lambda^2 I + sum A_i^T A_i and R^T y = sum A_i^T b_i, R is upper triangular, and result() solves those normal equations.", "quantifier": "every sequence of blocks of any row counts", "why_tests_cant": "induction over unbounded histories", "anchors": ["momentum/math/online_householder_qr.cpp:OnlineHouseholderQR::addMutating", "momentum/math/online_householder_qr.cpp:OnlineHouseholderQR::result"]}
{"id": "C29", "title": "Column-indexed products use the selected columns", "statement": "ColumnIndexedMatrix::transpose_times(b) is the transpose of the column-selected matrix times b.", "quantifier": "every matrix, index list and vector", "why_tests_cant": "all index lists; only the identity selection is right", "anchors": ["momentum/math/online_householder_qr.h:ColumnIndexedMatrix"]}
{"id": "C30", "title": "Joined parameter vectors round trip", "statement": "For SequenceSolverFunction and MultiposeSolverFunction, setting frame parameters from a joined vector and joining again returns the same vector; joining and setting back restores every frame when universal parameters agree between frames; parameters outside the enabled set are untouched.", "quantifier": "every positive frame count, universal set, enabled set, vector and history of enabling and setting calls (with no frames joining reads outside the frame list: refuted separately)", "why_tests_cant": "all index layouts", "anchors": ["momentum/character_sequence_solver/sequence_solver_function.cpp:getJoinedParameterVector", "momentum/character_sequence_solver/sequence_solver_function.cpp:setFrameParametersFromJoinedParameterVector", "momentum/character_sequence_solver/multipose_solver_function.cpp"]}
{"id": "C31", "title": "Multithreaded sequence solving is schedule independent", "statement": "In the parallel solve every frame's universal block is folded into the factorisation exactly once and in increasing frame order, for every interleaving of worker threads, and nothing is left behind when the parallel section ends.", "quantifier": "every number of frames and threads and every interleaving of their lock/unlock steps", "why_tests_cant": "the space of schedules is unbounded", "anchors": ["momentum/character_sequence_solver/sequence_solver.cpp:processErrorFunctions_parallel"]}
{"id": "C32", "title": "Enabling a parameter makes it part of the solve", "statement": "After MultiposeSolverFunction::setEnabledParameters(S) the number of solved parameters covers the joined position of every enabled parameter.", "quantifier": "every enabled set, universal set and frame count", "why_tests_cant": "all subsets; enabling only parameter 0, or a universal parameter before a per-frame one, breaks it", "anchors": ["momentum/character_sequence_solver/multipose_solver_function.cpp:setEnabledParameters"]}
{"id": "C33", "title": "Jacobians do not depend on what the output matrix contained", "statement": "SequenceSolverFunction::getJacobian called twice with the same parameters and the same output matrix gives the same Jacobian and residual.", "quantifier": "every history of calls", "why_tests_cant": "needs all call histories; universal columns of sequence errors are accumulated without clearing", "anchors": ["momentum/character_sequence_solver/sequence_solver_function.cpp:getJacobian"]}
{"id": "C34", "title": "MMO motion files round trip", "statement": "Loading a file written by saveMmo returns the same poses, offsets, parameter names and joint names.", "quantifier": "every pose matrix, offset vector and name list whose sizes fit in 64 bits", "why_tests_cant": "all sizes and byte contents", "anchors": ["momentum/io/motion/mmo_io.cpp:saveMmo", "momentum/io/motion/mmo_io.cpp:loadMmo"]}
{"id": "C35", "title": "Auxiliary parameters survive an MMO round trip", "statement": "Extra parameters saved next to the pose come back from getAuxilaryDataFromMotion with their names and values, and are not mixed with model parameters.", "quantifier": "every list of auxiliary names and model parameter names", "why_tests_cant": "all names; the empty name and model parameters named __x__ break it", "anchors": ["momentum/io/motion/mmo_io.cpp:getAuxilaryDataFromMotion", "momentum/io/motion/mmo_io.cpp:saveMmo"]}
{"id": "C36", "title": "glTF accessor buffers round trip and do not disturb each other", "statement": "Data written with createAccessorBuffer is read back identically by copyAccessorBuffer, also after any number of further accessors have been appended; aligned accessors have a 4-byte multiple stride.", "quantifier": "every sequence of appended arrays of every supported element type", "why_tests_cant": "all histories of appends and all contents", "anchors": ["momentum/io/gltf/utils/accessor_utils.h:createAccessorBuffer", "momentum/io/gltf/utils/accessor_utils.h:copyAccessorBuffer"]}
{"id": "C37", "title": "Reading an accessor never reads outside its buffer", "statement": "copyAccessorBuffer on an arbitrary (possibly corrupt) model either returns, or stops with a defined failure, but never reads bytes outside the buffer.", "quantifier": "every buffer, view and accessor description", "why_tests_cant": "adversarial inputs; the last element's tail is not checked", "anchors": ["momentum/io/gltf/utils/accessor_utils.h:copyAccessorBuffer"]}
{"id": "C38", "title": "Reading from an in-memory FBX stream stays in bounds", "statement": "Any sequence of Read/Seek/SetPosition calls on an FbxMemoryStream never reads outside the span it was given.", "quantifier": "every call sequence and argument", "why_tests_cant": "all histories, including seeks past either end", "anchors": ["momentum/io/fbx/fbx_memory_stream.cpp:Read", "momentum/io/fbx/fbx_memory_stream.cpp:Seek"]}
{"id": "C39", "title": "Validated polygon data triangulates safely", "statement": "If errorMessage(numVertices) is empty then triangulate() does not throw or read out of range, produces exactly (corner count - 2) triangles per face, and every vertex index it emits is below numVertices.", "quantifier": "every polygon index/offset list", "why_tests_cant": "all lists, adversarial offsets", "anchors": ["momentum/io/openfbx/polygon_data.cpp:triangulate", "momentum/io/openfbx/polygon_data.cpp:errorMessage"]}
{"id": "C40", "title": "Marker conversion maps the up axis to the documented up axis", "statement": "toMomentumVector3 is a rotation times the unit factor and maps the file's up axis to Momentum's up axis (documented as Y) for every UpVector.", "quantifier": "every vector, up axis and unit", "why_tests_cant": "all vectors; the documented target axis is not met", "anchors": ["momentum/io/marker/conversions.cpp:toMomentumVector3", "momentum/io/marker/conversions.h"]}
{"id": "C41", "title": "TRC units are honoured", "statement": "loadTrc scales positions by the unit declared in the file header.", "quantifier": "every header unit and every frame row", "why_tests_cant": "all files; the unit is read from the data row instead of the header", "anchors": ["momentum/io/marker/trc_io.cpp:loadTrc"]}
{"id": "C42", "title": "tokenize splits at delimiters and nothing is lost", "statement": "tokenize(s, d, trim=false): joining the pieces with single delimiters between them restores s up to which delimiter was used, no piece contains a delimiter, and trim=true returns the nonempty pieces in order; trim(s) is the longest middle part of s with no white character at either end.", "quantifier": "every string and delimiter set", "why_tests_cant": "all strings, including embedded NUL bytes", "anchors": ["momentum/common/string.cpp:tokenize", "momentum/common/string.cpp:trim"]}
{"id": "C43", "title": "Binary shape and prior files round trip", "statement": "loadBlendShape(saveBlendShape(b)) restores base shape and shape vectors and loadMppca(saveMppca(m)) restores the mixture.", "quantifier": "every shape matrix, every mixture", "why_tests_cant": "all sizes and contents", "anchors": ["momentum/io/shape/blend_shape_io.cpp", "momentum/io/skeleton/mppca_io.cpp"]}
{"id": "C44", "title": "Skinning is the weighted sum over all influences", "statement": "applySSD moves each vertex to the sum over its influences of weight * (world * inverse bind) * rest position, for every weight row; with weights summing to one and one common rigid motion, the mesh moves rigidly.", "quantifier": "every mesh, weight table and pose", "why_tests_cant": "all weight tables; the loop stops at the first zero weight", "anchors": ["momentum/character/linear_skinning.cpp:applySSD"]}
{"id": "C45", "title": "Remapping skin weights conserves weight", "statement": "remapSkinWeights keeps each vertex's total weight, adds up weights of joints that map to the same joint, and returns rows sorted by decreasing weight whose joints are all valid.", "quantifier": "every weight table and joint map", "why_tests_cant": "all tables and maps", "anchors": ["momentum/character/character_utility.cpp:mapSkinWeights", "momentum/character/character.cpp:remapSkinWeights"]}
{"id": "C46", "title": "Simplifying a skeleton keeps the kept joints' world transforms", "statement": "simplifySkeleton removes disabled joints; with zero joint parameters every kept joint has the same world transform as before, parents still precede children, and the joint map sends every joint to its nearest kept ancestor.", "quantifier": "every valid skeleton and enabled-joint set containing the roots", "why_tests_cant": "all trees and subsets", "anchors": ["momentum/character/character.cpp:simplifySkeleton"]}
{"id": "C47", "title": "Identity fill and removal are inverse", "statement": "removeIdentity(fillIdentity(m)) = m and both touch exactly the rows in the identity set.", "quantifier": "every motion, identity vector and parameter set", "why_tests_cant": "all matrices and sets", "anchors": ["momentum/marker_tracking/tracker_utils.cpp:fillIdentity", "momentum/marker_tracking/tracker_utils.cpp:removeIdentity"]}
{"id": "C48", "title": "Locator joints keep locator positions", "statement": "createLocatorCharacter: with the new parameters at zero each locator has the same world position as before; extractLocatorsFromCharacter then returns the original attachment with the offset moved by the solved translation, and the identity when it is zero.", "quantifier": "every character, locator list (any locks) and pose", "why_tests_cant": "all skeletons and locator lists", "anchors": ["momentum/marker_tracking/tracker_utils.cpp:createLocatorCharacter", "momentum/marker_tracking/tracker_utils.cpp:extractLocatorsFromCharacter"]}
{"id": "C49", "title": "Requested marker frame range is valid", "statement": "processMarkers works on a range of frames that lies inside the input for every firstFrame and maxFrames it accepts.", "quantifier": "every 64-bit firstFrame and maxFrames", "why_tests_cant": "2^128 argument pairs; first+max can wrap", "anchors": ["momentum/marker_tracking/process_markers.cpp:processMarkers"]}
{"id": "C50", "title": "Aligned allocation returns enough memory", "statement": "roundUpToAlignment returns the least multiple of the alignment not below the value, and alignedAlloc either throws or allocates at least n*sizeof(T) bytes; computeOffset returns the least element offset that makes the matrix data aligned.", "quantifier": "every 64-bit size, count and alignment", "why_tests_cant": "all 64-bit values; the rounding can wrap", "anchors": ["momentum/common/aligned.h:roundUpToAlignment", "momentum/common/aligned.h:alignedAlloc", "momentum/simd/simd.h:computeOffset"]}
{"id": "C51", "title": "A built BVH is a well-formed tree over a permutation of its input", "statement": "Bvh::build leaves a permutation of the given boxes, every internal node's children partition its range, leaves hold at most LeafCapacity boxes, every node box contains the boxes below it, and the build terminates.", "quantifier": "every list of bounding boxes", "why_tests_cant": "all inputs; induction over the build loop", "anchors": ["axel/axel/Bvh.cpp:build"]}
{"id": "C52", "title": "BVH box queries miss nothing", "statement": "query(box) returns the id of every primitive whose box intersects the query box, each exactly once.", "quantifier": "every primitive list and query box", "why_tests_cant": "all trees and boxes", "anchors": ["axel/axel/Bvh.cpp:query"]}
{"id": "C53", "title": "BVH traversal never overruns its fixed stacks or the caller's buffer", "statement": "build and query stay inside their fixed-size stacks (128 and 64 entries) and query(box, buffer) never writes past the buffer.", "quantifier": "every primitive list, query and buffer size", "why_tests_cant": "adversarial spacing makes the tree arbitrarily deep", "anchors": ["axel/axel/Bvh.cpp:build", "axel/axel/Bvh.cpp:query", "axel/axel/Bvh.h:kMaxStackDepth"]}
{"id": "C54", "title": "Refit restores tight boxes", "statement": "After primitives change and refit() runs, every node box contains the boxes below it, and queries are again complete; node boxes are the exact union of the primitives below.", "quantifier": "every tree and every change of primitives", "why_tests_cant": "all histories of updates; inner boxes only ever grow", "anchors": ["axel/axel/Bvh.cpp:refit", "axel/axel/Bvh.cpp:refitRecurse"]}
{"id": "C55", "title": "Overlap traversal reports every overlapping pair and honours stop", "statement": "traverseOverlappingPairs calls back for every unordered pair of overlapping primitives, and stops after the callback asks to stop.", "quantifier": "every primitive list and callback", "why_tests_cant": "all trees; pairs inside one leaf are skipped and the stop request is ignored", "anchors": ["axel/axel/Bvh.h:traverseSelfCollision", "axel/axel/Bvh.h:traverseCollision"]}
{"id": "C56", "title": "Closest surface point query returns a closest primitive", "statement": "queryClosestSurfacePoint returns a primitive whose projection is at minimal distance among all primitives, provided each projection lies in its primitive's box.", "quantifier": "every tree, query and projection callback", "why_tests_cant": "pruning correctness over all trees", "anchors": ["axel/axel/Bvh.h:queryClosestHelper"]}
{"id": "C57", "title": "projectOnTriangle returns the closest point of the triangle", "statement": "For a non-degenerate triangle the returned point lies on the triangle and no point of the triangle is closer to the query; it returns true only for the face-interior case.", "quantifier": "every triangle and point", "why_tests_cant": "universal over reals", "anchors": ["axel/axel/math/PointTriangleProjectionDefinitions.h:projectOnTriangle"]}
{"id": "C58", "title": "k-d tree closest point is exact", "statement": "closestPoint(q, maxSqrDist) reports a point of minimal squared distance among those closer than maxSqrDist, or reports none exactly when there is none, provided the query is closer to some input point than to the padding value.", "quantifier": "every point set, query and distance bound", "why_tests_cant": "all point sets; padding lanes are the edge case", "anchors": ["axel/axel/SimdKdTree.cpp:closestPoint", "axel/axel/SimdKdTree.cpp:split", "axel/axel/SimdKdTree.cpp:createLeafNode"]}
{"id": "C59", "title": "k-d tree callbacks and results only mention real points", "statement": "Filtered closest-point queries (by normal, or by acceptance callback) never pass or return an index that is not a point of the tree.", "quantifier": "every point set, filter and query", "why_tests_cant": "padding lanes carry an index that is not a point; only some filters reach it", "anchors": ["axel/axel/SimdKdTree.cpp:closestPointWithAcceptance", "axel/axel/SimdKdTree.cpp:closestPoint"]}
{"id": "C60", "title": "Ray-box test is exact", "statement": "BoundingBox::intersects(origin, direction) returns true exactly when some point origin + t*direction with t>=0 lies in the box, for directions without zero components, and intersectsBranchless gives the same answer.", "quantifier": "every box, origin and direction with nonzero components", "why_tests_cant": "universal over reals", "anchors": ["axel/axel/BoundingBox.cpp:intersects", "axel/axel/BoundingBox.cpp:intersectsBranchless"]}
{"id": "C61", "title": "PoseConstraint equality is an equivalence", "statement": "Comparing two pose constraints is symmetric, and never reads past the shorter one.", "quantifier": "every pair of pose constraints", "why_tests_cant": "all list pairs; three-iterator std::equal reads past the end", "anchors": ["momentum/character/parameter_transform.h:PoseConstraint::operator=="]}
{"id": "C62", "title": "Adding blend shape parameters replaces the previous ones", "statement": "addBlendShapeParameters is idempotent: calling it again with a count m gives the same transform and limits as calling it once with m on the original.", "quantifier": "every consistent transform, limit list and pair of counts within the parameter capacity", "why_tests_cant": "all transforms and call histories", "anchors": ["momentum/character/parameter_transform.cpp:addBlendShapeParameters"]}
{"id": "C63", "title": "Number of skeleton parameters stays right after subsetting", "statement": "numSkeletonParameters() is the number of model parameters that are neither blend-shape nor face-expression parameters, also for transforms produced by subsetParameterTransform.", "quantifier": "every transform and parameter set", "why_tests_cant": "all subsets; dropped blend shapes keep a slot of -1 that is still counted", "anchors": ["momentum/character/parameter_transform.h:numSkeletonParameters", "momentum/character/parameter_transform.cpp:subsetParameterTransform"]}
{"id": "C64", "title": "getGradient reports the same error as getError", "statement": "For LimitErrorFunction, the error returned by getGradient (and getJacobian) equals the value of getError at the same parameters.", "quantifier": "every limit list, enabled set and parameter vector", "why_tests_cant": "all enabled sets and limits", "anchors": ["momentum/character_solver/limit_error_function.cpp:getGradient", "momentum/character_solver/limit_error_function.cpp:getError"]}
{"id": "C65", "title": "The robust loss is the published family", "statement": "GeneralizedLoss(alpha, c) is Barron's general robust loss of the squared error for every alpha, so that losses of different alpha are interchangeable: same slope at zero, and the limit shapes at alpha 2, 0 and minus infinity.", "quantifier": "every alpha, positive c and squared error", "why_tests_cant": "alpha and c are reals; tests use a few values", "anchors": ["momentum/math/generalized_loss.cpp:GeneralizedLossT"]}
{"id": "C66", "title": "The solver function is the sum of its error functions", "statement": "SkeletonSolverFunction::getError is the sum of the errors of the functions with positive weight at the state of the given parameters; getGradient and getJacobian return that same error, the gradient is its derivative and 2 J^T r of the stacked Jacobian is too, whatever mix of constraint, limit, model-parameter, state and union functions it holds.", "quantifier": "every character, parameter vector, list of error functions and parameter", "why_tests_cant": "the list of functions and their data are unbounded, and derivatives are statements about limits", "anchors": ["momentum/character_solver/skeleton_solver_function.cpp:getError", "momentum/character_solver/skeleton_solver_function.cpp:getGradient", "momentum/character_solver/skeleton_solver_function.cpp:getJacobian"]}
{"id": "C67", "title": "Normal equations agree with the Jacobian", "statement": "getJtJR returns the lower triangle of J^T J and the vector J^T r of getJacobian, and getSolverDerivatives twice that, for all parameters up to the last enabled one, with the same error; no stale or uninitialised data enters.", "quantifier": "every solver function and parameter vector", "why_tests_cant": "blocks are accumulated from buffers of data-dependent size", "anchors": ["momentum/character_solver/skeleton_solver_function.cpp:getJtJR", "momentum/character_solver/skeleton_error_function.h:getSolverDerivatives"]}
{"id": "C68", "title": "Banded QR solves the banded least-squares problem", "statement": "After any sequence of banded and common blocks, OnlineBandedHouseholderQR::x_dense is the unique minimiser of the regularised least-squares objective of all the blocks, R_dense^T R_dense is its Gram matrix and At_times_b is A^T b.", "quantifier": "every sequence of blocks whose windows fit, all sizes and bandwidths", "why_tests_cant": "fill-in depends on the order of overlapping windows over unbounded histories", "anchors": ["momentum/math/online_householder_qr.cpp:OnlineBandedHouseholderQR::zeroBandedPart", "momentum/math/online_householder_qr.cpp:OnlineBandedHouseholderQR::x_dense"]}
{"id": "C69", "title": "Gauss-Newton takes a descending regularised step", "statement": "With a positive regularisation, an iteration of GaussNewtonSolver moves along the solution of (J^T J + alpha I) delta = J^T r; the step descends unless the gradient is zero, and a parameter the objective does not depend on is not moved.", "quantifier": "every objective, parameter vector, number of parameters and regularisation > 0", "why_tests_cant": "an algebraic statement about all Jacobians of all sizes", "anchors": ["momentum/solver/gauss_newton_solver.cpp:doIterationDense", "momentum/solver/gauss_newton_solver.cpp:updateParameters"]}
{"id": "C70", "title": "The stored iteration history is the run", "statement": "With history on, entry i of the parameter and error history is what iteration i produced, entries of iterations that were not run are zero, and the iteration count is the number of iterations run.", "quantifier": "every solver, objective and option setting", "why_tests_cant": "all histories of errors; the count depends on how the run stopped", "anchors": ["momentum/solver/solver.cpp:solve"]}
{"id": "C71", "title": "Gradient descent follows the gradient", "statement": "An iteration of GradientDescentSolver changes every parameter by minus the learning rate times the partial derivative of the objective.", "quantifier": "every differentiable objective, parameter vector and rate", "why_tests_cant": "all objectives and parameter vectors", "anchors": ["momentum/solver/gradient_descent_solver.cpp:doIteration"]}
{"id": "C72", "title": "The gradient of a sequence is the derivative of its error", "statement": "SequenceSolverFunction::getError is the sum over the active error functions of their errors on the frames given by the joined vector, and every entry of getGradient is its partial derivative, including universal parameters that move every frame.", "quantifier": "every frame count, universal set, enabled set, history of calls, joined vector and error functions that meet their own gradient contract", "why_tests_cant": "all layouts and all real vectors", "anchors": ["momentum/character_sequence_solver/sequence_solver_function.cpp:getError", "momentum/character_sequence_solver/sequence_solver_function.cpp:getGradient"]}
{"id": "C73", "title": "The Jacobian of a sequence agrees with its gradient", "statement": "On a fresh output matrix SequenceSolverFunction::getJacobian places the rows of the error functions one after the other, each with its derivatives in the slots of the joined vector and zero elsewhere, stays inside the matrix, and 2 J^T r is getGradient; ModelParametersSequenceErrorFunction meets the contract this needs.", "quantifier": "every frame count, universal set, enabled set, history of calls, joined vector and error functions that meet their own contract", "why_tests_cant": "all layouts and all real vectors", "anchors": ["momentum/character_sequence_solver/sequence_solver_function.cpp:getJacobian", "momentum/character_sequence_solver/model_parameters_sequence_error_function.cpp"]}
{"id": "C74", "title": "A motion file cut short is not silently trusted", "statement": "Loading any prefix of a file written by saveMmo either fails visibly or returns only values that were in the file.", "quantifier": "every motion and every point at which writing stopped", "why_tests_cant": "all crash points", "anchors": ["momentum/io/motion/mmo_io.cpp:loadMmo"]}
{"id": "C75", "title": "glTF arrays start at a multiple of their component size", "statement": "An array of 4-byte components appended with createAccessorBuffer starts at a multiple of four bytes, as the glTF format demands.", "quantifier": "every history of appended arrays, of every element type, count and alignment flag", "why_tests_cant": "all histories of appends", "anchors": ["momentum/io/gltf/utils/accessor_utils.h:createAccessorBuffer"]}
{"id": "C76", "title": "The FBX memory stream reports errors exactly", "statement": "GetError of an FbxMemoryStream is nonzero exactly when a read was refused since the last ClearError, or since construction.", "quantifier": "every call sequence and argument", "why_tests_cant": "all histories of calls, including those without ClearError", "anchors": ["momentum/io/fbx/fbx_memory_stream.cpp:GetError", "momentum/io/fbx/fbx_memory_stream.h"]}
{"id": "C77", "title": "Reading a text file sees every line and ends", "statement": "A loop over GetLineCrossPlatform sees each line of the text once, in order and without its line end, whichever of LF, CRLF and CR end the lines, and it terminates.", "quantifier": "every text", "why_tests_cant": "all texts, with every mixture of line ends and with or without a line end at the end of the file", "anchors": ["momentum/io/common/stream_utils.cpp:GetLineCrossPlatform"]}
{"id": "C78", "title": "The sections of a model definition are found", "statement": "Loading a model definition yields, for each section name, the lines of the last section of that name without comments, surrounding blanks and blank lines, and nothing under other names.", "quantifier": "every text that begins with the format line", "why_tests_cant": "all texts, comments, headers and line ends", "anchors": ["momentum/io/skeleton/parameter_transform_io.cpp:loadMomentumModelCommon"]}
{"id": "C79", "title": "checkBoundingBoxes tells whether the boxes are nested", "statement": "checkBoundingBoxes returns true exactly when every node box contains the boxes of its children, or the primitives of its leaf, and so it returns true for every tree just built.", "quantifier": "every tree", "why_tests_cant": "all tree shapes and box values", "anchors": ["axel/axel/Bvh.cpp:checkBoundingBoxes"]}
{"id": "C80", "title": "Ray queries of the hierarchy miss nothing", "statement": "The ray query returns exactly the primitives whose box the ray meets, each once; the closest-hit query hands every such primitive to its callback once; the any-hit query answers true exactly when some primitive accepts the ray.", "quantifier": "every primitive list, origin, direction without zero components, and callback", "why_tests_cant": "all trees and rays", "anchors": ["axel/axel/Bvh.cpp:query", "axel/axel/Bvh.h:rayQueryClosestHit", "axel/axel/Bvh.h:rayQueryAnyHit"]}
{"id": "C81", "title": "rayTriangleIntersect finds the crossing point", "statement": "A reported hit lies on the ray's line at the reported parameter and in the plane of the triangle at the reported barycentric coordinates, which leave the triangle by at most the tolerance; a ray that crosses the triangle and is not nearly parallel to it is always reported, with the exact parameter and coordinates.", "quantifier": "every ray and triangle", "why_tests_cant": "universal over rays and triangles, including slivers and grazing rays", "anchors": ["axel/axel/math/RayTriangleIntersection.cpp:rayTriangleIntersect"]}
{"id": "C82", "title": "The closest surface point of a mesh is closest", "statement": "A mesh with valid indices can be built, one with an invalid index is refused; closestSurfacePoint returns a point of the mesh such that no point of any face is nearer to the query, with a face that contains it.", "quantifier": "every vertex list, face list, thickness and query", "why_tests_cant": "all meshes and all trees the builder can produce; the search skips faces by their boxes", "anchors": ["axel/axel/TriBvh.cpp:TriBvh", "axel/axel/TriBvh.cpp:closestSurfacePoint", "axel/axel/math/BoundingBoxUtils.h:getMinMaxBoundTriangle"]}
{"id": "C83", "title": "Ray queries of a mesh report true crossings and the first one", "statement": "Every reported hit lies on the ray within [minT, maxT] at the reported barycentric coordinates of its face; closestHit reports a hit no later than any clear crossing of a face; allHits reports every clear crossing once; anyHit answers true when there is one.", "quantifier": "every mesh, ray without zero direction components, and limits", "why_tests_cant": "all meshes, rays and traversal orders", "anchors": ["axel/axel/TriBvh.cpp:closestHit", "axel/axel/TriBvh.cpp:allHits", "axel/axel/TriBvh.cpp:anyHit"]}
{"id": "C84", "title": "k-d tree ball queries report each point once", "statement": "pointsInNSphere(center, radius) returns the indices of the points at distance at most radius, each once, and nothing else.", "quantifier": "every point set, center and radius", "why_tests_cant": "all point sets and balls; padding lanes are the edge case", "anchors": ["axel/axel/SimdKdTree.cpp:pointsInNSphere"]}
{"id": "C85", "title": "Active parameters and active joints determine each other", "statement": "parametersToActiveJoints marks exactly the joints that have a stored coefficient for a parameter of the set; activeJointsToParameters gives exactly the parameters that have a stored coefficient on an active joint; going to joints and back loses no parameter that drives anything; simplify for a parameter set keeps the world transforms of the kept joints in every pose in which the other parameters are zero.", "quantifier": "every character, parameter set, active joint list and model parameter vector", "why_tests_cant": "all sparse matrices and sets; a joint can be shared by many parameters", "anchors": ["momentum/character/character.cpp:parametersToActiveJoints", "momentum/character/character.cpp:activeJointsToParameters", "momentum/character/character.cpp:simplify"]}
{"id": "C86", "title": "A low-rank covariance matrix multiplies, inverts and measures what it stands for", "statement": "After reset(sigma, A) the object stands for C = sigma^2 I + A^T A: times_vec and times_mat multiply by C, inverse_times_vec and inverse_times_mat give the one solution of C y = x so that each undoes the other, logDeterminant is the logarithm of det C and inverse_logDeterminant its negative.", "quantifier": "every sigma other than zero (positive for the determinant), every matrix A, every right-hand side", "why_tests_cant": "all sizes and values; the determinant of an arbitrary matrix", "anchors": ["momentum/math/covariance_matrix.cpp"]}
{"id": "C87", "title": "A mixture set from its parameters scores points by their weighted density", "statement": "After Mppca::set(pi, mu, W, sigma2), for every mode and every point x, exp(Rpre - 1/2 (x - mu)^T Cinv (x - mu)) is the weight of the mode times the normal density with mean mu and covariance sigma2 I + W W^T at x; Cinv is the inverse of that covariance and L^T L = Cinv.", "quantifier": "every number of modes and dimensions, every parameters with positive weights and variances, every point", "why_tests_cant": "all sizes and values", "anchors": ["momentum/math/mppca.cpp", "MppcaT::set"]}
{"id": "C88", "title": "The pose prior error is the distance to the best mode and its derivatives are exact", "statement": "getError is the weighted half squared Mahalanobis distance of the parameters, looked up by name, to the mean of the mode with the highest weighted density; where that mode is unique getGradient adds its derivative, getJacobian gives rows with 2 J^T r equal to the derivative and r^T r equal to the error, and getMeanShape gives the mean of that mode.", "quantifier": "every mixture, every list of parameter names, every parameter vector", "why_tests_cant": "all sizes, names and values", "anchors": ["momentum/character_solver/pose_prior_error_function.cpp"]}
{"id": "C89", "title": "Exchanging the pose prior is the same as building the function with it", "statement": "After setPosePrior(q) the function gives the same values as one built with q, and no prior at all can be set like it can be given to the constructor.", "quantifier": "every pair of priors, every parameter vector", "why_tests_cant": "every history of calls", "anchors": ["momentum/character_solver/pose_prior_error_function.cpp", "setPosePrior", "loadInternal"]}
{"id": "C90", "title": "Blend shapes add weighted offsets, and skinning uses the blended shape", "statement": "computeShape and applyDeltas move every vertex by the weighted sum of the shape vectors; setShapeVector changes one shape only; extractBlendWeights takes each weight from the model parameter named for it; skinWithBlendShapes gives the vertices that skinning of the computed shape gives, also for a character without a blend shape.", "quantifier": "every base shape, shape matrix, weight vector, skin and pose, every order in which the vertices are treated", "why_tests_cant": "all sizes and values", "anchors": ["momentum/character/blend_shape_base.cpp", "momentum/character/blend_shape.cpp", "momentum/character/blend_shape_skinning.cpp"]}
{"id": "C91", "title": "Fitted blend weights are the best ones", "statement": "estimateCoefficients returns the coefficients with the smallest (weighted) squared vertex distance plus regularization, after every history of calls, and does not change the shape; it recovers the weights of a computed shape.", "quantifier": "every history of setBaseShape, setShapeVector, setShapeVectors and estimateCoefficients, every vertices, weights and regularization", "why_tests_cant": "every history of calls; optimality over all coefficients", "anchors": ["momentum/character/blend_shape.cpp:estimateCoefficients", "momentum/character/blend_shape_base.h:setShapeVectors", "momentum/character/blend_shape.cpp:isApprox"]}
{"id": "C92", "title": "A pose shape depends only on the pose", "statement": "PoseShape::compute moves the base shape by the shape vectors weighted with the coordinates of the mapped joints' rotations relative to the base joint; turning the whole character does not change it, and neither does another set of joint parameters with the same joint transformations.", "quantifier": "every pose shape, every pose and every rotation of the character", "why_tests_cant": "all values; equivalent representations of a rotation", "anchors": ["momentum/character/pose_shape.cpp:compute"]}
{"id": "C93", "title": "A scaled character poses at scale", "statement": "scaleCharacter with a positive factor gives a character whose joints, locators, collision geometry, skinned mesh and limits are those of the original, scaled, in every pose; the same model parameters give the scaled pose; a factor that is not positive is refused.", "quantifier": "every character, factor and pose", "why_tests_cant": "all factors and poses; every attached object", "anchors": ["momentum/character/character_utility.cpp:scaleCharacter", "momentum/character/locator_state.cpp", "momentum/character/collision_geometry_state.cpp"]}
{"id": "C94", "title": "A moved character poses where it was moved", "statement": "transformCharacter with a rigid transformation gives a character that in every pose is the original moved: joints, locators, collision geometry, skinned vertices and normals; the same model parameters give the moved pose; other transformations are refused.", "quantifier": "every character, rigid transformation and pose", "why_tests_cant": "all transformations and poses; every attached object", "anchors": ["momentum/character/character_utility.cpp:transformCharacter"]}
{"id": "C95", "title": "Removing joints leaves the rest of the character as it was", "statement": "removeJoints removes the given joints and the joints below them; the others keep their order, names, parents and, in every pose given by the same model parameters, their world transformations; parameters, parameter sets, limits, locators and collision geometry of the remaining joints are kept, skin weights move to the nearest remaining joint above, and vertices that hang on remaining joints are skinned as before; a joint index that does not exist is refused.", "quantifier": "every character, list of joints, model parameter vector and pose", "why_tests_cant": "all skeletons, sets of joints and poses; every renumbered object", "anchors": ["momentum/character/character_utility.cpp:removeJoints", "momentum/character/character_utility.cpp:addMappedParameters", "momentum/character/character_utility.cpp:mapParameterLimits", "momentum/character/character_utility.cpp:mapSkinWeights"]}
{"id": "C96", "title": "Motions and identities are carried over by name", "statement": "mapMotionToCharacter gives every parameter of the character the row of the motion with its name, and zeros if there is none; mapIdentityToCharacter does the same with the seven joint parameters of every joint; rows with other names are dropped, sizes that do not match are refused, and a character's own motion and identity come back as they were.", "quantifier": "every list of names, every motion and every character", "why_tests_cant": "all lists of names and sizes", "anchors": ["momentum/character/character_utility.cpp:mapMotionToCharacter", "momentum/character/character_utility.cpp:mapIdentityToCharacter"]}
{"id": "C97", "title": "Replacing a part of a skeleton keeps the rest and brings the new part", "statement": "replaceSkeletonHierarchy gives the target without the joints below its root joint, with the joints below the root joint of the source in their place, attached to the root joint of the target; the joints of the target are where they were, those of the source are to the root joint as they were; parameters, limits, locators and collision geometry of both are kept if their joints are, a locator of the source replaces one of the same name, skin weights of removed joints go to the joint that replaces them; two joints or two parameters of the same name, and unknown root joints, are refused.", "quantifier": "every two characters, root joints, model parameter vectors and poses", "why_tests_cant": "all pairs of skeletons; every renumbered object; termination for every input", "anchors": ["momentum/character/character_utility.cpp:replaceSkeletonHierarchy", "momentum/character/character_utility.cpp:addMappedParameters", "momentum/character/character_utility.cpp:removeDuplicateLocators"]}
{"id": "C98", "title": "Wide constraint stores keep what was added, also from many threads", "statement": "After any history of addConstraint and clearConstraints a store for position, plane or normal constraints holds, for every joint, the constraints added to it since the last clear in order, up to the capacity, with weight zero in all other lanes, and getNumConstraints reports their numbers; calls of addConstraint that run at the same time store every constraint exactly once in a place of its own unless the joint is full; a constraint for a joint the skeleton does not have is refused.", "quantifier": "every skeleton size, history of calls, set of concurrent calls and schedule", "why_tests_cant": "every interleaving of the atomic steps of any number of threads; every history", "anchors": ["momentum/character_solver/simd_position_error_function.cpp:addConstraint", "momentum/character_solver/simd_plane_error_function.cpp:addConstraint", "momentum/character_solver/simd_normal_error_function.cpp:addConstraint", "momentum/character_solver/simd_position_error_function.cpp:clearConstraints"]}
{"id": "C99", "title": "Wide error functions measure and differentiate the stored constraints", "statement": "getError of the position, plane and normal error functions over the wide stores is the weighted sum of squared residuals of the constraints that were added, as in the ordinary functions; getGradient adds its derivative; after getJacobianSize, getJacobian fills that many rows, the squared norm of the residual is the error and 2 J^T r its derivative, whatever the unused lanes hold; parameters that are disabled get nothing.", "quantifier": "every store, skeleton, parameter transform, weight, pose and parameter", "why_tests_cant": "all numbers of constraints per joint, padding and poses; derivatives", "anchors": ["momentum/character_solver/simd_position_error_function.cpp:getError", "momentum/character_solver/simd_position_error_function.cpp:getJacobian", "momentum/character_solver/simd_plane_error_function.cpp:getGradient", "momentum/character_solver/simd_normal_error_function.cpp:getJacobian", "momentum/simd/simd.h"]}
{"id": "C100", "title": "Wide error functions give the same result on any number of threads", "statement": "However the tasks of getGradient and getJacobian, one for each joint, are interleaved, error, gradient, Jacobian and residual are those of a run on one thread.", "quantifier": "every store, pose and schedule of the loads and stores of the tasks", "why_tests_cant": "every interleaving of any number of tasks", "anchors": ["momentum/character_solver/simd_position_error_function.cpp:getGradient", "momentum/character_solver/simd_position_error_function.cpp:getJacobian", "momentum/character_solver/simd_plane_error_function.cpp:getGradient"]}
{"id": "C101", "title": "Ellipsoid limits pull a point to the surface", "statement": "getError of a list of limits that contains ellipsoid limits counts, for each of them, the weighted squared distance of the limited point to the closest point of the ellipsoid, and is zero exactly if all limits are met; getGradient adds its derivative, and getJacobian fills three rows for each ellipsoid, with the error as squared norm of the residual and 2 J^T r as derivative.", "quantifier": "every skeleton, parameter transform, list of limits of all kinds, pose and parameter", "why_tests_cant": "all ellipsoids and poses; derivatives", "anchors": ["momentum/character_solver/limit_error_function.cpp:getError", "momentum/character_solver/limit_error_function.cpp:getGradient", "momentum/character_solver/limit_error_function.cpp:getJacobian", "momentum/character/parameter_limits.h:LimitEllipsoid"]}
{"id": "C102", "title": "The closest points of two segments are found", "statement": "closestPointsOnSegments reports success exactly if the two segments have points no farther apart than the given distance, and then gives the smallest distance and parameters in [0, 1] of two points with that distance.", "quantifier": "every pair of segments, also parallel ones and points, and every distance that is not negative", "why_tests_cant": "optimality over all pairs of points; all segments", "anchors": ["momentum/math/utility.cpp:closestPointsOnSegments"]}
{"id": "C103", "title": "Colliding capsules are penalized by how deep they overlap", "statement": "The collision error function tests each pair of capsules that does not touch in the rest pose and whose joints are at least two joints apart, exactly once; getError is 0.005 times the weight times the sum of the squared depths of the pairs that overlap, getCollisionPairs lists exactly those pairs, getGradient adds the derivative, and getJacobian fills at most getJacobianSize rows, with the error as squared norm of the residual and 2 J^T r as derivative.", "quantifier": "every skeleton, parameter transform, collision geometry, pose and parameter", "why_tests_cant": "optimality over all pairs of points of the axes, derivatives, all skeletons and poses", "anchors": ["momentum/character_solver/collision_error_function_stateless.cpp", "momentum/character/collision_geometry_state.h:overlaps", "momentum/character/collision_geometry_state.cpp:update"]}
{"id": "C104", "title": "Finding collisions with a tree gives the same result as testing every pair", "statement": "The collision error function that looks for pairs with a bounding volume hierarchy excludes the same pairs as the one that tests every pair and reports the same Jacobian size; the box of a capsule contains it, so that no overlapping pair is skipped; error, collision pairs, gradient and Jacobian are those of the other function whatever the shape of the tree and the order of its traversal; after any history of calls getCollisionPairs answers for the last pose, and no call depends on earlier ones.", "quantifier": "every skeleton, parameter transform, collision geometry, pose, parameter, traversal order and history of calls", "why_tests_cant": "all traversal orders, histories and poses; derivatives", "anchors": ["momentum/character_solver/collision_error_function.cpp", "momentum/character/collision_geometry_state.h:updateAabb", "axel/axel/Bvh.cpp:traverseOverlappingPairs"]}
{"id": "C105", "title": "Euler angles and rotation matrices describe the same rotation", "statement": "Euler angles about any three axes give the product of the three rotations, in the order of the convention, as matrix and as unit quaternion; the specialised functions for XYZ and ZYX agree with the general one. The angles of every rotation matrix lie in (-pi, pi], [-pi/2, pi/2], (-pi, pi] and give the matrix back, also at and near the poles; angles in these ranges away from the poles are found again. quaternionToEuler gives the extrinsic XYZ angles of the rotation.", "quantifier": "every vector of angles, choice of axes, convention, rotation matrix and unit quaternion", "why_tests_cant": "all rotations, also those at and near the poles where the branches change", "anchors": ["momentum/math/utility.cpp:rotationMatrixToEulerXYZ", "momentum/math/utility.cpp:rotationMatrixToEulerZYX", "momentum/math/utility.cpp:eulerToQuaternion", "momentum/math/utility.cpp:eulerXYZToRotationMatrix", "momentum/math/utility.cpp:quaternionToEuler", "momentum/math/utility.h:EulerConvention"]}
{"id": "C106", "title": "Rotation vectors and averages of quaternions", "statement": "rotVecToQuaternion gives the rotation about the vector by its length; quaternionToRotVec gives a vector of at most pi with the rotation of the quaternion; each undoes the other, up to the sign of the quaternion. quaternionAverage gives the unit quaternion with the largest weighted sum of squared inner products with the given ones, whatever their signs; weights that are missing count as 1.", "quantifier": "every vector, unit quaternion, list of quaternions and list of weights", "why_tests_cant": "optimality over all unit quaternions; all lists and rotations", "anchors": ["momentum/math/utility.cpp:quaternionToRotVec", "momentum/math/utility.cpp:rotVecToQuaternion", "momentum/math/utility.cpp:quaternionAverage"]}
{"id": "C107", "title": "The solver that factorises the Jacobian is the subset solver", "statement": "Each iteration of GaussNewtonSolverQR moves the enabled parameters by the regularised Gauss-Newton step of all error functions together, however their rows are divided among the functions; a whole solve() returns the same parameters, error and history as the subset Gauss-Newton solver, which forms the normal equations; disabled parameters are returned exactly as given; with line search an iteration does not increase the error.", "quantifier": "every objective, set of enabled parameters, positive regularisation, options, start and history of the other solver", "why_tests_cant": "equality over whole runs for all objectives and block structures", "anchors": ["momentum/character_solver/gauss_newton_solver_qr.cpp:doIteration", "momentum/solver/subset_gauss_newton_solver.cpp:doIteration", "momentum/math/online_householder_qr.cpp"]}
{"id": "C108", "title": "Model parameters can be found from joint parameters", "statement": "The inverse parameter transform maps joint parameters to the model parameters that come closest to them in the least squares sense; applying the parameter transform to the result, with its offsets, gives the joint parameters back exactly; model parameters are found again from the joint parameters they give, if the transform has full rank; the offsets of the result are the residual of the fit; a vector of the wrong size is rejected.", "quantifier": "every parameter transform and joint parameter vector", "why_tests_cant": "optimality over all parameter vectors; all transforms", "anchors": ["momentum/character/inverse_parameter_transform.cpp:apply", "momentum/character/inverse_parameter_transform.h", "momentum/character/parameter_transform.cpp:apply"]}
{"id": "C109", "title": "Several poses are solved with the error, gradient and Jacobian of all of them", "statement": "The multipose solver function's getError is the sum of the active error functions, each on the parameters of its frame, where universal parameters are shared by all frames; each entry of getGradient is the derivative of getError; getJacobian holds, in the rows of each function, its coefficients at the places of the parameters of its frame and zero elsewhere, with a number of rows rounded up to a multiple of 8, also after earlier calls at other points with the same matrix; 2 J^T r is the gradient; the squared norm of the residual is the error; updateParameters subtracts the step.", "quantifier": "every set of universal parameters, number of frames, error functions, parameter vector and history of calls", "why_tests_cant": "unbounded numbers of frames and functions; derivatives; all call histories", "anchors": ["momentum/character_sequence_solver/multipose_solver_function.cpp:getError", "momentum/character_sequence_solver/multipose_solver_function.cpp:getGradient", "momentum/character_sequence_solver/multipose_solver_function.cpp:getJacobian", "momentum/character_sequence_solver/multipose_solver_function.cpp:updateParameters"]}
{"id": "C110", "title": "The times when four moving points are coplanar are found", "statement": "timesCoplanar returns, for four points that move at constant velocities, exactly the times at which they lie in one plane, if these are finitely many; it returns the real roots of the cubic or quadratic equation it solves; the result does not depend on whether the vector instructions are used.", "quantifier": "every four points and velocities, and every polynomial", "why_tests_cant": "all real polynomials and motions; completeness of the roots", "anchors": ["axel/axel/math/CoplanarityCheck.cpp:timesCoplanar"]}
{"id": "C111", "title": "The distance of two edges is that of their closest points", "statement": "distanceEdgeEdge returns parameters in [0, 1] and the distance of the points with these parameters, which are the closest points of the two edges; it fails exactly if both edges are degenerate.", "quantifier": "every pair of edges", "why_tests_cant": "optimality over all pairs of points; all edges, also parallel and short ones", "anchors": ["axel/axel/math/EdgeEdgeDistance.cpp:distanceEdgeEdge"]}
{"id": "C112", "title": "Continuous collision detection reports exactly the collisions of a time step", "statement": "ccdEdgeEdge returns true exactly if two moving edges come closer than the threshold within the time step; ccdVertexTriangle returns true exactly if the moving point comes closer than the threshold to the inside of the moving triangle.", "quantifier": "every start, velocity, threshold and time step", "why_tests_cant": "all motions and the continuum of times in the step", "anchors": ["axel/axel/math/ContinuousCollisionDetection.cpp:ccdEdgeEdge", "axel/axel/math/ContinuousCollisionDetection.cpp:ccdVertexTriangle", "axel/axel/math/PointTriangleProjectionDefinitions.h:projectOnTriangle"]}
{"id": "C113", "title": "The error between the poses of two frames", "statement": "The state sequence error function's getError is the weighted sum, over all joints, of the squared distances between the joint's orientations and between its positions in the two frames; it is symmetric and, with positive weights, zero exactly when the poses agree. getGradient adds its derivative to the halves of the two frames, also when one parameter drives both frames; getJacobian fills exactly getJacobianSize rows, 12 per joint that has a weight, with the error as squared norm of the residual and 2 J^T r as gradient. The function therefore meets what the functions of a sequence must meet, after any history of changes to its weights.", "quantifier": "every skeleton, parameter transform, pair of parameter vectors, set of weights and history of setters", "why_tests_cant": "all poses and all directions of the derivative, in both frames at once; all histories", "anchors": ["momentum/character_sequence_solver/state_sequence_error_function.cpp:StateSequenceErrorFunctionT::getError", "momentum/character_sequence_solver/state_sequence_error_function.cpp:StateSequenceErrorFunctionT::getGradient", "momentum/character_sequence_solver/state_sequence_error_function.cpp:StateSequenceErrorFunctionT::getJacobian"]}
{"id": "C114", "title": "Poses are moved by rigid motions", "statement": "transformPose returns every frame with its length and with every parameter that is not rigid as it was, and an empty frame empty. When it logs no warning, the last joint moved by rigid parameters has been turned as asked, up to 1/1000, and every point attached to it or below it is where the motion takes it, up to the error in the place of that joint and a thousandth of the point's distance to it; exactly there, if that joint is. The search starts from the pose of the frame, or from the rigid parameters found for the frame before if the output is to be continuous. Joints that rigid parameters do not move, directly or through a parent, stay where they are. Without a rigid joint an exception is thrown.", "quantifier": "every character with distinct parameter names, every sequence of frames, every motion or sequence of motions, every solver that leaves the other parameters alone and every sequence of random numbers", "why_tests_cant": "all characters, solver results and random numbers, up to ten thousand restarts per frame", "anchors": ["momentum/character_solver/transform_pose.cpp:createRigidBodySkeleton", "momentum/character_solver/transform_pose.cpp:PoseTransformSolverT::transformPose", "momentum/character_solver/transform_pose.cpp:transformPose", "momentum/character/parameter_transform.cpp:getRigidParameters"]}
{"id": "C115", "title": "The block solver solves the least squares problem of all rows", "statement": "OnlineBlockHouseholderQR, given rows that each use one block of unknowns and the common unknowns, in any order and any number of calls, returns from x_dense the one vector that minimises the sum of squares of all rows plus lambda squared times its squared length; x_i and x_n are its parts; At_times_b_dense, At_times_b_n and At_times_b_i are the product of the transposed matrix with the right-hand side and At_times_b_dot its product with a vector; after reset it answers as if new.", "quantifier": "every number and width of blocks, number of common unknowns, lambda and sequence of calls", "why_tests_cant": "optimality over all vectors, for any number of blocks, rows and calls", "anchors": ["momentum/math/online_householder_qr.h:OnlineBlockHouseholderQR", "momentum/math/online_householder_qr.cpp:OnlineBlockHouseholderQR::addMutating", "momentum/math/online_householder_qr.cpp:OnlineBlockHouseholderQR::x_dense", "momentum/math/online_householder_qr.cpp:OnlineBlockHouseholderQR::At_times_b_i"]}
{"id": "C116", "title": "An iteration over several poses takes the Gauss-Newton step of all of them", "statement": "One iteration of MultiposeSolver moves the joined parameters by the one vector that minimises the linearised squared residuals of all functions in use on all poses plus the regularisation times its squared length, where universal parameters are shared by the poses; the error it reports is that of the parameters before the step; the poses stored are those of the new parameters; parameters that no function depends on keep their values; the error does not increase.", "quantifier": "every set of universal parameters, number of frames, set of error functions, regularisation, parameter vector and history of the function object", "why_tests_cant": "optimality over all steps; unbounded numbers of frames, functions and parameters", "anchors": ["momentum/character_sequence_solver/multipose_solver.cpp:MultiposeSolverT::doIteration", "momentum/character_sequence_solver/multipose_solver_function.cpp:updateParameters", "momentum/math/online_householder_qr.cpp:OnlineBlockHouseholderQR::addMutating"]}
{"id": "C117", "title": "The normals of a mesh", "statement": "updateNormals gives every vertex one normal: the average of the normals of the faces around it, of length one, or zero if these add up to zero; faces with indices out of range and faces with coordinates that are not numbers are ignored; the order of the faces and which corner of a face comes first do not matter; turning all faces over turns the normals over; normals turn with the mesh when it is moved or scaled; in a plane they are the normal of the plane.", "quantifier": "every list of vertices, also with coordinates that are not numbers, every list of faces, also with bad indices, every permutation and every motion", "why_tests_cant": "all meshes, face orders, index values and motions", "anchors": ["momentum/math/mesh.cpp:MeshT::updateNormals", "momentum/math/mesh.h:MeshT"]}
{"id": "C118", "title": "Parameters are extrapolated from the last two poses", "statement": "extrapolateModelParameters moves every parameter on by the factor times its last change limited to the given bound, and with a set of active parameters moves exactly these; poses of different sizes give the current pose; nothing throws and both versions agree; applied again and again without new poses, with a factor below one, it stays within factor times bound over one minus factor of the current pose.", "quantifier": "every pair of poses, factor, limit, active set and number of repetitions", "why_tests_cant": "all reals, sizes and numbers of repetitions", "anchors": ["momentum/character/skeleton_utility.cpp:extrapolateModelParameters"]}
{"id": "C119", "title": "Skin weights are stored as given", "statement": "SkinWeights::set stores for every vertex the given joints and weights, followed by zeros, so that the vertex is skinned as by the given influences; tables that operator== calls equal have the same joints and weights up to the precision, and equality is reflexive, symmetric and transitive.", "quantifier": "every list of joints and weights per vertex", "why_tests_cant": "all numbers of influences, all index values, all pairs and triples of tables", "anchors": ["momentum/character/skin_weights.cpp:SkinWeights::set", "momentum/character/skin_weights.cpp:SkinWeights::operator==", "momentum/character/skin_weights.h:kMaxSkinJoints"]}
{"id": "C120", "title": "The state of a character depends only on the character and the pose", "statement": "CharacterState::set leaves a state that does not depend on what the state held before: joints are posed from the parameters with passive limits applied, locators and collision capsules move with their joints, the mesh is the character's mesh, with its blend shapes or its pose shape applied, skinned to the joints, with normals of its own faces; setBindPose gives the bind pose, in which the mesh is the one of the character.", "quantifier": "every character, every pose, every history of calls and every order in which threads treat the vertices", "why_tests_cant": "all characters, parameter values, histories and schedules", "anchors": ["momentum/character/character_state.cpp:CharacterStateT::set", "momentum/character/character_state.cpp:CharacterStateT::setBindPose", "momentum/character/character.cpp:CharacterT::bindPose"]}
{"id": "C121", "title": "The error of skinned vertices against their targets", "statement": "The vertex error function's getError is the weighted sum of the squared distances of the constrained vertices, moved by blend shapes and face expressions and skinned to the joints, to their targets or to planes through these; getGradient returns the error and adds its derivative for every enabled parameter and nothing for others; getJacobian fills getJacobianSize rows with residuals whose squares add up to the error and with their derivatives. Each joint above an influence is visited once.", "quantifier": "every character, set of skin weights, shapes, constraints, pose and order in which vertices are skinned", "why_tests_cant": "all poses and all directions of the derivative; unbounded depths of the skeleton and numbers of influences", "anchors": ["momentum/character_solver/vertex_error_function.cpp:VertexErrorFunctionT::getError", "momentum/character_solver/vertex_error_function.cpp:VertexErrorFunctionT::getGradient", "momentum/character_solver/vertex_error_function.cpp:VertexErrorFunctionT::getJacobian", "momentum/character_solver/vertex_error_function.cpp:SkinningWeightIteratorT"]}
{"id": "C122", "title": "Binary files of joint parameters and pose shapes", "statement": "loadJointParamsBinary returns the frames that the file holds, whatever follows them, and returns nothing else; loadPoseShape returns the shape that the file holds, with joints found by their names and the mean shape added to the character's mesh; every shape it returns fits the character and can be computed in every pose; missing, cut or foreign files are reported.", "quantifier": "every file, complete, cut or damaged, and every character", "why_tests_cant": "all byte strings; results must not depend on memory contents", "anchors": ["momentum/io/motion/joint_params_binary_io.cpp:loadJointParamsBinary", "momentum/io/shape/pose_shape_io.cpp:loadPoseShape", "momentum/character/pose_shape.cpp:PoseShape::compute"]}
{"id": "C123", "title": "Locators are loaded as they were saved", "statement": "saveLocators followed by loadLocators, with local or global positions, gives the locators back: the same names, joints and locks, and the numbers as printed. Whatever the text is, loading it ends, every loaded locator has a joint as parent and a limit where it is, and no two have the same name; a damaged file is refused.", "quantifier": "every list of locators, skeleton and text", "why_tests_cant": "the round trip must hold for all names and numbers, and a loader meets files that no test contains", "anchors": ["momentum/io/skeleton/locator_io.cpp: loadLocators, loadLocatorsFromBuffer, saveLocators"]}
{"id": "C124", "title": "Parameter limits are parsed as they were written", "statement": "writeParameterLimits followed by parseParameterLimits gives the limits back: the same kinds, parameters, joints and weights, and the numbers as printed. Whatever the text is, parsing it ends, every limit parsed from it is one of parameters and joints that exist, lines are independent of each other, and comments and other lines do not matter.", "quantifier": "every list of limits, every list of names and every text", "why_tests_cant": "the round trip must hold for all names, ranges and orders of limits, and a parser meets texts that no test contains", "anchors": ["momentum/io/skeleton/parameter_limits_io.cpp: parseParameterLimits, writeParameterLimits"]}
{"id": "C125", "title": "Model definitions are loaded consistently", "statement": "parseParameterSets and parsePoseConstraints give each name what the last line that defines it says, and refuse unknown parameters. Whatever the text is, the sets, pose constraints and limits that loadModelDefinition and loadParameters return are ones of parameters and joints that exist. Every line of the text counts, and a failed load leaves the character as it was.", "quantifier": "every text, skeleton and character", "why_tests_cant": "a loader meets texts that no test contains, and consistency must hold after every way to end", "anchors": ["momentum/io/skeleton/parameter_transform_io.cpp: parseParameterSets, parsePoseConstraints, loadModelDefinition", "momentum/io/skeleton/parameters_io.cpp: loadParameters"]}
{"id": "C126", "title": "The main subject of a recording", "statement": "findMainSubjectIndex returns the only sequence of a recording or, of those with a proper name, the first one with the most markers visible in one frame, and -1 exactly if there is none with visible markers; loadMarkersForMainSubject returns that sequence. A subject does not get lost because another one was recorded, and a file that cannot be read is reported.", "quantifier": "every list of marker sequences and every file", "why_tests_cant": "all combinations of names, frames and counts", "anchors": ["momentum/io/marker/marker_io.cpp: findMainSubjectIndex, loadMarkers, loadMarkersForMainSubject"]}
{"id": "C127", "title": "A character and its files belong together", "statement": "loadFullCharacter and loadFullCharacterFromBuffer return a character with the joints of the character file. What there is no file for is as in the character file; parameters, limits, sets and pose constraints from a parameter file are ones of parameters and joints that exist, and locators from a locator file have a joint as parent. The format is that of the extension in either case and unknown ones are refused. A file that is no parameter file is refused.", "quantifier": "every character file, parameter text and locator text", "why_tests_cant": "three parsers are composed; consistency must hold for all texts", "anchors": ["momentum/io/character_io.cpp: loadFullCharacter, loadFullCharacterFromBuffer"]}
{"id": "C128", "title": "What is written to JSON is read back", "statement": "parameterSetsToJson, poseConstraintsToJson, parameterLimitsToJson and toJson for matrices, followed by the functions that read, give back the same sets, pose constraints, limits and matrices. Whatever is read, limits are ones of parameters and joints that exist, and unknown types or missing values are reported.", "quantifier": "every list of names, family of sets, pose constraints, limits, matrix size and JSON value", "why_tests_cant": "the round trip must hold for all names, values and sizes, and a reader meets values that no test contains", "anchors": ["momentum/io/gltf/utils/json_utils.cpp: parameterSetsToJson, parameterSetsFromJson, poseConstraintsToJson, poseConstraintsFromJson, parameterLimitsToJson, parameterLimitsFromJson", "momentum/io/gltf/utils/json_utils.h: toJson, fromJson"]}
{"id": "C129", "title": "The parameter transform is read back from JSON", "statement": "parameterTransformToJson followed by parameterTransformFromJson gives the transform back: the same parameters in the same order, the same matrix, offsets and active joint parameters. Whatever is read, the result is a transform for the skeleton whose entries are ones of joints and parameters that exist, and a damaged value is reported.", "quantifier": "every skeleton, transform and JSON value", "why_tests_cant": "the round trip must hold for all names, matrices and offsets, and a reader meets values that no test contains", "anchors": ["momentum/io/gltf/utils/json_utils.cpp: parameterTransformToJson, parameterTransformFromJson", "momentum/character/parameter_transform.cpp: ParameterTransformT::identity"]}
{"id": "C130", "title": "The skeleton of a glTF file", "statement": "Loading a glTF file makes a joint, collision capsule or locator of every node below the root of its skeleton that is marked as one, once, and of no others; each has as parent the last joint above it, parents come before their children, capsules and locators are sorted by parent, and the map from nodes leads to the object that was made of a node. Loading ends for every file, and a file with invalid indices is refused.", "quantifier": "every list of nodes, choice of roots and use of the extension", "why_tests_cant": "all trees of any depth, and files with cycles or invalid indices that no test contains", "anchors": ["momentum/io/gltf/gltf_io.cpp: loadHierarchyRecursive, loadHierarchy, isHierarchyNode"]}
{"id": "C131", "title": "The roots of the skeletons of a glTF file", "statement": "In a file with skins, the roots of a skin are one node for every tree that has joints of the skin: the closest common ancestor of these. The skeletons of the file are these roots, where a skin whose root is below that of another one belongs to the same skeleton, so that every joint of every skin is below a root and skins that share a skeleton count once.", "quantifier": "every forest of nodes and every list of skins", "why_tests_cant": "all shapes of trees and all ways in which skins can overlap", "anchors": ["momentum/io/gltf/gltf_io.cpp: gatherSkeletonRoots, findClosestCommonAncestor, getAncestorsIncludingSelf"]}
{"id": "C132", "title": "The mesh of a glTF file", "statement": "A mesh that is loaded from a glTF file has the vertices of all its triangle primitives one after the other, with their normals and colours or default ones and one confidence each; its faces have the corners, and the texture coordinates at these, that the faces of the primitives have. A primitive with invalid indices is refused.", "quantifier": "every list of primitives", "why_tests_cant": "all numbers and sizes of primitives and all combinations of attributes", "anchors": ["momentum/io/gltf/gltf_io.cpp: addMesh, loadSkinnedMesh"]}
{"id": "C133", "title": "The skin weights of a glTF file", "statement": "Loading the skin of a primitive adds one row for every vertex. Each influence in the file, up to eight per vertex, is there with its weight and with the joint that was made from the node that the skin names; the rest is zero. Influences by nodes that are no joints, sets that do not fit the mesh and nodes that do not exist are reported.", "quantifier": "every skin, map of nodes, number of vertices and sets of influences", "why_tests_cant": "all combinations of skins, nodes and sizes of buffers", "anchors": ["momentum/io/gltf/gltf_io.cpp: addSkinWeights"]}
{"id": "C134", "title": "A character from a glTF file fits together", "statement": "A character that is loaded from a glTF file has the joints, collision capsules and locators of the hierarchy in the file; the parent of a joint comes before it, and capsules and locators are on joints that exist, whatever meshes the file has.", "quantifier": "every list of nodes and choice of roots", "why_tests_cant": "all combinations of hierarchies and meshes with and without skins", "anchors": ["momentum/io/gltf/gltf_io.cpp: populateCharacterFromModel, loadSkinnedMesh, createSkeletonWithOnlyRoot"]}
{"id": "C135", "title": "A motion saved to glTF is read back", "statement": "The parameter names, the values of every frame, the joint names and the offsets that are saved in a glTF file are read back as they were. Whatever the file holds, every frame that is read has one value per parameter and every joint has seven. Data of a wrong size is reported.", "quantifier": "every motion, every set of offsets and every contents of the extension", "why_tests_cant": "all sizes of motions and all malformed files", "anchors": ["momentum/io/gltf/gltf_builder.cpp: addMotionToModel", "momentum/io/gltf/gltf_io.cpp: getMotionFromModel"]}
