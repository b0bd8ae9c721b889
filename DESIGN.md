# Design of the formal model of momentum

The model is written in Rocq (Coq 8.16.1) under `rocq/theories/`. It is a
function-by-function transcription of selected C++ functions in `/repo`, with
each definition citing the file and lines it models. Properties are in
`properties.jsonl`; `MANIFEST.json` maps each property to its theorems.

## File layout

For each area `X` there are up to four files.

* `X_model.v`: the transcription of the code, with citations.
* `X_spec.v`: the small independent specification used in theorem statements
  (only where the standard library does not already provide the notion).
* `X_proofs.v`: lemmas.
* `X_props.v`: only the property theorems, each closed by `exact lemma`, a
  concrete `Example` beside each theorem that shows its hypotheses can be met,
  and `Print Assumptions` under each.

Theorems whose name ends in `_refuted` show, by a witness, that the full
English property is false of the code as written. They are findings. A theorem
that ends in `_partial` proves part of a property.

## Scalars and outcomes

* Kinematics, losses, error functions and solvers are modelled over Coq's real
  numbers `R` (with Coquelicot's `is_derive` for derivatives). Floating-point
  rounding, overflow, NaN and infinities are not modelled there.
* axel geometry uses `Q`, exact rationals (every finite float is one), so that
  comparisons compute and counterexamples are checked by evaluation.
  Rounding is not modelled.
* Indices, sizes, bytes and text use `nat`, `N`, `Z` and lists. Where the code
  relies on 64-bit wrap-around the model computes modulo 2^64.
* Failure is explicit: `Ok v`, `Throw` (a C++ exception), `CheckFail` (a failed
  `MT_CHECK`/`XR_CHECK`; it aborts in debug builds and is absent with NDEBUG),
  `UB` (out-of-bounds access or other undefined behaviour) and, for loops whose
  termination is itself a property, `OutOfFuel`.

## Trusted base

* Coq's kernel (checked again by `coqchk`), and the Coq standard library with
  mathcomp-independent Coquelicot for analysis.
* Axioms: only those of the standard library's classical real numbers
  (`ClassicalDedekindReals.sig_forall_dec`, `ClassicalDedekindReals.sig_not_dec`,
  `FunctionalExtensionality.functional_extensionality_dep`) and, through
  Coquelicot, `Classical_Prop.classic` and the choice/description axioms of
  `Coq.Logic` that it imports. `Print Assumptions` stands under every property
  theorem; the table at the end of this file lists the result.
* The faithfulness of the transcription: a reader has to compare each
  definition with the cited lines.

## Property plan

### C01 Forward kinematics composes the parent chain

Model `JointStateT::set`, `SkeletonStateT::set` (loop over joints, parent state looked up by index) over R with quaternions. Spec: composition along the explicit parent path of affine maps. Induction on joint index.

### C02 Forward kinematics is local to the subtree

Same model; induction on the joint index, using the inductive ancestor relation of the topology spec.

### C03 Joint derivative accessors are the true partial derivatives

Coquelicot `is_derive` of each coordinate of a world point along one joint parameter; product rule by induction on the parent chain.

### C04 Rigid transforms form a group and act on points

Model `TransformT` operations; quaternion algebra by `ring`/`field`.

### C05 World rotations stay unit and scales stay positive

Induction on the joint index with the invariant norm=1, scale>0.

### C06 isAncestor decides the ancestor relation

Model the loop with fuel; spec is the reflexive transitive closure of the parent relation; termination measure is the joint index.

### C07 commonAncestor returns the deepest common ancestor

Same. The general statement is refuted for forests (two roots); the single-root statement, and for forests the existing-common-ancestor statement, are proved.

### C08 Parameter transform is affine and its two overloads agree

Matrices as finite sums; the disagreement of overloads is refuted by a witness, and equality is proved for zero offsets.

### C09 Subsetting a parameter transform commutes with zero padding

Model the triplet loop of `subsetParameterTransform`; finite sums over triplets; induction.

### C10 Subsetting keeps parameter sets, pose constraints and limits consistent

Model the remapping of sets, constraints, limits; the index map is injective and order preserving; case analysis per limit type.

### C11 Mapping joints keeps the joint parameters of mapped joints

Model the triplet loop of `mapParameterTransformJoints`; loss of blend-shape indices refuted.

### C12 Model definition parsing terminates

Model the parser on token lists with fuel; show a program on which every fuel runs out.

### C13 A channel that refers to another joint channel copies its dependence

Same model; denotational spec as linear forms; induction on the channel list.

### C14 Robust loss derivative is the derivative of the loss

Model `value`/`deriv`; Coquelicot derivatives, monotonicity.

### C15 Constraint gradients are the derivative of the error

C03 composed with the linear transform and the loss by the chain rule; finite sums.

### C16 Gradient equals twice Jacobian-transpose times residual

Model gradient and Jacobian assembly for one constraint and for lists; algebra on finite sums.

### C17 Limit gradient is the derivative of the limit error

Model the four limit types; MinMax proved, Linear and HalfPlane refuted for weight not 1 and proved for weight 1.

### C18 Limit error is zero exactly inside the limits

Finite sums of squares; list induction for the clamp.

### C19 Model-parameter error gradient and Jacobian are consistent

Finite sums; derivative by Coquelicot; count by induction.

### C20 State error parameter gradient is the derivative of the error

Derivative of a quadratic; refuted for weights other than 0 and 1; proved for those.

### C21 A union of error functions contributes additively

Model of gradient accumulation; refuted by a witness; proved for weight 1 or zero incoming gradient.

### C22 Solver iteration count respects its bounds

Model `solve` as a loop over an arbitrary `doIteration`; induction on the remaining iterations.

### C23 Solver returns the error of the parameters it returns

Same model with the iteration evaluating the error before the update; refuted by a witness; the true relation (error of the previous iterate) is proved.

### C24 Gauss-Newton line search never accepts an increase

Model the backtracking loop; refuted by a witness; proved whenever some trial passes the Armijo test.

### C25 Disabled parameters are never moved by the subset solvers

Model the index compaction and scatter; frame theorem by induction on iterations.

### C26 Trust-region steps never increase the error

Model accept/reject loop over an arbitrary objective and step oracle.

### C27 Householder reflection annihilates and preserves norms

Vectors as lists of reals; algebra.

### C28 Online QR keeps the normal equations

Matrices as functions on indices with finite sums; invariant by induction over columns and blocks.

### C29 Column-indexed products use the selected columns

Refuted by a witness; correct for the identity selection.

### C30 Joined parameter vectors round trip

Seq_*: frames as lists of parameter vectors, the index tables built by the code's loops, every access checked. A specification of the layout (slot f i) is given apart from the code; setting and joining are proved to read and write exactly these slots, for every state reachable by the public calls.

### C31 Multithreaded sequence solving is schedule independent

SeqPar_*: the shared variables and one program counter per frame; a step is one column elimination, one lock operation or one queue operation of any task. Invariant: window f of the solver's memory equals that of frame f eliminated alone, the common rows equal the fold of the items 0..d-1, the ready queue holds the next items in order. The serial loop meets the same description, so the results are equal. A measure gives termination, the lock owners give progress.

### C32 Enabling a parameter makes it part of the solve

Seq_multi_proofs: the code's count is compared with the largest enabled slot; an iff statement, its positive part and a counterexample.

### C33 Jacobians do not depend on what the output matrix contained

SeqFn_*: the Jacobian loop over arbitrary old contents; a simulation between the first and the second call for the positive part, two counterexamples.

### C34 MMO motion files round trip

Bytes, Mmo_*: files as byte lists, the stream with its fail state, uninitialised memory as a parameter; reading back what was written by induction over the names.

### C35 Auxiliary parameters survive an MMO round trip

Mmo_proofs: a name counts as extra iff it is __m__ with m nonempty; the rows found are exactly the appended ones. Counterexamples for the empty name, a parameter named __x__ and a matrix without columns.

### C36 glTF accessor buffers round trip and do not disturb each other

Gltf_*: documents with buffers, views and accessors as byte lists; induction over the appends; reading back by strides.

### C37 Reading an accessor never reads outside its buffer

Gltf_proofs: the bytes touched are computed; outside iff the last element passes the end. Counterexample documents.

### C38 Reading from an in-memory FBX stream stays in bounds

FbxStream_*: state machine with an uninitialised error code; simulation with an ideal stream; exact description of out-of-bounds reads.

### C39 Validated polygon data triangulates safely

Polygon_*: validation equivalent to a packing of polygons; triangulation is the fan of each, by induction over the polygons.

### C40 Marker conversion maps the up axis to the documented up axis

Marker_*: the conversion is linear, keeps dot and cross products up to the factor; the image of the up axis is computed.

### C41 TRC units are honoured

Marker_*: loadTrc on a file described by its lines, words and fields; the unit used is the fifth field of the row; counterexample file in millimetres.

### C42 tokenize splits at delimiters and nothing is lost

Recursive model on lists of characters; induction.

### C43 Binary shape and prior files round trip

ShapeIO_*: files as byte lists, uninitialised memory as a parameter; reading back what was written; a truncated file as witness.

### C44 Skinning is the weighted sum over all influences

Skin_*: loop over an arbitrary order of the vertices; induction over the row; one row with an early zero as witness.

### C45 Remapping skin weights conserves weight

Skin_*: the two in-place passes as recursions over the row; weights per joint as invariant; permutation.

### C46 Simplifying a skeleton keeps the kept joints' world transforms

Simplify_*: the loop over the joints with an invariant that gives the new joints, the index map and the joint map in closed form; the walk to the nearest kept ancestor as a relation; induction over joints for the worlds; three-joint chains as witnesses of the refutations.

### C47 Identity fill and removal are inverse

Ident_*: the loop over rows with an invariant on the prefix; the type of numbers and the two operations are parameters; witness in binary32 (SpecFloat).

### C48 Locator joints keep locator positions

Locator_*: the loop in closed form (new joints, names, matrix entries, limits) by induction over the locators; the new rows of the matrix; forward kinematics of an extended skeleton; inverse of the parent's transform.

### C49 Requested marker frame range is valid

Align_*: arithmetic modulo 2^64 on N; witness for the wrapping sum.

### C50 Aligned allocation returns enough memory

Align_*: arithmetic modulo 2^64 on N; least multiple, least offset; witnesses near 2^64.

### C51 A built BVH is a well-formed tree over a permutation of its input

Explicit-stack build loop on lists of boxes over Q; well-founded measure; invariants.

### C52 BVH box queries miss nothing

Query loop over the node array; completeness by induction on the tree.

### C53 BVH traversal never overruns its fixed stacks or the caller's buffer

Stack depth as explicit outcome; refuted by witnesses.

### C54 Refit restores tight boxes

Refit recursion over the node array; containment proved, exactness refuted.

### C55 Overlap traversal reports every overlapping pair and honours stop

Recursion of the traversal; refuted by witnesses for capacity above one and for stop; completeness for capacity one.

### C56 Closest surface point query returns a closest primitive

Branch-and-bound on the tree; pruning lemma on box distance.

### C57 projectOnTriangle returns the closest point of the triangle

Tri_*: exact rational model of the region tests; each passed test gives a point satisfying the variational inequality at the corners, and if all fail the three barycentric coordinates are positive; the wide version by the uniqueness of the nearest point.

### C58 k-d tree closest point is exact

Kd_*: the construction (any permutation that std::partition and std::nth_element may give) as an inductive relation between nodes and points; the walk improves the best answer; the stack never exceeds its array.

### C59 k-d tree callbacks and results only mention real points

Kd_*: the same walk with the tests of the lanes as a parameter; witnesses on padding lanes.

### C60 Ray-box test is exact

Slab test over Q; interval algebra.

### C61 PoseConstraint equality is an equivalence

Map comparison with explicit out-of-range read; refuted by witness; symmetric when sizes agree.

### C62 Adding blend shape parameters replaces the previous ones

Compose the subset model with the append step; show that stripping the appended parameters gives the stripped transform back.

### C63 Number of skeleton parameters stays right after subsetting

Refuted by a witness on the subset model.

### C64 getGradient reports the same error as getError

Refuted by a linear limit with both parameters disabled; proved when each linear limit has an enabled parameter.

### C65 The robust loss is the published family

Define the published formula over the reals; prove equality where it holds and refute it by witnesses for negative alpha and for the slope of the L2 branch.

### C66 The solver function is the sum of its error functions

Each kind of error function is shown to meet a common contract (error along one parameter, gradient increment, 2 J^T r); the sum is by induction over the list.

### C67 Normal equations agree with the Jacobian

Induction over the list of functions; the matrices are compared entry by entry. A state function with a target of the wrong size refutes definedness.

### C68 Banded QR solves the banded least-squares problem

The banded storage is modelled and related to the dense factor; the same elimination lemma as for C28 is used, with sparsity as part of the invariant. A window that stops inside an earlier one refutes the unrestricted statement.

### C69 Gauss-Newton takes a descending regularised step

Normal equations over lists of rows; the quadratic form is rewritten as |J x|^2 + alpha |x|^2. LLT enters only through its contract, which elimination is proved to meet.

### C70 The stored iteration history is the run

Part of the loop invariant of C22.

### C71 Gradient descent follows the gradient

Direct from the model of the iteration and uniqueness of derivatives.

### C72 The gradient of a sequence is the derivative of its error

SeqFn_*: the loops are flattened to a list of calls; moving one joined entry moves one parameter of one frame, or of all frames, of each window; chain rule.

### C73 The Jacobian of a sequence agrees with its gradient

SeqFn_jac_proofs: per call the effect on every slot of the matrix; induction over the calls; sums over row blocks.

### C74 A motion file cut short is not silently trusted

Mmo_proofs: a read of a prefix agrees with the full read up to the cut; a counterexample shows the rest is uninitialised memory.

### C75 glTF arrays start at a multiple of their component size

Gltf_props: the start of each array from the stride rounding; counterexample for bytes followed by floats.

### C76 The FBX memory stream reports errors exactly

FbxStream_props: invariant relating the error code to the refused reads since ClearError.

### C77 Reading a text file sees every line and ends

Lines_*: the stream with its eof and fail bits; texts as lists of ended lines; induction over the lines; counterexamples for an unended last line and a lone CR.

### C78 The sections of a model definition are found

Lines_*: the section loop as a fold; sections as the decomposition of the line list at headers; induction over the sections.

### C79 checkBoundingBoxes tells whether the boxes are nested

Bvh_*: induction over the stored tree.

### C80 Ray queries of the hierarchy miss nothing

Bvh_*: the traversal lemma with the ray tests of C60 as the test; skipped primitives lie in boxes the ray misses.

### C81 rayTriangleIntersect finds the crossing point

Tri_model and Mesh_*: Cramer's rule as polynomial identities; the normalized determinant is compared by squares.

### C82 The closest surface point of a mesh is closest

Mesh_*: composition of the builder (C51), the search (C56) and the projection (C57).

### C83 Ray queries of a mesh report true crossings and the first one

Mesh_*: composition of the traversal (C80) with C81; the callbacks as folds over the visited faces.

### C84 k-d tree ball queries report each point once

Kd_*: the same induction, with the list of indices up to permutation.

### C85 Active parameters and active joints determine each other

Simplify_*: the two loops over the stored entries by induction; composition with C46.

### C86 A low-rank covariance matrix multiplies, inverts and measures what it stands for

Cov_*, Det: the factor from the QR model (C29), forward and back substitution; positive definiteness for uniqueness; det(U^T U) with mathcomp's determinant.

### C87 A mixture set from its parameters scores points by their weighted density

Mppca_*: inverse of the triangular factor; composition with C86.

### C88 The pose prior error is the distance to the best mode and its derivatives are exact

Prior_*: the maps by invariants over the double loop; the best mode by an invariant over the modes; locally the same mode stays best; the distance along one parameter is a polynomial.

### C89 Exchanging the pose prior is the same as building the function with it

Prior_*: the same invariants with arbitrary old maps; witnesses with one or two parameters.

### C90 Blend shapes add weighted offsets, and skinning uses the blended shape

Blend_*: points as a vector in threes; skinning through the theorems of C44.

### C91 Fitted blend weights are the best ones

Blend_*: an object with a cached factorization; an invariant over histories of calls; least squares by orthogonality of the residual; the solvers are parameters with their contract as hypothesis, and a solver that meets it is given.

### C92 A pose shape depends only on the pose

PoseShape_*: an invariant over the joints; quaternion algebra; the witness runs forward kinematics.

### C93 A scaled character poses at scale

CharUtil_*, CharScale_props: induction along the hierarchy for the joints; the attached objects follow from the relation between the joint states; witnesses with one joint.

### C94 A moved character poses where it was moved

CharUtil_*, CharMove_props: the conversion of a rotation matrix to a quaternion is proved right in all four branches; induction along the hierarchy; skinning by an invariant over the influences.

### C95 Removing joints leaves the rest of the character as it was

CharUtil_model, CharRemove_*: closed forms of the loops (numbering, removal flags, parameters, triplets, bitsets); induction along the hierarchy for the poses; a witness with a root and two arms.

### C96 Motions and identities are carried over by name

CharUtil_model, CharMotion_*: an invariant over the input names says which source every target has; with distinct names it is the only one.

### C97 Replacing a part of a skeleton keeps the rest and brings the new part

CharUtil_model, CharSplice_*: the order of the result as a relation between the two hierarchies; an invariant over the joints that are added, with the maps from old to new numbers; induction along the hierarchy for the poses; the search that does not end by induction on its fuel; witnesses of two and three joints.

### C98 Wide constraint stores keep what was added, also from many threads

SimdStore_*: a store shows a list of constraints per joint, kept by every call; for concurrent calls an invariant over the atomic steps (the count is the initial one plus the claimed slots minus the ones to be given back; claimed slots are distinct; finished writes are in place); witnesses for the joints that do not exist and for the counts.

### C99 Wide error functions measure and differentiate the stored constraints

Cells_model, SimdFn_*: the tasks as lists of writes to cells; sums over the packets regrouped into sums over the constraints (unused lanes have weight zero); derivatives by the lemmas of C15 and C16; rows of the Jacobian by an injective numbering; witnesses of one and two joints for what is refuted.

### C100 Wide error functions give the same result on any number of threads

Cells_*: an interleaving of loads and stores of tasks that write disjoint cells gives what the tasks do one after the other (invariant over the schedule); the row numbering shows that the tasks of getJacobian are disjoint; a schedule of eight steps that loses an addition to the gradient.

### C101 Ellipsoid limits pull a point to the surface

Ellipsoid_*: the ellipsoid branch of the three functions over the limit model of C17, with the walk from the point's joint up to the joint of the ellipsoid. The penalty is stated with the point of the surface on the ray through the limited point. The derivative of forward kinematics gives the gradient with the surface point held; for spheres the distance depends on the distance to the centre only, and motions without scaling keep it. Witnesses for what fails: an ellipsoid with half axes 1, 2, 1, a pair of joints moved together, the centre.

### C102 The closest points of two segments are found

Seg_*: the squared distance is a convex quadratic of the two parameters; the clamping steps of the function end in a point that meets the optimality conditions of the unit square, by case analysis with the symmetries s -> 1-s and t -> 1-t; strict convexity makes it the only minimum. The division that takes small numerators for 0 moves the points by a bounded amount. Witnesses for what fails.

### C103 Colliding capsules are penalized by how deep they overlap

Coll_*: the constructor, getError, getGradient and getJacobian over the models of forward kinematics, capsule states (C93) and closest points (C102). The penalty is stated with points of the axes and radii, without the internal quotients. The search for the common ancestor is related to the chains of the two joints by induction. The derivative combines the motion of points on a chain with the envelope argument: at the closest points the movement of the points along the axes does not change the distance. Witnesses for what fails.

### C104 Finding collisions with a tree gives the same result as testing every pair

Cbvh_*: the function with the tree's visits as an argument, which may be any list that names each pair at most once and every pair of boxes that meet; the tree model of C55 is shown to deliver one. A capsule's box is shown to contain its points, so unvisited pairs contribute nothing; the sum over visits is rearranged to the sum over the pairs of the other function. Closest points are symmetric in settled poses, so the order inside a pair does not matter there, also for the derivative, where the order may change with the parameter. Histories by induction over the calls. Witness: a capsule and a sphere whose error depends on the order.

### C105 Euler angles and rotation matrices describe the same rotation

Euler_*: the functions over real matrices given by columns, atan2 by cases, tolerance as an argument. Away from the poles the entries of the result are computed from sine and cosine of atan2 and asin and from the cofactor identities of a rotation matrix; near the poles the entries are bounded by what is left of the unit rows and columns. An angle in (-pi, pi] is determined by its sine and cosine. Witnesses for what fails.

### C106 Rotation vectors and averages of quaternions

Euler_*: sine and cosine of acos give the half angle; the rotation of a vector is compared with Rodrigues' formula. The matrix of the average is shown to have the agreement as its quadratic form, by induction over the list; the eigenvector is an argument that maximises the form. Witnesses for what fails.

### C107 The solver that factorises the Jacobian is the subset solver

GNQR_*: the iteration over the online QR model of C28. The factorisation's normal equations are those of the concatenated rows (induction over the blocks, empty ones skipped); a positive definite system has one solution, and the accepted trial is determined by the test, so one iteration equals one of the subset solver; a simulation over the solve loop lifts this to whole runs. Witness for line search: the objective of C24.

### C108 Model parameters can be found from joint parameters

InvPT_*: apply with the solver as an argument. The round trip is algebra on the entries; optimality transfers from the solver's contract through the affine form of apply (C08); with full rank a residual of zero determines the parameters. The normal equations, solved by the elimination of the solver model, are shown to meet the contract. Witness for the offsets: a transform with offset 5 and a perfect fit.

### C109 Several poses are solved with the error, gradient and Jacobian of all of them

MpFn_*: the three functions with their loops over frames, functions and parameters. Error and gradient are those of a sequence without sequence functions, whose derivative theorem is reused; the Jacobian loop is shown to write exactly the rows of each frame into the columns of its parameters over any old contents, so that zeros elsewhere are an invariant of the calls. Witnesses for the residual that is kept and for a function added between calls.

### C110 The times when four moving points are coplanar are found

Cub_*: the two solvers over the reals, with cosines and cube roots of the standard library. Cardano's formulas are proved by algebra from the triple angle and from cbrt^3; coplanarity is defined by a common plane and shown to be a zero volume, whose coefficients are those of the code by ring. Witnesses for the tolerances.

### C111 The distance of two edges is that of their closest points

EdgeD_*: the four cases. Optimality follows from convexity of the squared distance and first-order conditions in each clamped branch; short edges by the triangle inequality. Witness: two unit edges that cross at a small angle.

### C112 Continuous collision detection reports exactly the collisions of a time step

Ccd_*: the loops over candidate times with the functions of C110 and C111 and the projection onto a triangle over the reals. Soundness from theirs; completeness because contact implies coplanarity and the closest points then coincide. Witnesses: small edges, a small triangle, a flight over a triangle.

### C113 The error between the poses of two frames

StSeq_*: two poses, with the walk of ErrFn_*. Each frame's joint positions and axes have the velocities of C20 along its own parameter; the error is a sum of squared differences of two such paths, which gives the derivative for every pair of speeds. The rows are joined column block by column block. The contract of SeqFn_* is then an instance.

### C114 Poses are moved by rigid motions

TPose_*: the reduced character is built from the functions of ParamTransform_* and Simplify_*; its root has the transform of the full character's joint, because all parameters of the joints up to it are kept. Solver and random numbers are arguments. The rounds are an induction that keeps the other parameters. Below the root the chain of local transforms is the same before and after, which gives the bound for points. Witnesses: a root that can only turn, a rotation out of reach, a second root.

### C115 The block solver solves the least squares problem of all rows

BlockQR_*: blocks and common factor as matrices over the reals, with the isZero() test as a threshold. Invariant over the calls: the objective of the rows so far is that of the triangular factors plus a constant, because each Householder step preserves sums of squares. Back substitution then gives the minimiser. Witnesses for the small columns, the block gradient and a skipped block.

### C116 An iteration over several poses takes the Gauss-Newton step of all of them

MpSolve_*: the loop over frames and functions feeds the rows of MpFn_* to the solver of BlockQR_*. The order of the parameters in the joined vector is that of blocks followed by the common part, by an invariant on the two lists of parameters, so that the two objectives agree. Witnesses: a frame without functions, and the error (1+x^2)^2.

### C117 The normals of a mesh

Normals_*: scalars are reals or NaN, indices integers. The loop over faces keeps, for each vertex without a half-tested face, the sum of the normals of the faces so far; a face that names a vertex twice has no area. The rest is linear algebra of sums and uniqueness of directions. Witnesses: a NaN in a first coordinate; two faces of different size.

### C118 Parameters are extrapolated from the last two poses

Extrap_*: the two versions as functions on lists, with std::clamp and bitset::test and their failures. Each entry is compared with a specification of one value after another; the two versions agree by uniqueness of the limited change. Repetition: induction with a bound on the last change. Witnesses: more than 2048 parameters, a negative limit.

### C119 Skin weights are stored as given

SkinW_*: the double loop over vertices and influences, with reads and writes that can fail and the unchecked narrowing to 32 bits. Invariant over the loop; link to the sum that Skin_* proves skinning computes. Equality is Eigen's isApprox. Witnesses: nine influences, a large index, fewer weights than joints, three tables in a row.

### C120 The state of a character depends only on the character and the pose

CharState_*: set and setBindPose on top of the models of parameter transforms, limits, forward kinematics, skinning, blend and pose shapes, normals, locators and capsules. History: an invariant of the mesh that a state holds, and skinning overwrites every vertex. Parts: composition of the theorems of C01, C18, C44, C92 and C117. Witnesses: two characters after each other, a mesh without normals, a limit that excludes zero.

### C121 The error of skinned vertices against their targets

VErr_*: the meshes from the models of blend shapes, normals and skinning; the iterator over the joints above the influences as a recursion on a list of bones that merges bones of one joint; gradient and Jacobian as increments. Iterator: whatever is additive in weight and weighted point sums over the visits to the sum over the chains of the influences. Derivative: that of a skinned vertex along one parameter, from the joint velocities of FK_* and the linear part for shapes. Witnesses: a negative weight, a weight after a zero, a disabled parameter, a plane without a blend shape.

### C122 Binary files of joint parameters and pose shapes

PoseIO_*: both loaders on a stream of bytes (Bytes), with the memory that a failed read leaves as an argument and undefined behaviour where counts are not initialised. Round trip with a specification of the formats; the converse by decomposing an arbitrary byte string; cut files by the prefix lemma of C06's reads; the sizes of whatever is loaded, composed with the theorem of PoseShape_props. Witnesses: a missing file, two memories, 2^31 frames, a joint that does not exist.

### C123 Locators are loaded as they were saved

LocIO_*: reader and writer on text, with trim and tokenize from Str_*; numbers, their printing and reading and the bind pose transformations are arguments with a contract. Round trip: each printed line is read as its field, then induction over the locators. Any text: induction over the lines. Undefined behaviour (empty views, uninitialised numbers, joints out of range) is an outcome. Witnesses: limit origin, colons in names, joints of the same name, parents given as numbers, blank lines, empty names, cut files.

### C124 Parameter limits are parsed as they were written

LimIO_*: the tokenizer, the parser and the writer on text; numbers, their printing and reading, the scaling of half planes and the decomposition of ellipsoids are arguments with a contract. Round trip: each printed piece is lexed as its tokens and parsed, groups of linear segments are split off, then induction over the limits. Any text: case analysis on each kind of line. Characters that <cctype> is not defined for are undefined behaviour. Witnesses: names with periods and other characters, ranges, weights, gaps.

### C125 Model definitions are loaded consistently

ModelDef_*: the loops over the lines of parameter sets and pose constraints as one function with the treatment of a word as argument, the whole loader from the parts of C12 (parameter transform), C77 (lines) and C124 (limits), and loadParameters as a function from the character before to the character after and the way it ends. Sets and constraints: induction over the lines against a specification by words. Consistency: composition with the range theorem of C124. Witnesses: first and last lines, blanks, an exception, an empty map.

### C126 The main subject of a recording

Subject_*: the counting of markers and the choice of an actor as loops over lists; the loaders of the formats are arguments. The specification says which sequence is the main one by its frames and its name, without the loops. Proof: invariant of the loop over the actors, uniqueness of the main sequence. Witnesses: an unnamed subject next to unlabeled markers, an upper-case extension.

### C127 A character and its files belong together

FullChar_*: the two loaders as compositions of the models of C78 (sections), C125 (parameters) and C123 (locators), with the loaders of glTF and FBX as arguments. Proof: composition of the theorems about the parts. Witnesses: a parameter file without header, sections with other names.

### C128 What is written to JSON is read back

Json_*: JSON values as trees whose objects are lists sorted by key, the conversions of nlohmann::json that are used, and the functions that write and read as loops over these. Proof: objects stay sorted and behave like maps; what an object holds after a loop of assignments, by induction; reading gives that back. Witnesses: a linear limit with a range, an empty pose constraint, an unknown parameter, a column that is too long.

### C129 The parameter transform is read back from JSON

JsonPT_*: assignments along a path in a JSON value, the loops that write every stored entry and the nested loops that read. Proof: which leaves a value has after an assignment, by induction over the path; which it has after the loops; reading gives an entry for every leaf, none twice. For arbitrary values: every step ends in a result or an exception, and indices come from searches. Witnesses: a transform without entries, offsets that are not zero, an entry with an unknown parameter.

### C130 The skeleton of a glTF file

GltfTree_*, GltfOnce_*: the recursion over nodes with a bound on its depth, the loop over the roots and the sorting by parent; of an object its node and its parent. The specification says by an inductive relation which nodes are below a root and which joint is the last one above them. Proof: induction over the depth, with the objects added so far as invariant; termination by a rank that decreases towards the children; uniqueness because two paths to a node of a tree are one. Witnesses: a node that is its own child, a child whose index is the number of nodes, locators that are sorted, two roots, a child of two nodes.

### C131 The roots of the skeletons of a glTF file

GltfRoots_*: the climb to the root with a bound on its steps, the comparison of two paths, the loops over joints and skins, with the map of parents as an argument. GltfParents_*: the rounds that build this map, with the nodes that are done and to do as invariant. The specification is the relation of being above in the map of parents. Proof: paths are determined by their end, so that the last common node is the closest common ancestor; invariant of the loop over the joints (cover, different trees, closest); a skin that is left out has a root above it of smaller rank. Witnesses: two skins with the same root, two skins with the same two roots.

### C132 The mesh of a glTF file

GltfMesh_*: addMesh on lists, with the contents of buffers as fields of a primitive, and the loop over all primitives. The specification is the list of corners of all faces, by position. Proof: induction over the primitives with the sizes of all fields as invariant; a shifted index in a longer list is the old index in the new part. Witnesses: a primitive without texture coordinates before one that has some, indices of another primitive, no indices.

### C133 The skin weights of a glTF file

GltfSkin_*: the loops over sets, vertices and influences as recursions on lists, with the contents of buffers as arguments. Proof: invariant that the columns of later sets are zero, by induction over the sets; the joint of a node by the theorem about the map of C130. Witnesses: a skin that names a locator, a set for another number of vertices, a node that does not exist.

### C134 A character from a glTF file fits together

GltfChar_*: the hierarchy of C130, the nodes that nothing was made from, and the replacement of the skeleton; of the objects their parents. Proof: from the order of C130, by cases on the meshes. Witness: a capsule on a second joint next to a mesh without skin.

### C135 A motion saved to glTF is read back

GltfMotion_*: writing and reading of the motion in the extension, a matrix as the list of its columns. Proof: cutting a list into columns undoes concatenation, by induction over the frames. Witnesses: offsets without frames, offsets of a wrong size.


## What is modelled

Each model file transcribes functions of the source files in its row; the comment above each definition gives
the lines and the simplifications. A function of these files that no comment cites is not modelled.

| Model | Source files |
|---|---|
| `Skeleton_model` | `momentum/character/skeleton.h`, `momentum/character/skeleton.cpp`, `momentum/character/types.h` |
| `Transform_model` | `momentum/math/transform.h`, `momentum/math/transform.cpp` |
| `FK_model` | `momentum/character/joint.h`, `momentum/character/joint_state.h`, `momentum/character/joint_state.cpp`, `momentum/character/skeleton_state.h`, `momentum/character/skeleton_state.cpp`, `momentum/math/types.h`, `momentum/character/types.h` |
| `ParamTransform_model` | `momentum/character/parameter_transform.h`, `momentum/character/parameter_transform.cpp`, `momentum/character/parameter_limits.h`, `momentum/math/types.h` |
| `PoseConstraint_model` | `momentum/character/parameter_transform.h`, `momentum/math/utility.h` |
| `Limits_model` | `momentum/character_solver/limit_error_function.cpp`, `momentum/character/parameter_limits.cpp`, `momentum/character_solver/skeleton_error_function.h`, `momentum/character_solver/limit_error_function.h` |
| `Str_model` | `momentum/common/string.cpp` |
| `ParamIO_model` | `momentum/io/skeleton/parameter_transform_io.cpp`, `momentum/character/types.h`, `momentum/common/string.h` |
| `Loss_model` | `momentum/math/generalized_loss.h`, `momentum/math/generalized_loss.cpp` |
| `Constraint_model` | `momentum/character_solver/constraint_error_function.h`, `momentum/character_solver/position_error_function.cpp`, `momentum/character_solver/plane_error_function.cpp`, `momentum/character_solver/orientation_error_function.cpp`, `momentum/character_solver/normal_error_function.cpp`, `momentum/character_solver/aim_error_function.cpp`, `momentum/character_solver/fixed_axis_error_function.cpp`, `momentum/character_solver/skeleton_solver_function.cpp` |
| `ErrFn_model` | `momentum/character_solver/model_parameters_error_function.cpp`, `momentum/character_solver/state_error_function.cpp`, `momentum/character_solver/skeleton_error_function.h`, `momentum/character_solver/skeleton_solver_function.cpp`, `momentum/diff_ik/union_error_function.cpp`, `momentum/character_solver/model_parameters_error_function.h`, `momentum/character_solver/state_error_function.h` |
| `QR_model` | `momentum/math/online_householder_qr.h`, `momentum/math/online_householder_qr.cpp` |
| `QRBanded_model` | `momentum/math/online_householder_qr.h`, `momentum/math/online_householder_qr.cpp` |
| `Solver_model` | `momentum/character_solver/skeleton_solver_function.cpp`, `momentum/solver/solver.cpp`, `momentum/solver/gauss_newton_solver.cpp`, `momentum/solver/subset_gauss_newton_solver.cpp`, `momentum/solver/gradient_descent_solver.cpp` |
| `TrustRegion_model` | `momentum/character_solver/trust_region_qr.cpp`, `momentum/character_solver/trust_region_qr.h` |
| `SeqPar_model` | `momentum/character_sequence_solver/sequence_solver.cpp`, `momentum/character_sequence_solver/sequence_solver.h` |
| `Seq_model` | `momentum/character_sequence_solver/sequence_solver_function.h`, `momentum/character_sequence_solver/sequence_solver_function.cpp`, `momentum/character_sequence_solver/multipose_solver_function.h`, `momentum/character_sequence_solver/multipose_solver_function.cpp` |
| `SeqFn_model` | `momentum/character_sequence_solver/sequence_solver_function.cpp`, `momentum/character_sequence_solver/sequence_error_function.h`, `momentum/character_sequence_solver/model_parameters_sequence_error_function.cpp`, `momentum/character_sequence_solver/model_parameters_sequence_error_function.h` |
| `Mmo_model` | `momentum/io/motion/mmo_io.cpp`, `momentum/character/skeleton.h` |
| `Gltf_model` | `momentum/io/gltf/utils/accessor_utils.h` |
| `FbxStream_model` | `momentum/io/fbx/fbx_memory_stream.cpp` |
| `Polygon_model` | `momentum/io/openfbx/polygon_data.cpp` |
| `Lines_model` | `momentum/io/common/stream_utils.cpp`, `momentum/io/skeleton/parameter_transform_io.cpp`, `momentum/common/string.h` |
| `Marker_model` | `momentum/io/marker/conversions.cpp`, `momentum/io/marker/trc_io.cpp`, `momentum/io/marker/coordinate_system.h`, `momentum/character/marker.h` |
| `Box_model` | `axel/axel/BoundingBox.cpp`, `axel/axel/BoundingBox.h`, `axel/axel/Bvh.h` |
| `Bvh_model` | `axel/axel/Bvh.h`, `axel/axel/Bvh.cpp` |
| `Bvh_pair_model` | `axel/axel/Bvh.h` |
| `Tri_model` | `axel/axel/math/PointTriangleProjectionDefinitions.h`, `axel/axel/math/RayTriangleIntersection.cpp`, `axel/axel/math/BoundingBoxUtils.h`, `axel/axel/TriBvh.cpp` |
| `Kd_model` | `axel/axel/SimdKdTree.cpp`, `axel/axel/Checks.h`, `axel/axel/SimdKdTree.h` |
| `Align_model` | `momentum/common/aligned.h`, `momentum/simd/simd.h`, `momentum/marker_tracking/process_markers.cpp` |
| `Ident_model` | `momentum/marker_tracking/tracker_utils.cpp` |
| `Locator_model` | `momentum/marker_tracking/tracker_utils.cpp`, `momentum/character/locator.h`, `momentum/character/character.h` |
| `Skin_model` | `momentum/character/linear_skinning.cpp`, `momentum/character/character.cpp`, `momentum/character/character_utility.cpp`, `momentum/character/skin_weights.h` |
| `Simplify_model` | `momentum/character/character.cpp` |
| `ShapeIO_model` | `momentum/io/shape/blend_shape_io.cpp`, `momentum/io/skeleton/mppca_io.cpp`, `momentum/character/blend_shape.h`, `momentum/character/blend_shape_base.h`, `momentum/math/mppca.h` |
| `Cov_model` | `momentum/math/covariance_matrix.h`, `momentum/math/covariance_matrix.cpp` |
| `Mppca_model` | `momentum/math/mppca.h`, `momentum/math/mppca.cpp` |
| `Prior_model` | `momentum/character_solver/pose_prior_error_function.h`, `momentum/character_solver/pose_prior_error_function.cpp` |
| `Blend_model` | `momentum/character/blend_shape_base.h`, `momentum/character/blend_shape_base.cpp`, `momentum/character/blend_shape.h`, `momentum/character/blend_shape.cpp`, `momentum/character/blend_shape_skinning.cpp` |
| `PoseShape_model` | `momentum/character/pose_shape.h`, `momentum/character/pose_shape.cpp` |
| `CharUtil_model` | `momentum/character/character_utility.cpp`, `momentum/character/character.cpp`, `momentum/character_solver/limit_error_function.cpp`, `momentum/character/parameter_limits.h`, `momentum/character/collision_geometry.h`, `momentum/math/mesh.h`, `momentum/character/character.h`, `momentum/character/locator_state.cpp`, `momentum/character/collision_geometry_state.cpp` |
| `SimdStore_model` | `momentum/character_solver/simd_position_error_function.h`, `momentum/character_solver/simd_plane_error_function.h`, `momentum/character_solver/simd_normal_error_function.h`, `momentum/simd/simd.h`, `momentum/character_solver/simd_position_error_function.cpp`, `momentum/character_solver/simd_plane_error_function.cpp`, `momentum/character_solver/simd_normal_error_function.cpp` |
| `Cells_model` | `momentum/character_solver/simd_position_error_function.cpp` |
| `SimdFn_model` | `momentum/character_solver/simd_position_error_function.h`, `momentum/character_solver/simd_plane_error_function.h`, `momentum/character_solver/simd_normal_error_function.h`, `momentum/character_solver/simd_position_error_function.cpp`, `momentum/character_solver/simd_plane_error_function.cpp`, `momentum/character_solver/simd_normal_error_function.cpp` |
| `Ellipsoid_model` | `momentum/character_solver/limit_error_function.cpp`, `momentum/character_solver/skeleton_error_function.h` |
| `Seg_model` | `momentum/math/utility.cpp` |
| `Coll_model` | `momentum/character_solver/collision_error_function_stateless.cpp`, `momentum/character/collision_geometry_state.h`, `momentum/character/collision_geometry_state.cpp`, `momentum/character_solver/collision_error_function_stateless.h`, `momentum/character_solver/skeleton_error_function.h` |
| `Cbvh_model` | `momentum/character_solver/collision_error_function.cpp`, `momentum/character/collision_geometry_state.h`, `momentum/character_solver/collision_error_function.h` |
| `Euler_model` | `momentum/math/utility.cpp`, `momentum/math/utility.h` |
| `GNQR_model` | `momentum/character_solver/gauss_newton_solver_qr.cpp` |
| `InvPT_model` | `momentum/character/inverse_parameter_transform.h`, `momentum/character/inverse_parameter_transform.cpp` |
| `MpFn_model` | `momentum/character_sequence_solver/multipose_solver_function.cpp` |
| `Cub_model` | `axel/axel/math/CoplanarityCheck.cpp` |
| `EdgeD_model` | `axel/axel/math/EdgeEdgeDistance.cpp` |
| `Ccd_model` | `axel/axel/math/ContinuousCollisionDetection.cpp`, `axel/axel/math/PointTriangleProjectionDefinitions.h` |
| `StSeq_model` | `momentum/character_sequence_solver/state_sequence_error_function.cpp`, `momentum/character_solver/state_error_function.cpp`, `momentum/character_sequence_solver/state_sequence_error_function.h`, `momentum/character_sequence_solver/sequence_error_function.h` |
| `TPose_model` | `momentum/character_solver/transform_pose.cpp`, `momentum/character/parameter_transform.cpp` |
| `BlockQR_model` | `momentum/math/online_householder_qr.h`, `momentum/math/online_householder_qr.cpp` |
| `MpSolve_model` | `momentum/character_sequence_solver/multipose_solver.cpp` |
| `Normals_model` | `momentum/math/mesh.cpp` |
| `Extrap_model` | `momentum/character/skeleton_utility.cpp` |
| `SkinW_model` | `momentum/character/skin_weights.cpp`, `momentum/character/skin_weights.h` |
| `CharState_model` | `momentum/character/character_state.cpp`, `momentum/math/mesh.h`, `momentum/character/character.h`, `momentum/character/character_state.h`, `momentum/character/linear_skinning.cpp`, `momentum/character/locator_state.cpp`, `momentum/character/character.cpp` |
| `VErr_model` | `momentum/character_solver/vertex_error_function.cpp`, `momentum/character_solver/vertex_error_function.h`, `momentum/character_solver/position_error_function.h`, `momentum/character_solver/plane_error_function.h` |
| `PoseIO_model` | `momentum/io/motion/joint_params_binary_io.cpp`, `momentum/io/shape/pose_shape_io.cpp`, `momentum/character/pose_shape.h` |
| `LocIO_model` | `momentum/io/skeleton/locator_io.cpp`, `momentum/character/locator.h`, `momentum/common/string.h` |
| `LimIO_model` | `momentum/io/skeleton/parameter_limits_io.cpp`, `momentum/character/parameter_limits.h`, `momentum/math/types.h` |
| `ModelDef_model` | `momentum/io/skeleton/parameter_transform_io.cpp`, `momentum/io/skeleton/parameters_io.cpp`, `momentum/math/types.h`, `momentum/character/parameter_transform.cpp` |
| `Subject_model` | `momentum/io/marker/marker_io.cpp`, `momentum/character/marker.h` |
| `FullChar_model` | `momentum/io/character_io.cpp` |
| `Json_model` | `momentum/io/gltf/utils/json_utils.cpp`, `momentum/io/gltf/utils/json_utils.h`, `momentum/math/constants.h` |
| `JsonPT_model` | `momentum/io/gltf/utils/json_utils.cpp`, `momentum/io/gltf/gltf_builder.cpp`, `momentum/character/parameter_transform.cpp` |
| `GltfTree_model` | `momentum/io/gltf/gltf_io.cpp` |
| `GltfRoots_model` | `momentum/io/gltf/gltf_io.cpp` |
| `GltfParents_model` | `momentum/io/gltf/gltf_io.cpp` |
| `GltfMesh_model` | `momentum/io/gltf/gltf_io.cpp`, `momentum/math/mesh.h` |
| `GltfSkin_model` | `momentum/io/gltf/gltf_io.cpp` |
| `GltfChar_model` | `momentum/io/gltf/gltf_io.cpp` |
| `GltfMotion_model` | `momentum/io/gltf/gltf_builder.cpp`, `momentum/io/gltf/gltf_io.cpp` |

Specification and proof files cite further files where a theorem needs them.

## What is not modelled

* Floating-point rounding, overflow and NaN, except in the refutations that compute with binary32 (SpecFloat) and where a model says otherwise.
* Eigen, Ceres, Embree, dispenso, OpenFBX, fx-gltf, ezc3d, drjit and the C++ library themselves: a solver or decomposition of a library is an argument of the model, with its contract as a hypothesis and an example of an argument that meets it.
* The memory model of C++ beyond interleavings of single loads, stores and atomic operations; timing; logging; the Python bindings; the applications under `examples`; the viewers under `gui`.
* The Embree variants and the float and double instances as such: templates are modelled once, over the scalars named above.
* These source files as a whole:

  * `axel/axel/BvhEmbree.cpp`
  * `axel/axel/BvhFactory.cpp`
  * `axel/axel/TriBvhEmbree.cpp`
  * `axel/axel/math/PointTriangleProjection.cpp`
  * `momentum/character_solver/simd_collision_error_function.cpp`
  * `momentum/common/log.cpp`
  * `momentum/common/progress_bar.cpp`
  * `momentum/diff_ik/fully_differentiable_body_ik.cpp`
  * `momentum/diff_ik/fully_differentiable_motion_error_function.cpp`
  * `momentum/diff_ik/fully_differentiable_orientation_error_function.cpp`
  * `momentum/diff_ik/fully_differentiable_pose_prior_error_function.cpp`
  * `momentum/diff_ik/fully_differentiable_position_error_function.cpp`
  * `momentum/diff_ik/fully_differentiable_skeleton_error_function.cpp`
  * `momentum/diff_ik/fully_differentiable_state_error_function.cpp`
  * `momentum/gui/rerun/logger.cpp`
  * `momentum/gui/rerun/logging_redirect.cpp`
  * `momentum/io/fbx/fbx_io.cpp`
  * `momentum/io/fbx/fbx_io_unsupported.cpp`
  * `momentum/io/marker/c3d_io.cpp`
  * `momentum/io/openfbx/openfbx_io.cpp`
  * `momentum/marker_tracking/app_utils.cpp`
  * `momentum/marker_tracking/marker_tracker.cpp`
  * `momentum/math/simd_generalized_loss.cpp`
  * `momentum/solver/solver_function.cpp`

## Findings

Each theorem refutes a property as stated, with a witness that the model computes; the comment above the theorem says what goes wrong.

* C04, `transform_needs_unit_rotation_refuted`: Without a unit rotation composition does not act as expected: the code relies on its callers to keep rotations normalised.
* C07, `common_ancestor_forest_refuted`: C07, finding: with two roots commonAncestor can return a joint that is not a common ancestor, and swapping the arguments changes the answer.
* C08, `apply_overloads_agree_refuted`: C08 refuted: the overloads do not agree in general.
* C11, `map_joints_keeps_blend_shapes_refuted`: C11 refuted part: the blend-shape parameter indices are lost, even for the identity map.
* C61, `pose_constraint_equality_symmetric_refuted`: C61 refuted: in general it is neither symmetric nor memory safe: the empty constraint equals every other, and comparing the other way round reads past the end of the empty map.
* C63, `num_skeleton_parameters_after_subset_refuted`: C63 refuted: numSkeletonParameters is not the number of parameters that are neither blend shape nor face parameters once a subset dropped some: here it is negative.
* C17, `limit_gradient_uses_limit_weight_refuted`: the gradient of a linear limit leaves out the weight of the limit.
* C17, `ellipsoid_gradient_refuted`: the closest point is found by scaling the point onto a sphere and back, which is not the closest point of a proper ellipsoid, and the gradient is not the derivative of the error.
* C18, `limit_index_check_refuted`: C18. A limit whose index equals the number of parameters passes the check in getError and reads out of bounds.
* C18, `apply_passive_overlapping_refuted`: C18. Two passive limits on the same joint parameter: the later wins.
* C64, `limit_gradient_returns_error_refuted`: getGradient counts a linear limit whose parameters are both disabled, getError does not.
* C42, `tokenize_empty_refuted`: C42. tokenize(s, d, false) of the empty string returns no piece although the empty string splits into one (empty) piece.
* C42, `trim_keeps_other_characters_refuted`: C42. trim also removes NUL characters, which are not in whiteChars.
* C12, `parse_terminates_refuted`: C12. A channel that mentions itself after one of its own parameters is never done: the triplet list grows as fast as the loop walks it.
* C13, `reference_copies_constant_refuted`: C13. The constant of a referenced channel is not part of what is copied.
* C13, `constants_add_up_refuted`: C13. Of several constants in one expression only the last one counts.
* C65, `negative_alpha_matches_paper_refuted`: Every alpha below -1e-9 is treated as minus infinity: alpha = -2 (Geman-McClure) does not give the loss of the paper.
* C65, `loss_slope_same_for_every_alpha_refuted`: the slope at zero of the squared loss is twice that of all other members of the family.
* C15, `constraint_gradient_small_residual_refuted`: C15. A residual within the tolerance of isZero: getGradient reports error 0 and adds nothing, while the error and its derivative are not 0.
* C19, `model_parameters_jacobian_negative_weight_refuted`: A negative weight counts in getError but has no row in getJacobian.
* C20, `state_gradient_parameter_weight_refuted`: With any other weight the derivative of the parameter term is off by a factor of that weight: here it is 3 times as large as what getGradient adds.
* C21, `union_gradient_refuted`: A union of weight 2 doubles the gradient of the functions before it.
* C67, `solver_derivatives_defined_refuted`: A state error function whose target has the wrong size returns without setting usedRows, which getSolverDerivatives then reads uninitialised.
* C28, `online_qr_reset_keeps_regularisation_refuted`: reset() does not bring a solver back to the state it was constructed in: the regularisation is lost, so an underdetermined system that was solvable no longer is.
* C29, `column_selection_transpose_times_refuted`: transpose_times does not multiply by the selected columns.
* C68, `banded_qr_any_window_order_refuted`: When a later window stops inside an earlier one, sizes that the code accepts give an answer that is not the minimiser.
* C23, `solver_returns_current_error_refuted`: The returned error is not the error of the returned parameters.
* C24, `line_search_never_increases_refuted`: On a least-squares objective with exact Jacobian both solvers can end an iteration with a larger error than they started it with, although line search is on.
* C70, `solve_iteration_count_refuted`: A solver whose iterations all report the error 8.
* C30, `sequence_join_no_frames_refuted`: With no frame at all, asking for the joined vector reads a frame that does not exist as soon as one parameter is universal: the round trip needs at least one frame.
* C30, `multipose_join_no_frames_refuted`: With no frame the returned universal parameters are uninitialised memory.
* C32, `multipose_enabled_refuted`: Enabling parameter 0 alone solves for nothing, and an enabled universal parameter followed by an enabled per-frame one is left out.
* C33, `sequence_jacobian_again_refuted`: A universal parameter and one sequence function: the second call adds to the first.
* C33, `sequence_jacobian_history_refuted`: No universal parameter, no sequence function: the Jacobian at one point after a call at another differs from the one computed on a fresh matrix, in a column that belongs to another frame.
* C35, `extra_parameters_empty_name_refuted`: The unconditional claim fails: an extra parameter without a name is lost, ...
* C35, `extra_parameters_mixed_refuted`: ... a parameter of the character named like an extra one is taken for an extra one, ...
* C35, `extra_parameters_no_columns_refuted`: ... and extra names with a matrix without columns pass the checks of saveMmo, and then a matrix is assigned to one of another width.
* C74, `cut_motion_file_refuted`: The rest is whatever the memory held: a cut file is loaded without an error, with a result that depends on uninitialised memory.
* C36, `accessor_round_trip_refuted`: Beyond 4 GiB the stored offset wraps and other bytes come back.
* C75, `array_starts_aligned_refuted`: Without alignment a float array can start anywhere.
* C37, `accessor_read_in_bounds_refuted`: A document that makes the code read behind its buffer, and one with an index out of range.
* C38, `memory_stream_in_bounds_refuted`: So the claim for every history fails: after moving the place before the data, or behind it in the modern branch, a read leaves the data; with the older interface a negative count does.
* C76, `memory_stream_error_refuted`: Without it the code is indeterminate: the constructor does not set it.
* C39, `accepted_polygons_triangulate_refuted`: With more than 2^31 vertices the claim fails: indices are stored as signed 32-bit numbers.
* C77, `line_loop_drops_rest_refuted`: With a rest behind the last line end the loop sees everything but the rest.
* C77, `line_loop_endless_refuted`: With a lone CR at the end it never stops.
* C78, `sections_found_refuted`: Without an end the last line is lost: a parameter is missing from its section.
* C40, `marker_up_axis_refuted`: So it never goes to the documented Y, and two files of one scene with different up axes come out upside down to each other.
* C41, `trc_units_refuted`: With millimetres in the header it is loaded at 10 cm instead of 1 cm.
* C52, `query_single_refuted`: A tree of one box returns it whatever the query.
* C53, `build_stack_refuted`: 130 boxes at growing distances: the build writes past its stack of 128 entries.
* C53, `query_stack_refuted`: 70 boxes: the build succeeds, and a query for all of them writes past the stack of 64.
* C53, `query_buffer_refuted`: A leaf with two boxes is written to a buffer with room for one.
* C54, `refit_tight_refuted`: Node boxes are not shrunk: after the boxes moved, the root still spans the old places too.
* C55, `leaf_pairs_refuted`: With two boxes per leaf an overlapping pair is not reported.
* C55, `pairs_stop_refuted`: A callback that asks to stop is called again.
* C56, `closest_empty_refuted`: The empty tree is read out of bounds.
* C80, `ray_empty_refuted`: On the empty tree the ray queries read a node that is not there.
* C57, `project_on_triangle_refuted`: If the first two corners coincide and the query lies on the side of the third, projectOnTriangle divides zero by zero: the point is not finite.
* C57, `project_lane_refuted`: The wide version is not finite for every triangle whose last two corners coincide, where the scalar one is right.
* C81, `ray_triangle_refuted`: The margin is absolute: a small triangle is never hit, however the ray goes through it.
* C58, `kd_closest_refuted`: With the only point farther away than the filler, closestPoint reports the index INT_MAX.
* C59, `kd_closest_accept_refuted`: Two callbacks that agree on every point get different answers: the callback is asked about INT_MAX, and the index INT_MAX is reported.
* C59, `kd_closest_normal_refuted`: The filler hides a point from the query with normals: the last point is reported though the second one is closer.
* C84, `kd_sphere_refuted`: A ball that contains the filler gives the index INT_MAX.
* C47, `identity_round_trip_refuted`: in 32-bit floats adding and removing an identity of 2^30 turns the value 1 into 0.
* C49, `frame_span_refuted`: With a very large number of frames the sum wraps, and the span reaches behind the data.
* C50, `round_up_refuted`: Near the end of the address space the sum wraps, and the result is zero.
* C50, `aligned_alloc_refuted`: For 2^62 - 1 floats in blocks of 32 bytes, the block has no bytes at all.
* C44, `ssd_refuted`: An influence after one of weight zero is lost.
* C46, `simplify_zero_refuted`: A constant translation of a removed joint in the parameter transform becomes part of the new skeleton, so that zero joint parameters give a different world.
* C46, `simplify_rotation_refuted`: A constant rotation of a removed joint is lost, also in the pose of zero model parameters.
* C46, `simplify_axes_refuted`: A translation parameter of a kept joint below a removed one with a pre-rotation acts along other axes.
* C43, `blend_truncated_refuted`: a blend shape file cut short loads without an error, with values that are whatever was in memory.
* C43, `header_truncated_refuted`: a file cut in its header is read with sizes that were never set.
* C43, `mppca_L_refuted`: But it is another matrix: set gives a lower triangular L, the transposed Cholesky factor that loadMppca computes is upper triangular. So a saved and loaded mixture differs from the original.
* C86, `cov_logdet_refuted`: A negative sigma gives the same matrix, but the check on the diagonal fails.
* C88, `prior_jump_refuted`: The error is not continuous: the mode with the highest score changes where the scores are equal, and there the distances differ by the difference of the constants.
* C89, `prior_set_refuted`: setPosePrior keeps the parameter indices of the old prior.
* C89, `prior_set_jacobian_refuted`: A smaller prior leaves a column index that the new factor does not have, and no prior at all is a null pointer that is used.
* C90, `skin_blend_refuted`: C90: a character without a blend shape is not skinned safely, although the code means to allow it: a null pointer is dereferenced.
* C91, `estimate_stale_refuted`: C91: after setShapeVectors the fit is made with the old shape vectors: with shape 2 and a vertex at 2 it finds 2 instead of 1, at distance 2 instead of 0.
* C91, `estimate_regularization_refuted`: C91: without weights the regularization is ignored: 1 is returned where 1/2 is better.
* C91, `estimate_approx_refuted`: C91: a fit changes what isApprox says, though it changes no shape.
* C92, `pose_shape_refuted`: a full turn of a joint changes the shape, because q and -q give different shapes.
* C93, `scale_parameters_refuted`: The same parameters do not give the scaled pose if they move a joint: the parameter transform is not scaled.
* C93, `scale_ellipsoid_refuted`: An ellipsoid limit keeps the size of its ellipsoid: only the linear part of the map holds it, and that is not scaled.
* C93, `scale_blend_refuted`: Blend shapes are not scaled: a mesh that is skinned from its blend shape keeps its size.
* C94, `transform_parameters_refuted`: The same parameters do not give the moved pose if they move the root.
* C94, `transform_roots_refuted`: Only the first joint is moved: a second root stays.
* C94, `transform_reflection_refuted`: A reflection passes the check of the singular values, but the skinned mesh is not reflected.
* C95, `remove_pose_refuted`: Constant offsets are lost: the arm that stays moves.
* C95, `remove_shapes_refuted`: A parameter that only drives a blend shape is lost, although the blend shape is kept; a joint parameter that is driven is not marked as active; pose shapes name joints that are no longer there.
* C95, `remove_bind_refuted`: An inverse bind pose that is not that of zero parameters is replaced.
* C96, `motion_duplicates_refuted`: With two parameters of the same name the second is set to zero, also in a character's own motion.
* C97, `replace_loops_refuted`: Fingers that go, while the hand goes too: the call never returns.
* C97, `replace_names_refuted`: The root joints need the same name: the joints below that of the source look for it by name.
* C97, `replace_wrong_parent_refuted`: Or, if another joint of the target has that name, they are attached to it.
* C98, `simd_add_unknown_joint_refuted`: addConstraint tests the joint index against the size of constraintCount, not against the skeleton: with a joint the skeleton does not have it writes past the end of the allocation (or drops the constraint silently, depending on what the counter of that joint happened to hold).
* C98, `simd_normal_fresh_refuted`: A normal store that was not cleared reports what its memory held.
* C98, `simd_count_overshoot_refuted`: While a call of addConstraint on a full joint of a position or plane store is in progress, the count is above the capacity for everyone else.
* C99, `simd_gradient_weight_refuted`: C99. The gradient lacks the factor weight_: with one position constraint and weight_ = 3 the derivative of getError is -12 kWideWeight, the gradient -4 kWideWeight.
* C99, `simd_plane_gradient_refuted`: C99. The gradient of a plane constraint has the distance twice: with weight_ = 1 and a plane at distance 2 the derivative of getError is -4 kWideWeight, the gradient 8 kWideWeight. Nothing turns here.
* C99, `simd_plane_jacobian_refuted`: C99. The Jacobian of a plane constraint forgets that the normal turns with the joint: the derivative of getError is 4 kWideWeight where 2 J^T r is 0.
* C99, `simd_plane_differs_refuted`: C99. A wide plane constraint is not the plane constraint of PlaneErrorFunction with the same numbers: after a half turn its normal points the other way.
* C99, `simd_disabled_refuted`: a disabled parameter gets a gradient if an enabled one acts on the same joint parameter.
* C99, `simd_stale_offsets_refuted`: C99. The rows come from the last getJacobianSize: if constraints are added afterwards and getJacobian gets matrices that are large enough, two joints share rows and the residual is not that of the error.
* C100, `simd_gradient_race_refuted`: C100. The tasks of getGradient add to the shared gradient without a lock: when two joints with constraints are driven by one parameter, there is a schedule that loses the contribution of one of them.
* C101, `ellipsoid_closest_refuted`: The radial point of an ellipsoid that is no sphere need not be the closest point.
* C101, `ellipsoid_centre_refuted`: At the centre the point is as far from the surface as it can be and yet there is no error.
* C101, `ellipsoid_gradient_refuted`: the closest point is found by scaling the point onto a sphere and back, which is not the closest point of a proper ellipsoid, and the gradient is not the derivative of the error.
* C101, `ellipsoid_moving_refuted`: the gradient ignores that the joint of the ellipsoid moves as well.
* C102, `seg_parallel_refuted`: Parallel segments of length 2 that run beside each other at distance 1, one forwards and one backwards: reported as farther apart than 3/2, because only the first ends are compared.
* C102, `seg_point_refuted`: A point on the far end of a segment: reported at distance 2 from it.
* C102, `seg_touch_refuted`: Two segments of length 1 and a little more that touch, at an angle of about 1/2500: reported as farther apart than 1/4, because the small numerator of the first parameter is taken for 0.
* C103, `coll_roots_refuted`: C103. Two capsules on the two roots of a skeleton: the search for their common ancestor reads past the joints.
* C103, `coll_crossing_refuted`: C103. Capsules whose axes cross overlap by their full radii, and yet there is no error.
* C103, `coll_parallel_refuted`: two parallel capsules that overlap everywhere are not reported.
* C103, `coll_taper_refuted`: C17, C103. A capsule that is thicker at one end and slides along its own axis: getError changes, and the gradient is zero.
* C103, `coll_scale_refuted`: the derivative with respect to a scale parameter ignores that the radius grows.
* C103, `coll_jacobian_refuted`: C18. Twice J^T r is not the gradient, although the residuals' squares add up to the error: the rows are twice the derivatives of the residuals.
* C104, `bcoll_order_refuted`: for capsules that cross in more than one closest pair the error depends on the order in which the tree names the pair.
* C105, `euler_reversed_refuted`: reversing the angles and the axes does not give the same matrix under the same convention.
* C105, `matrix_angles_refuted`: A rotation of which the angles describe another one, with the tolerance of floats.
* C105, `quat_angles_refuted`: at a pole quaternionToEuler gives angles of another rotation.
* C106, `quat_vector_refuted`: rotations below about 0.0007 radians become zero.
* C106, `vector_quat_vector_refuted`: rotation vectors shorter than about 0.0007 become zero.
* C107, `gnqr_line_search_refuted`: Otherwise the error can grow although line search is on: the last of the ten trials is kept.
* C108, `inverse_residual_refuted`: They are not the residual that the header promises: one joint parameter, one model parameter, offset 5, a perfect fit.
* C109, `multipose_residual_refuted`: Not so after an earlier call: a row that is no longer written keeps its old residual.
* C109, `multipose_jacobian_added_refuted`: Nor is the Jacobian right if a function is added between two calls: the old row of one frame stays where the row of another is written.
* C110, `cubic_sound_refuted`: A number that is not a root is returned for x ((x - 1)^2 + 10^-30), whose only real root is 0.
* C110, `quadratic_roots_refuted`: Otherwise both roots can be missed by any distance, and the number returned is no root.
* C110, `coplanar_times_refuted`: A small triangle and a point that goes through it: the time is missed.
* C111, `edge_distance_closest_refuted`: Nearly parallel edges: two edges of length one that cross in their middle are said to be apart.
* C112, `ccd_edge_refuted`: Two edges that are never longer than 1/100 do not collide, whatever the threshold and however they cross.
* C112, `ccd_vertex_refuted`: A point that goes straight through the middle of a small triangle is missed.
* C112, `ccd_vertex_near_refuted`: A point that flies over the triangle at half the threshold, and is past it when the step ends, is missed.
* C113, `state_sequence_reset_refuted`: With another overall weight, reset does not give back the function as it was made.
* C114, `transform_pose_place_refuted`: C114 refuted part: the place is not looked at. The character whose root can only turn is not shifted, whatever the solver does, and no warning is logged.
* C114, `transform_pose_gives_up_refuted`: C114 refuted part: after the last round the rigid parameters are drawn once more, so that what comes back with the warning is not what a solve found but random numbers.
* C114, `transform_pose_roots_refuted`: C114 refuted part: not the whole character is moved. A second root stays where it is, whatever the solver does.
* C115, `block_qr_small_columns_refuted`: The solver does not minimise its objective in general: a column whose entries are all within the precision of isZero() is skipped as if it were zero, so the rows that use it are lost.
* C115, `block_qr_block_gradient_refuted`: At_times_b_i() is not the part of A^T b that belongs to the block, even when it returns.
* C115, `block_qr_block_gradient_sizes_refuted`: It does not return at all when the block and the common part have different numbers of unknowns: vectors of these two sizes are added.
* C115, `block_qr_skipped_block_refuted`: A block that is skipped over leaves the solver without a solution: its entry in the factor has no columns, so x_dense(), At_times_b_n() and At_times_b_dense() fail.
* C116, `multipose_solver_idle_frame_refuted`: With a frame that has no function in use, and parameters of its own, the iteration never succeeds: there is no step for the frame, so that the step is too short or cannot be computed.
* C116, `multipose_solver_error_refuted`: The iteration takes the whole step: it can increase the error, also of an error function that is as smooth as can be, and with the default regularisation.
* C117, `mesh_normals_first_coordinate_refuted`: A coordinate that is not a number spoils the normals of other vertices, if it is the first one: only the first coordinate of the normal of a face is tested, and it does not depend on the first coordinates of the corners.
* C117, `mesh_normals_average_refuted`: The normal is not the average of the normals of the faces: large faces count more.
* C118, `extrapolate_active_many_refuted`: The version with active parameters throws if there are more parameters than a parameter set can hold, whatever is active.
* C118, `extrapolate_negative_limit_refuted`: With a negative limit the two versions part: one moves by the limit itself, the other has undefined behaviour.
* C119, `skin_weights_short_refuted`: see the note in MANIFEST.json.
* C119, `skin_weights_ninth_refuted`: The ninth influence is lost, even if it is the only one with weight.
* C119, `skin_weights_index_refuted`: A joint that 32 bits cannot count becomes another joint.
* C119, `skin_weights_equal_transitive_refuted`: Equality is not transitive: small differences add up.
* C120, `character_state_stale_mesh_refuted`: A state that was set by a character with a mesh keeps that mesh when it is set by a character that has none.
* C120, `character_state_stale_faces_refuted`: Setting a state by another character whose mesh has as many vertices keeps the faces of the first one: with blend shapes the normals are then those of the wrong faces, and the faces of the state are not those of its character.
* C120, `character_state_no_normals_refuted`: A mesh without normals, which the reader of meshes can return, is read out of bounds.
* C120, `character_state_bind_pose_refuted`: setBindPose applies the limits: a passive limit that excludes zero moves the character off its bind pose.
* C121, `vertex_gradient_negative_weight_refuted`: Finding: a negative skin weight moves the vertex, but the gradient skips it (lines 156-158 and 297-299 test for positive weights, skinning for zero).
* C121, `vertex_gradient_after_zero_refuted`: Finding: skinning stops at the first weight zero, the gradient does not: an influence behind a zero does not move the vertex but gets a gradient.
* C121, `vertex_gradient_disabled_refuted`: Finding: a disabled parameter gets a gradient if it drives a joint parameter that an enabled one drives (lines 243-256 do not look at the enabled parameters).
* C121, `vertex_jacobian_without_blend_shape_refuted`: Finding: with planes, getJacobian reads the blend shape of a character that has none as soon as there is a blend shape parameter (line 711); getError and getGradient of the same object work.
* C122, `joint_params_missing_file_refuted`: Finding: a file that does not exist or is too short is not noticed: the counts are read from uninitialised memory.
* C122, `joint_params_cut_file_refuted`: Finding: a cut file is not noticed: the missing values are whatever was in memory.
* C122, `joint_params_many_frames_refuted`: Finding: the frame counter is an int: two billion frames, all there, overflow it.
* C122, `pose_shape_cut_file_refuted`: Finding: a cut file passes all checks: the mean shape and the columns are whatever was in memory. Without a file the result is a shape whose base joint was never set.
* C122, `pose_shape_other_character_refuted`: Finding: a file for another mesh, or with a joint the character does not have, ends in an assertion; release builds go on and read outside of the skeleton.
* C123, `locator_limit_origin_refuted`: C123. The origin of the limit is not saved: a locator that was moved away from it is loaded with the limit where the locator is.
* C123, `locator_name_with_colon_refuted`: C123. A name with a colon is saved as it is and loaded as "uninitialized"; two such locators make the file one that cannot be loaded.
* C123, `locator_same_joint_name_refuted`: C123. Of two joints with the same name a locator on the second one is loaded on the first.
* C123, `locator_parent_number_refuted`: C123. A parent that is given as a number is not compared with the number of joints: the locator is loaded on a joint that does not exist, and with a global position the state of that joint is read.
* C123, `locator_file_undefined_refuted`: C123. A line of blanks inside a locator, a lock that is no number, or a global position without all of its coordinates makes the loader use what is not there.
* C123, `locator_duplicate_names_refuted`: C123. Two locators without a name hide that others have the same name.
* C123, `locator_cut_file_refuted`: C123. A file that was cut off may be loaded without an error and without the locator that it ends in; or loading it is undefined.
* C124, `limit_name_with_period_refuted`: C124. A limit of a model parameter with a period in its name is parsed as a limit of the joint parameter of that name; if there is no such joint the text is refused.
* C124, `linear_limit_lower_end_refuted`: C124. The lower end of the range of a linear limit is not written unless the limit before it ends there: it is parsed as unbounded below.
* C124, `linear_limit_weight_refuted`: C124. Of linear limits that follow each other only the weight of the first is written.
* C124, `linear_limit_gap_refuted`: C124. Two linear limits whose ranges touch but whose values do not are written as segments of one function, which is refused.
* C124, `limit_name_characters_refuted`: C124. A name with other characters than letters, digits, underscores and periods is written and then refused, and one that is not ASCII is not defined.
* C124, `limit_keyword_refuted`: C124. Any word that starts with limit begins a limit.
* C125, `definition_first_line_refuted`: C125. The first line of a model definition is not looked at: a definition without the line of the format loses its first parameter.
* C125, `definition_last_line_refuted`: C125. A last line that is not ended is not read.
* C125, `pose_constraint_blanks_refuted`: C125. Words of a pose constraint that are no pair are skipped without a message: with blanks around the equality sign the constraint is empty.
* C125, `set_defined_twice_refuted`: C125. A second line with the name of a set replaces the set, and any word that begins with the keyword defines one.
* C125, `load_parameters_exception_refuted`: C125. When loadParameters throws, the character has the new transform with the old limits, which may be of parameters that do not exist any more.
* C125, `load_parameters_empty_refuted`: C125. Without sections the transform is replaced by one without parameters, but the limits stay.
* C126, `unnamed_subject_refuted`: C126. A recording of a single subject next to markers without a name has no main subject if the subject has no name either, although the same subject alone has.
* C126, `marker_errors_hidden_refuted`: C126. A file that cannot be read, one of an unknown type and one without markers give the same result.
* C127, `parameters_without_header_refuted`: C127. A parameter file without the line of the format is no error: the character is left without parameters, but with the limits of those it had.
* C127, `unknown_sections_refuted`: C127. Sections with other names are no error either: all parameters are lost.
* C128, `sets_json_same_names_refuted`: C128. A member that is not the first parameter of its name becomes another one.
* C128, `dynamic_matrix_json_rows_refuted`: C128. A matrix of a dynamic size without columns loses its number of rows.
* C128, `ragged_matrix_json_refuted`: C128. A column that is longer than the first is written past the end of the matrix.
* C128, `limits_json_range_refuted`: C128. A linear limit for a range of values becomes one for all values.
* C128, `limits_json_unknown_parameter_refuted`: C128. A limit for a parameter that does not exist is accepted, with an index that is not one of a parameter.
* C128, `limits_json_missing_values_refuted`: C128. A limit without the values of its type is not defined.
* C128, `poses_json_empty_refuted`: C128. A pose constraint without values is not written.
* C128, `poses_json_order_refuted`: C128. The order of the values of a pose constraint is not kept.
* C129, `transform_json_no_entries_refuted`: C129. A transform without entries becomes the identity, with other parameters.
* C129, `transform_json_offsets_refuted`: C129. The offsets are not written.
* C129, `transform_json_damaged_refuted`: C129. An unknown parameter in one entry replaces the whole transform by the identity, without an error.
* C130, `hierarchy_map_locators_refuted`: C130. The map does not give the locator that was made from a node: locators are sorted afterwards.
* C130, `hierarchy_cycle_refuted`: C130. A node that is its own child is followed without end.
* C130, `hierarchy_index_refuted`: C130. The number of nodes passes the check of indices and is read past the end.
* C130, `hierarchy_other_roots_refuted`: C130. Only one root is used: joints below another one are not loaded.
* C130, `hierarchy_twice_refuted`: C130. A node that is a child of two others is loaded twice.
* C131, `skeletons_same_root_refuted`: C131. Two skins with the same root remove each other: there is no skeleton left, and the file is refused.
* C131, `skeletons_several_roots_refuted`: C131. Two skins with the same several roots give two skeletons instead of one, and the file is refused.
* C131, `parents_cycle_refuted`: C131. A scene with a cycle is followed without end.
* C131, `parents_bounds_refuted`: C131. A child that is no node is written out of bounds.
* C132, `mesh_texture_refuted`: C132. If only a later primitive has texture coordinates, the faces use coordinates that do not exist, and others are those of another vertex.
* C132, `mesh_indices_refuted`: C132. Indices are not checked: a face can have a vertex of another primitive or one that does not exist.
* C132, `mesh_no_indices_refuted`: C132. Indices that cannot be read, as those of one byte, leave an empty list whose first element is taken.
* C133, `skin_locator_refuted`: C133. The same map holds locators: an influence by the node of a locator becomes one by an unrelated joint.
* C133, `skin_dropped_refuted`: C133. Influences that do not fit the mesh are dropped without an error.
* C133, `skin_node_refuted`: C133. The nodes of a skin are not checked.
* C134, `character_capsules_refuted`: C134. A mesh without skin replaces the skeleton, and the capsules keep joints that are gone.
* C134, `character_joints_refuted`: C134. The joints of a file with such a mesh are lost.
* C135, `motion_only_offsets_refuted`: C135. The offsets of joints are lost if there are no frames.
* C135, `motion_wrong_offsets_refuted`: C135. Offsets of a wrong size make the frames disappear as well, without an error.

## Assumptions of each theorem

What `Print Assumptions` lists for the theorems of MANIFEST.json, grouped by the set of axioms.

### Closed under the global context (140 theorems)

`is_ancestor_decides_ancestry`, `skeleton_ctor_accepts_exactly_parents_first`, `joint_lookup_first_match`, `common_ancestor_is_deepest`, `common_ancestor_terminates`, `common_ancestor_one_root_symmetric`, `common_ancestor_forest_refuted`, `subset_keeps_references_consistent`, `subset_renaming_keeps_names`, `subset_drops_limit_iff_parameter_dropped`, `add_blend_shapes_last_call_wins`, `tokenize_splits`, `splitting_is_unique`, `tokenize_empty_refuted`, `trim_removes_white_ends`, `trimmed_is_unique`, `trim_keeps_other_characters_refuted`, `file_is_read_by_lines`, `actual_parameters_cover_enabled`, `slots_cover_the_vector`, `motion_file_round_trip`, `pose_list_round_trip`, `motion_file_refused`, `extra_parameters_round_trip_partial`, `extra_parameters_empty_name_refuted`, `extra_parameters_mixed_refuted`, `extra_parameters_no_columns_refuted`, `cut_motion_file_partial`, `cut_motion_file_refuted`, `accessor_history_round_trip_partial`, `aligned_reader_agrees`, `accessor_append_keeps_others`, `accessor_layout`, `accessor_round_trip_refuted`, `array_starts_aligned_partial`, `array_starts_aligned_refuted`, `accessor_overread_iff`, `accessor_read_in_bounds_partial`, `accessor_read_in_bounds_refuted`, `memory_stream_reads_data_partial`, `memory_stream_read_outside_iff`, `memory_stream_in_bounds_refuted`, `memory_stream_error_partial`, `memory_stream_error_refuted`, `error_message_empty_iff`, `accepted_polygons_triangulate_partial`, `accepted_textures_triangulate`, `accepted_polygons_triangulate_refuted`, `text_has_lines`, `line_loop_sees_all_partial`, `line_loop_drops_rest_refuted`, `line_loop_endless_refuted`, `file_has_sections`, `sections_found_partial`, `sections_found_refuted`, `unit_spelling`, `unit_spelling_other`, `build_hierarchy_partial`, `leaves_partition`, `query_complete_partial`, `built_query_partial`, `query_exact_partial`, `query_single_refuted`, `stacks_partial`, `build_stack_refuted`, `query_stack_refuted`, `query_buffer_refuted`, `refit_partial`, `refit_tight_refuted`, `overlapping_pairs_partial`, `overlapping_pairs_with_partial`, `leaf_pairs_refuted`, `pairs_stop_refuted`, `closest_surface_point_correct`, `closest_empty_refuted`, `ray_test_exact`, `branchless_test_exact`, `ray_tests_agree`, `box_tests_exact`, `box_distance_exact`, `check_exact`, `check_built`, `ray_query_partial`, `ray_closest_partial`, `ray_any_partial`, `ray_empty_refuted`, `project_on_triangle_nearest`, `nearest_point_unique`, `project_lane_nearest`, `project_on_triangle_refuted`, `project_lane_refuted`, `ray_triangle_sound`, `ray_triangle_complete`, `ray_triangle_refuted`, `mesh_make_partial`, `mesh_closest_correct`, `closest_hit_partial`, `all_hits_partial`, `any_hit_partial`, `kd_closest_correct`, `kd_depth_bounded`, `kd_closest_refuted`, `kd_closest_normal_correct`, `kd_closest_color_correct`, `kd_closest_accept_partial`, `kd_closest_accept_refuted`, `kd_closest_normal_refuted`, `kd_sphere_correct`, `kd_sphere_refuted`, `identity_rows`, `identity_round_trip_partial`, `identity_too_many_rows`, `extract_parameters_correct`, `identity_round_trip_refuted`, `frame_span_partial`, `frame_span_refuses`, `frame_span_refuted`, `round_up_partial`, `round_up_refuted`, `aligned_alloc_partial`, `aligned_alloc_succeeds`, `aligned_alloc_refuted`, `compute_offset_correct`, `offset_passes_check`, `blend_round_trip`, `blend_round_trip_all`, `blend_base_shifted`, `blend_truncated_refuted`, `header_truncated_refuted`, `mppca_round_trip`, `save_mppca_few_names`, `prior_new_succeeds`, `prior_set_partial`, `simd_add_any_schedule`, `simd_add_returns`, `simd_normal_add_any_schedule`, `simd_normal_count_bounded`, `simd_add_unknown_joint_refuted`, `simd_count_overshoot_refuted`, `pair_hash_ok`.

### `ClassicalDedekindReals.sig_forall_dec` (44 theorems)

`apply_rejects_wrong_size`, `apply_overloads_differ_by_offsets`, `map_joints_keeps_blend_shapes_refuted`, `num_skeleton_parameters_after_subset_refuted`, `column_selection_transpose_times_partial`, `sequence_set_joined`, `sequence_join`, `sequence_join_after_set`, `sequence_set_after_join`, `sequence_universal`, `sequence_join_no_frames_refuted`, `multipose_set_joined`, `multipose_join`, `multipose_join_after_set`, `multipose_set_after_join`, `multipose_enabled_iff`, `multipose_enabled_partial`, `multipose_enabled_refuted`, `sequence_functions_added`, `sequence_additions_succeed`, `active_joints_correct`, `active_parameters_correct`, `active_round_trip`, `compute_shape_too_many`, `set_vector_correct`, `extract_weights_correct`, `motion_size`, `motion_rows`, `motion_by_name`, `motion_own`, `identity_size`, `identity_blocks`, `identity_own`, `simd_store_history`, `simd_store_refuses`, `simd_normal_store_history`, `simd_normal_add_result`, `simd_normal_fresh_refuted`, `inverse_rejects_wrong_size`, `state_sequence_reachable`, `skin_weights_stored`, `skin_weights_sizes`, `skin_weights_short_refuted`, `skin_weights_index_refuted`.

### `ClassicalDedekindReals.sig_forall_dec`, `FunctionalExtensionality.functional_extensionality_dep` (120 theorems)

`transform_compose_acts`, `transform_mul_assoc`, `transform_identity_unit`, `transform_inverse_two_sided`, `transform_closed`, `transform_affine_agrees`, `transform_scales_distance`, `transform_needs_unit_rotation_refuted`, `apply_is_affine`, `apply_overloads_agree_refuted`, `subset_commutes_with_zero_padding`, `map_joints_moves_joint_parameters`, `pose_constraint_equality_compares_sets`, `pose_constraint_equality_symmetric`, `pose_constraint_equality_symmetric_refuted`, `pose_constraint_longer_left_not_equal`, `limit_error_is_penalty`, `limit_error_zero_iff_inside`, `apply_passive_clamps`, `limit_index_check_refuted`, `apply_passive_overlapping_refuted`, `limit_gradient_returns_error_partial`, `limit_gradient_returns_error_refuted`, `parse_terminates_partial`, `parse_terminates_refuted`, `parse_represents_meaning`, `comments_are_ignored`, `reference_copies_constant_refuted`, `constants_add_up_refuted`, `loss_accepts_positive_c`, `model_parameters_error_is_objective`, `column_selection_transpose_times_refuted`, `solve_iterations`, `solver_returns_previous_error_partial`, `gauss_newton_line_search_partial`, `subset_line_search_partial`, `subset_solver_frame`, `subset_step_solves`, `gauss_newton_step`, `gauss_newton_descends`, `gauss_newton_unused_parameter_fixed`, `solve_history`, `solve_iteration_count_partial`, `solve_iteration_count_refuted`, `multipose_join_no_frames_refuted`, `sequence_jacobian_again_partial`, `sequence_error`, `sequence_jacobian`, `sequence_jacobian_gradient`, `marker_conversion_partial`, `marker_up_axis`, `marker_up_axis_refuted`, `trc_loaded`, `trc_units_partial`, `trc_units_refuted`, `create_locator_succeeds`, `create_locator_structure`, `create_locator_limits`, `ssd_before_zero`, `ssd_partial`, `skinned_unique`, `ssd_refuted`, `ssd_common_motion`, `inverse_ssd_undoes`, `remap_skin_correct`, `remap_zeros_last`, `map_weights_correct`, `mppca_roots_agree`, `prior_error_correct`, `prior_mean_correct`, `prior_jump_refuted`, `prior_set_refuted`, `compute_shape_correct`, `apply_deltas_correct`, `skin_blend_agrees`, `skin_blend_partial`, `skin_blend_refuted`, `estimate_weighted`, `estimate_least_partial`, `estimate_recovers_partial`, `estimate_stale_refuted`, `estimate_regularization_refuted`, `estimate_approx_refuted`, `pose_shape_correct`, `pose_shape_turned`, `motion_duplicates_refuted`, `simd_jacobian_size`, `bcoll_tree_contract`, `average_best`, `average_signs`, `average_weight_signs`, `inverse_round_trip`, `inverse_best`, `inverse_undoes_apply`, `inverse_offsets`, `inverse_residual_refuted`, `multipose_error`, `multipose_jacobian`, `multipose_jacobian_history`, `multipose_jacobian_gradient`, `multipose_residual_partial`, `multipose_residual_refuted`, `multipose_jacobian_added_refuted`, `multipose_update`, `coplanar_is_volume`, `state_sequence_error`, `state_sequence_zero`, `state_sequence_reset_refuted`, `extrapolate_each`, `extrapolate_sizes`, `extrapolate_active_each`, `extrapolate_stays_close`, `extrapolate_active_many_refuted`, `extrapolate_negative_limit_refuted`, `skin_weights_kept_partial`, `skin_weights_ninth_refuted`, `skin_weights_equal_self`, `skin_weights_equal_swap`, `skin_weights_equal_transitive_refuted`, `bones_visited_once`.

### `ClassicalDedekindReals.sig_forall_dec`, `ClassicalDedekindReals.sig_not_dec`, `FunctionalExtensionality.functional_extensionality_dep` (94 theorems)

`limit_gradient_is_derivative_partial`, `limit_jacobian_is_derivative_partial`, `limit_gradient_uses_limit_weight_refuted`, `model_parameters_gradient_is_derivative`, `model_parameters_jacobian_is_derivative`, `model_parameters_jacobian_negative_weight_refuted`, `union_error_is_weighted_sum`, `union_gradient_refuted`, `householder_annihilates`, `householder_isometry`, `householder_pivot_positive`, `online_qr_factorises`, `online_qr_result_minimises`, `online_qr_result_minimises_unregularised`, `online_qr_history`, `online_qr_reset_is_fresh`, `online_qr_reset_keeps_regularisation_refuted`, `banded_qr_result_minimises`, `banded_qr_factorises`, `banded_qr_any_window_order_refuted`, `trust_region_iteration`, `trust_region_solve_monotone`, `gradient_descent_step`, `parallel_schedule_independent`, `parallel_folds_in_order`, `parallel_never_deadlocks`, `parallel_always_ends`, `parallel_can_finish`, `parallel_step_minimises`, `ssd_mesh_partial`, `ssd_mesh_common_motion`, `cov_times_correct`, `cov_inverse_correct`, `cov_times_inverse`, `cov_inverse_times_undoes`, `cov_times_mat_correct`, `cov_inverse_mat_correct`, `prior_set_jacobian_refuted`, `seg_sound`, `seg_near_partial`, `seg_closest_partial`, `seg_parallel_partial`, `seg_parallel_refuted`, `seg_point_refuted`, `seg_touch_refuted`, `coll_error_sound`, `coll_error_partial`, `bcoll_box_covers`, `bcoll_error_sound`, `bcoll_error_partial`, `euler_matrices`, `euler_any_axes`, `euler_axes_needed`, `euler_specialised`, `euler_reversed`, `euler_reversed_refuted`, `matrix_angles_general`, `rotvec_meaning`, `gnqr_step`, `gnqr_is_subset`, `gnqr_frame`, `gnqr_line_search_partial`, `quadratic_roots_partial`, `quadratic_roots_refuted`, `edge_distance_sound`, `edge_distance_closest_partial`, `edge_distance_short`, `edge_distance_short2`, `edge_distance_fails`, `edge_distance_closest_refuted`, `block_qr_minimises_partial`, `block_qr_minimises_unregularised_partial`, `block_qr_gradient_partial`, `block_qr_exact_test`, `block_qr_single_columns`, `block_qr_small_columns_refuted`, `block_qr_block_gradient_refuted`, `block_qr_block_gradient_sizes_refuted`, `block_qr_skipped_block_refuted`, `block_qr_history`, `multipose_solver_step_partial`, `multipose_solver_step_exact`, `multipose_solver_unused_partial`, `multipose_solver_idle_frame_refuted`, `mesh_normals`, `mesh_normals_numbers`, `mesh_normals_order`, `mesh_normals_turned`, `mesh_normals_flipped`, `mesh_normals_moved`, `mesh_normals_flat`, `mesh_normals_first_coordinate_refuted`, `mesh_normals_average_refuted`, `skin_weights_equal_close`.

### `ClassicalDedekindReals.sig_forall_dec`, `ClassicalDedekindReals.sig_not_dec`, `Classical_Prop.classic`, `FunctionalExtensionality.functional_extensionality_dep` (211 theorems)

`fk_composes_parent_chain`, `fk_rejects_wrong_size`, `fk_state_function_exists`, `fk_local_to_subtree`, `joint_accessors_are_partial_derivatives`, `fk_total_derivative`, `fk_direction_derivative`, `fk_rotations_unit_scales_positive`, `ellipsoid_gradient_is_derivative_partial`, `ellipsoid_gradient_refuted`, `ellipsoid_error_zero_iff`, `loss_deriv_is_derivative`, `loss_is_a_penalty`, `loss_matches_paper_partial`, `negative_alpha_matches_paper_refuted`, `loss_slope_at_zero`, `loss_slope_same_for_every_alpha_refuted`, `constraint_error_is_objective`, `constraint_gradient_is_derivative_partial`, `constraint_gradient_small_residual_refuted`, `constraint_jacobian_is_derivative_partial`, `state_error_is_objective`, `state_gradient_is_derivative_partial`, `state_jacobian_is_derivative`, `state_gradient_parameter_weight_refuted`, `union_jacobian_contract`, `union_gradient_partial`, `solver_function_error_is_sum`, `solver_function_gradient`, `solver_function_jacobian`, `model_parameters_meet_contracts`, `limits_meet_contracts_partial`, `constraints_meet_contracts_partial`, `normal_equations_agree_with_jacobian`, `contract_means_fits`, `solver_derivatives_defined_refuted`, `solver_returns_current_error_refuted`, `line_search_never_increases_refuted`, `sequence_jacobian_again_refuted`, `sequence_jacobian_history_refuted`, `sequence_gradient`, `motion_error_function`, `locator_positions`, `locators_stay`, `extract_locators_correct`, `extract_locators_identity`, `simplify_structure`, `simplify_throws`, `simplify_worlds_partial`, `simplify_zero_partial`, `simplify_zero_refuted`, `simplify_poses_partial`, `simplify_rotation_refuted`, `simplify_axes_refuted`, `simplify_locators`, `simplify_limits`, `simplify_active_partial`, `prior_gradient_correct`, `prior_jacobian_correct`, `pose_shape_refuted`, `scale_domain`, `scale_pose`, `scale_parameters_partial`, `scale_locators`, `scale_capsules`, `scale_mesh_skinned`, `scale_mesh_normals`, `scale_parameters_refuted`, `scale_ellipsoid_refuted`, `scale_blend_refuted`, `transform_pose_partial`, `transform_parameters_partial`, `transform_locators`, `transform_capsules`, `transform_mesh_skinned`, `transform_mesh_normals`, `transform_parameters_refuted`, `transform_roots_refuted`, `transform_reflection_refuted`, `remove_unknown`, `remove_structure`, `remove_worlds`, `remove_parameters`, `remove_pose_partial`, `remove_forgets`, `remove_skin`, `remove_unskinnable`, `remove_bind_partial`, `remove_mesh_partial`, `remove_locators`, `remove_capsules`, `remove_limits`, `remove_pose_refuted`, `remove_shapes_refuted`, `remove_bind_refuted`, `replace_unknown`, `replace_duplicates`, `replace_clash`, `replace_structure`, `replace_worlds`, `replace_parameters`, `replace_pose_partial`, `replace_forgets`, `replace_skin`, `replace_bind_partial`, `replace_mesh_partial`, `replace_locators`, `replace_capsules`, `replace_limits`, `replace_loops`, `replace_loops_refuted`, `replace_names_refuted`, `replace_wrong_parent_refuted`, `simd_error`, `simd_error_plain`, `simd_gradient_partial`, `simd_jacobian_partial`, `simd_gradient_weight_refuted`, `simd_plane_gradient_refuted`, `simd_plane_jacobian_refuted`, `simd_plane_differs_refuted`, `simd_disabled_refuted`, `simd_stale_offsets_refuted`, `simd_jacobian_any_schedule`, `simd_gradient_any_schedule_partial`, `simd_gradient_race_refuted`, `ellipsoid_error_is_penalty`, `ellipsoid_radial_exists`, `ellipsoid_gradient_frozen`, `ellipsoid_jacobian_is_derivative_partial`, `ellipsoid_closest_partial`, `ellipsoid_closest_refuted`, `ellipsoid_centre_refuted`, `ellipsoid_moving_refuted`, `coll_pairs`, `coll_make_wf`, `coll_gradient_frozen`, `coll_gradient_partial`, `coll_jacobian_partial`, `coll_roots_refuted`, `coll_crossing_refuted`, `coll_parallel_refuted`, `coll_taper_refuted`, `coll_scale_refuted`, `coll_jacobian_refuted`, `bcoll_make_same`, `bcoll_gradient_partial`, `bcoll_jacobian_partial`, `bcoll_history`, `bcoll_history_free`, `bcoll_order_refuted`, `matrix_angles_matrix`, `matrix_angles_close`, `matrix_angles_refuted`, `angles_matrix_angles`, `matrix_angles_range`, `quat_angles_partial`, `quat_angles_refuted`, `quat_vector_quat_partial`, `quat_vector_small`, `quat_vector_refuted`, `vector_quat_vector_partial`, `vector_quat_vector_refuted`, `gnqr_line_search_refuted`, `multipose_gradient`, `cubic_complete`, `cubic_three`, `cubic_nearly_sound`, `cubic_sound_refuted`, `coplanar_times_cubic`, `coplanar_times_lower_partial`, `coplanar_times_refuted`, `coplanar_times_avx`, `ccd_edge_sound`, `ccd_edge_complete_partial`, `ccd_edge_refuted`, `ccd_vertex_sound`, `ccd_vertex_complete_partial`, `ccd_vertex_refuted`, `ccd_vertex_near_refuted`, `state_sequence_gradient`, `state_sequence_jacobian`, `state_sequence_in_a_sequence`, `transform_pose_keeps`, `transform_pose_needs_rigid`, `transform_pose_close`, `transform_pose_exact`, `transform_pose_first`, `transform_pose_others`, `transform_pose_place_refuted`, `transform_pose_gives_up_refuted`, `transform_pose_roots_refuted`, `multipose_solver_error_refuted`, `character_state_history_partial`, `character_state_parts`, `character_state_blend`, `character_state_pose_shape`, `character_state_bind_pose_partial`, `character_state_rest_mesh`, `character_state_stale_mesh_refuted`, `character_state_stale_faces_refuted`, `character_state_no_normals_refuted`, `character_state_bind_pose_refuted`, `vertex_error_is_objective`, `vertex_gradient_is_derivative_partial`, `vertex_jacobian_is_derivative_partial`, `vertex_jacobian_rows`, `vertex_gradient_negative_weight_refuted`, `vertex_gradient_after_zero_refuted`, `vertex_gradient_disabled_refuted`, `vertex_jacobian_without_blend_shape_refuted`.

### `ClassicalDedekindReals.sig_forall_dec`, `ClassicalDedekindReals.sig_not_dec`, `ClassicalEpsilon.constructive_indefinite_description`, `Classical_Prop.classic`, `FunctionalExtensionality.functional_extensionality_dep` (4 theorems)

`mppca_L_refuted`, `cov_logdet_correct`, `cov_logdet_refuted`, `mppca_set_correct`.

## Wrong programs

`seeded/LOG.jsonl` records 1358 edits of the model. An edit counts as caught by a theorem if its proof, or the proof of a lemma it
uses, no longer goes through as written; where the failing step could have been a mere change of form, the edit was chosen so that the claim is false of the edited program.
Edits that survived led to the theorems that the log lists as tightened.
