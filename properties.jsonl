{"id": "C01", "title": "Angle wrapping lands in the documented interval and changes the angle by whole periods only", "statement": "floatingPointModulo(x,y) lies in [0,y) for y>0 and in (y,0] for y<0 and differs from x by an integer multiple of y (x itself for y=0); wrapAngle, wrapPosNegPI and wrapTwoPI land in [x1,x2), [-pi,pi), [0,2pi), are congruent to the input, leave in-range inputs unchanged and are idempotent.", "quantifier": "all real x, y, interval ends x1<x2", "why_tests_cant": "uncountably many angles; boundaries of every period", "anchors": ["include/kindr/common/common.hpp: floatingPointModulo, wrapAngle, wrapPosNegPI, wrapTwoPI"]}
{"id": "C02", "title": "Quaternion algebra", "statement": "Quaternion product is associative with unit Identity, |p*q|=|p||q|, conjugated() reverses products, inverted() is a two-sided inverse for every non-zero quaternion (and the zero quaternion for zero), toUnitQuaternion/normalized give norm 1 with the same direction, == is exact coefficient equality.", "quantifier": "all quaternions", "why_tests_cant": "algebraic laws over R^4", "anchors": ["include/kindr/quaternions/Quaternion.hpp", "include/kindr/quaternions/QuaternionBase.hpp"]}
{"id": "C03", "title": "Quaternion matrices", "statement": "getQuaternionMatrix(q)*p = q*p = getConjugateQuaternionMatrix(p)*q.", "quantifier": "all quaternion pairs", "why_tests_cant": "bilinear identity over R^8", "anchors": ["include/kindr/quaternions/Quaternion.hpp:252-272", "include/kindr/rotations/RotationQuaternion.hpp:373-395"]}
{"id": "C04", "title": "Unit quaternions act as proper rotations, two per rotation", "statement": "A unit RotationQuaternion rotates v to q v q*, its RotationMatrix is in SO(3), and two unit quaternions give the same rotation iff they are equal up to sign.", "quantifier": "all unit quaternions", "why_tests_cant": "continuum", "anchors": ["include/kindr/rotations/RotationQuaternion.hpp", "include/kindr/rotations/RotationMatrix.hpp:329-337"]}
{"id": "C05", "title": "Each class means its documented rotation", "statement": "rotate(v) of every class equals the textbook action: q v q*, Rodrigues(angle,axis), Rodrigues(|v|,v/|v|), M v, Rz(yaw)Ry(pitch)Rx(roll), Rx(roll)Ry(pitch)Rz(yaw).", "quantifier": "all legal values of the six classes and all vectors", "why_tests_cant": "continuum of angles incl. all quadrants and gimbal lock", "anchors": ["include/kindr/rotations/RotationImpl.hpp:106-120", "include/kindr/rotations/RotationMatrix.hpp:311-367"]}
{"id": "C06", "title": "Conversions preserve the rotation", "statement": "Constructing any of the six classes from any of the six classes yields a legal value with the same rotation and no NaN (exactly; for rotation vectors with norm inside the documented small-angle window up to the truncation bound of C07/C08).", "quantifier": "36 ordered class pairs x all legal values", "why_tests_cant": "continuum; branch boundaries (trace, sign, gimbal lock, angle pi)", "anchors": ["include/kindr/rotations/RotationQuaternion.hpp:495-587", "include/kindr/rotations/AngleAxis.hpp:355-423", "include/kindr/rotations/RotationVector.hpp:304-363", "include/kindr/rotations/RotationMatrix.hpp:311-367", "include/kindr/rotations/EulerAnglesZyx.hpp:535-582", "include/kindr/rotations/EulerAnglesXyz.hpp:492-540"]}
{"id": "C07", "title": "Small-angle rotation vector to quaternion is accurate", "statement": "The truncated series used below eps^(1/4) deviates from the exact half-angle quaternion by less than the machine epsilon, for float and double, and the result has norm 1 to the same accuracy.", "quantifier": "all rotation vectors", "why_tests_cant": "error bound must hold on a whole interval", "anchors": ["include/kindr/rotations/RotationQuaternion.hpp:504-549"]}
{"id": "C08", "title": "Small-angle quaternion to rotation vector / angle axis is accurate", "statement": "In the truncated branches of RotationVector(RotationQuaternion) and AngleAxis(RotationVector) the returned vector deviates from the exact logarithm by an explicit tiny bound.", "quantifier": "all unit quaternions / all rotation vectors", "why_tests_cant": "error bound on an interval", "anchors": ["include/kindr/rotations/RotationVector.hpp:323-344", "include/kindr/rotations/AngleAxis.hpp:364-380"]}
{"id": "C09", "title": "Rotation matrix to quaternion never fails", "statement": "For every matrix in SO(3) the quaternion constructed from it is finite, of unit norm and converts back to exactly that matrix.", "quantifier": "all of SO(3)", "why_tests_cant": "four branches selected by trace/diagonal; 3-dim continuum", "anchors": ["include/kindr/rotations/RotationQuaternion.hpp:559-565"]}
{"id": "C10", "title": "Euler angle extraction", "statement": "EulerAnglesZyx/Xyz constructed from any rotation reproduce that rotation, including at gimbal lock (pitch = +-pi/2).", "quantifier": "all of SO(3)", "why_tests_cant": "atan2 quadrants and degenerate cases", "anchors": ["include/kindr/rotations/EulerAnglesZyx.hpp:559-566", "include/kindr/rotations/EulerAnglesXyz.hpp:509-516"]}
{"id": "C11", "title": "Concatenation composes rotations", "statement": "(a*b).rotate(v) = a.rotate(b.rotate(v)), a*b has the class of a and is legal, * is associative as a rotation and Identity is neutral, for every pair of classes.", "quantifier": "36 class pairs (and all triples) x all legal values", "why_tests_cant": "continuum", "anchors": ["include/kindr/rotations/RotationBase.hpp:254-257", "include/kindr/rotations/RotationImpl.hpp:73-99", "include/kindr/rotations/RotationMatrix.hpp:373-381"]}
{"id": "C12", "title": "Inversion", "statement": "r*r.inverted() and r.inverted()*r are the identity rotation, inverted() is an involution on rotations, reverses products, and inverseRotate undoes rotate.", "quantifier": "all legal values, all vectors", "why_tests_cant": "continuum", "anchors": ["include/kindr/rotations/RotationBase.hpp:309-328", "include/kindr/rotations/AngleAxis.hpp:159-164", "include/kindr/rotations/RotationQuaternion.hpp:291-293"]}
{"id": "C13", "title": "Rotations are rigid", "statement": "rotate and inverseRotate preserve dot products, norms and cross products (orientation), are linear, and rotating a matrix acts column by column.", "quantifier": "all legal values, all vectors, any number of columns", "why_tests_cant": "continuum", "anchors": ["include/kindr/rotations/RotationImpl.hpp:106-120"]}
{"id": "C14", "title": "getUnique preserves the rotation and lands in the documented range (quaternion, angle-axis, rotation vector, matrix)", "statement": "getUnique returns a legal value of the same rotation in the documented range (w>=0; angle in [0,pi]; norm in [0,pi]); applying getUnique again changes nothing for quaternions, angle-axes and matrices, and for rotation vectors whose unique vector is zero or at least the tolerance long. (A rotation vector that exceeds a full turn by less than the tolerance is a counterexample to unconditional idempotence.)", "quantifier": "all legal values", "why_tests_cant": "lexicographic sign cases, wrap-around", "anchors": ["include/kindr/rotations/RotationQuaternion.hpp:340-367", "include/kindr/rotations/AngleAxis.hpp:259-299", "include/kindr/rotations/RotationVector.hpp:244-248"]}
{"id": "C15", "title": "getUnique is canonical", "statement": "Two values of the same class (quaternion, angle-axis, rotation vector, matrix) denote the same rotation iff their getUnique are identical.", "quantifier": "all pairs of legal values", "why_tests_cant": "pairs of a continuum", "anchors": ["include/kindr/rotations/RotationQuaternion.hpp:340-367", "include/kindr/rotations/AngleAxis.hpp:259-299"]}
{"id": "C16", "title": "operator== decides equality of rotations (same class)", "statement": "For two RotationQuaternions, RotationMatrices or RotationVectors a==b iff they are the same rotation.", "quantifier": "all pairs of legal values", "why_tests_cant": "pairs of a continuum", "anchors": ["include/kindr/rotations/RotationBase.hpp:262-265", "include/kindr/rotations/RotationImpl.hpp:129-135", "include/kindr/rotations/RotationQuaternion.hpp:600-609"]}
{"id": "C17", "title": "Euler getUnique away from and at gimbal lock", "statement": "EulerAnglesZyx/Xyz::getUnique wraps into the documented ranges and keeps the rotation outside the +-1e-3 bands around pitch=+-pi/2; EulerAnglesXyz keeps it exactly at +-pi/2; inside the bands the change is bounded.", "quantifier": "all angle triples", "why_tests_cant": "three-dimensional continuum with wrap-around", "anchors": ["include/kindr/rotations/EulerAnglesZyx.hpp:353-410", "include/kindr/rotations/EulerAnglesXyz.hpp:263-320"]}
{"id": "C18", "title": "EulerAnglesZyx::getUnique at gimbal lock", "statement": "At pitch=+-pi/2 EulerAnglesZyx::getUnique denotes the same rotation as its input exactly when sin(roll)=0. Contrary to its documentation it therefore changes the rotation for almost every roll, and operator== errs in both directions: it accepts some different rotations and rejects some equal ones.", "quantifier": "all yaw, roll at pitch = +-pi/2", "why_tests_cant": "measure-zero set of inputs", "anchors": ["include/kindr/rotations/EulerAnglesZyx.hpp:353-410"]}
{"id": "C19", "title": "AngleAxis operator== never rejects an equal rotation but is not exact", "statement": "operator== on AngleAxis returns true whenever both denote the same rotation. Contrary to its documentation (\"exactly equal\") it also returns true for some different rotations, and it is not transitive.", "quantifier": "all pairs/triples of angle-axis values", "why_tests_cant": "needs adversarial near-equal values", "anchors": ["include/kindr/rotations/AngleAxis.hpp:438-448", "include/kindr/common/assert_macros_eigen.hpp:47-67"]}
{"id": "C20", "title": "operator== across classes", "statement": "a==b with different classes: a true answer implies the same rotation for every pair of classes (AngleAxis on the left excepted, C19). The answer is exact when a is a RotationMatrix (b of any class), for a RotationVector against AngleAxis or RotationQuaternion, against a RotationMatrix of angle below 120 degrees and against EulerAngles of angle below pi (outside the tolerance windows). Contrary to its documentation it is not exact for RotationVector against every RotationMatrix; EulerAngles (outside the gimbal bands) compared with another class is true exactly when the rotations agree AND the unique first angle is non-negative (and, for Zyx, the unique roll is not -pi).", "quantifier": "class pairs for which == instantiates x all legal values", "why_tests_cant": "continuum", "anchors": ["include/kindr/rotations/RotationBase.hpp:262-265", "include/kindr/rotations/RotationImpl.hpp:129-135"]}
{"id": "C21", "title": "Disparity angle is the angle metric on rotations", "statement": "getDisparityAngle(a,b) is the rotation angle of a*b^-1: in [0,pi], 2cos(d)=trace-1, symmetric, zero iff the rotations are equal, invariant under composing both arguments with a third rotation, and satisfies the triangle inequality.", "quantifier": "36 class pairs x all legal values", "why_tests_cant": "continuum", "anchors": ["include/kindr/rotations/RotationImpl.hpp:210-224"]}
{"id": "C22", "title": "isNear", "statement": "isNear(a,b,tol) is true iff the rotation angle between a and b is at most tol.", "quantifier": "36 class pairs x all legal values x all tol", "why_tests_cant": "continuum", "anchors": ["include/kindr/rotations/RotationBase.hpp:291-295"]}
{"id": "C23", "title": "exponentialMap and logarithmicMap are inverse", "statement": "exp(log r) is the rotation r, log(exp v)=v for |v|<pi, |log r|<=pi, exp of any vector is legal and equals the rotation about that vector by its norm.", "quantifier": "all legal values of all classes, all vectors", "why_tests_cant": "continuum", "anchors": ["include/kindr/rotations/RotationImpl.hpp:141-154"]}
{"id": "C24", "title": "boxPlus/boxMinus axioms", "statement": "a.boxPlus(b.boxMinus(a)) is the rotation b; a.boxPlus(v).boxMinus(a)=v for |v|<pi; a.boxMinus(a)=0; a.boxPlus(0)=a; |a.boxMinus(b)| is the disparity angle.", "quantifier": "all class pairs and legal values", "why_tests_cant": "continuum", "anchors": ["include/kindr/rotations/RotationImpl.hpp:160-170"]}
{"id": "C25", "title": "interpolate", "statement": "interpolate returns this at ratio 0 and other at ratio 1, clamps ratios outside [0,1], and moves at constant angular rate: the disparity to this is ratio times the total disparity.", "quantifier": "all legal values, all ratios", "why_tests_cant": "continuum", "anchors": ["include/kindr/rotations/RotationBase.hpp:365-373"]}
{"id": "C26", "title": "setFromVectors", "statement": "After setFromVectors(v1,v2) rotate maps the direction of v1 onto the direction of v2 for all non-zero vectors (including opposite ones), the result is legal, and it throws iff one vector is zero.", "quantifier": "all vector pairs", "why_tests_cant": "continuum, antiparallel edge case", "anchors": ["include/kindr/rotations/RotationImpl.hpp:178-201"]}
{"id": "C27", "title": "fix() on illegal values", "statement": "fix() yields a legal value in the same direction for every non-zero quaternion or axis and leaves legal values unchanged. For matrices of positive determinant it rescales to determinant 1, which restores a legal rotation matrix exactly when M*M^T is a multiple of the identity (so not for every nearly orthogonal matrix, contrary to its documentation); for determinant <= 0 the result is NaN.", "quantifier": "all storable values", "why_tests_cant": "continuum of perturbed values", "anchors": ["include/kindr/rotations/RotationQuaternion.hpp:614-620", "include/kindr/rotations/AngleAxis.hpp:453-459", "include/kindr/rotations/RotationMatrix.hpp:402-417"]}
{"id": "C28", "title": "setRandom yields a legal rotation for every draw", "statement": "For every vector the uniform generator can draw, setRandom/getRandom of every class succeeds. The result is a legal value that rotates about the drawn vector by its length; only for a non-zero draw shorter than eps^(1/4) may a quaternion be off unit norm, by at most machine epsilon.", "quantifier": "all draws in [-pi,pi)^3, all classes", "why_tests_cant": "probability-zero draws", "anchors": ["include/kindr/rotations/RotationImpl.hpp:229-238", "include/kindr/common/common.hpp:109-117"]}
{"id": "C29", "title": "Debug assertions accept exactly near-unit inputs", "statement": "In debug mode the quaternion/angle-axis/matrix constructors throw iff the norm (orthogonality, determinant) deviates by more than the documented relative tolerance; they never reject an exactly legal value, and an accepted value is within the tolerance.", "quantifier": "all constructor arguments", "why_tests_cant": "boundary values", "anchors": ["include/kindr/common/assert_macros_eigen.hpp:47-141", "include/kindr/rotations/RotationQuaternion.hpp:83-142", "include/kindr/rotations/AngleAxis.hpp:83-134", "include/kindr/rotations/RotationMatrix.hpp:71-119"]}
{"id": "C30", "title": "Local and global angular velocity are related by the rotation", "statement": "GlobalAngularVelocity(LocalAngularVelocity w, R) = R w, LocalAngularVelocity(Global) = R^-1 w, and they are mutually inverse.", "quantifier": "all rotations and vectors", "why_tests_cant": "continuum", "anchors": ["include/kindr/rotations/LocalAngularVelocity.hpp:220-264", "include/kindr/rotations/GlobalAngularVelocity.hpp:223-267"]}
{"id": "C31", "title": "Quaternion derivative", "statement": "RotationQuaternionDiff from local/global angular velocity is the true time derivative: for every differentiable unit quaternion curve, the angular velocity extracted by LocalAngularVelocity/GlobalAngularVelocity satisfies R' = R [w_local]x = [w_global]x R, and the conversions are mutually inverse on tangent vectors.", "quantifier": "all differentiable curves / all unit quaternions", "why_tests_cant": "statement about derivatives", "anchors": ["include/kindr/rotations/RotationQuaternionDiff.hpp:206-220", "include/kindr/rotations/RotationQuaternion.hpp:400-417"]}
{"id": "C32", "title": "Matrix derivative", "statement": "RotationMatrixDiff from local/global angular velocity is R[w]x / [w]xR and back-conversion recovers w; for every differentiable rotation curve the extracted velocity generates it.", "quantifier": "all differentiable curves, all rotations", "why_tests_cant": "derivatives", "anchors": ["include/kindr/rotations/RotationMatrixDiff.hpp:184-198", "include/kindr/rotations/LocalAngularVelocity.hpp:240-251", "include/kindr/rotations/GlobalAngularVelocity.hpp:243-254"]}
{"id": "C33", "title": "Euler ZYX rates", "statement": "getMappingFromDiffToLocalAngularVelocity of EulerAnglesZyx maps the angle rates of every differentiable curve to the true local angular velocity; the LocalAngularVelocityToDiff mapping is its inverse whenever it does not throw.", "quantifier": "all differentiable angle curves", "why_tests_cant": "derivatives", "anchors": ["include/kindr/rotations/EulerAnglesZyx.hpp:421-461", "include/kindr/rotations/EulerAnglesZyxDiff.hpp"]}
{"id": "C34", "title": "Euler XYZ rates", "statement": "The four first-order mappings of EulerAnglesXyz give the true local and global angular velocity of every differentiable curve and are pairwise inverse whenever they do not throw.", "quantifier": "all differentiable angle curves", "why_tests_cant": "derivatives", "anchors": ["include/kindr/rotations/EulerAnglesXyz.hpp:330-417"]}
{"id": "C35", "title": "Gimbal lock is reported exactly", "statement": "The velocity-to-rate mappings throw iff cos(pitch)=0; at gimbal lock the forward mapping is really singular (some angular velocity has no rates).", "quantifier": "all angle triples", "why_tests_cant": "measure-zero inputs", "anchors": ["include/kindr/rotations/EulerAnglesZyx.hpp:440-461", "include/kindr/rotations/EulerAnglesXyz.hpp:351-397"]}
{"id": "C36", "title": "Second-order Euler XYZ mappings are time derivatives", "statement": "The four second-order mapping matrices of EulerAnglesXyzDiff equal the time derivative of the corresponding first-order mapping along every differentiable curve.", "quantifier": "all differentiable angle curves", "why_tests_cant": "derivatives", "anchors": ["include/kindr/rotations/EulerAnglesXyzDiff.hpp:239-337"]}
{"id": "C37", "title": "Jacobian of the exponential map", "statement": "getJacobianOfExponentialMap(v) is the Jacobian J with d/dt exp(v(t)) = [J v']x exp(v) for every differentiable curve away from the small-norm cut-off, and approximates it with an explicit bound inside.", "quantifier": "all vectors / differentiable curves", "why_tests_cant": "derivatives", "anchors": ["include/kindr/rotations/RotationDiff.hpp:83-91"]}
{"id": "C38", "title": "Angular velocities form a vector space; sums across frames ignore the frame", "statement": "+,-,scalar* on local (global) angular velocities satisfy the vector space laws. LocalAngularVelocity + GlobalAngularVelocity compiles and adds the raw coordinates; it is the frame-correct sum for all velocities only when the rotation is the identity.", "quantifier": "all vectors", "why_tests_cant": "algebra over R^3", "anchors": ["include/kindr/rotations/LocalAngularVelocity.hpp:145-179", "include/kindr/rotations/GlobalAngularVelocity.hpp", "include/kindr/rotations/RotationDiffBase.hpp:158-193"]}
{"id": "C39", "title": "Homogeneous transformation is a rigid motion group action", "statement": "transform(p)=R p + t; (A*B).transform = A.transform o B.transform; identity is neutral; * is associative; distances are preserved; the 4x4 transformation matrix acts as transform and is multiplicative.", "quantifier": "all poses over all rotation classes, all points", "why_tests_cant": "continuum", "anchors": ["include/kindr/poses/HomogeneousTransformation.hpp:54-185"]}
{"id": "C40", "title": "inverseTransform undoes transform", "statement": "T.inverseTransform(T.transform(p)) = p = T.transform(T.inverseTransform(p)).", "quantifier": "all poses, all points", "why_tests_cant": "continuum", "anchors": ["include/kindr/poses/HomogeneousTransformation.hpp:159-171"]}
{"id": "C41", "title": "Twists", "statement": "getVector/setVector and the constructor from a 6-vector of local and global twists are mutually inverse, the linear part comes first, Zero() is the zero vector; getVector(rotation) leaves the linear velocity unchanged and expresses a global angular velocity in the local frame of the rotation, for every rotation class.", "quantifier": "all twists, all rotations", "why_tests_cant": "continuum", "anchors": ["include/kindr/poses/Twist.hpp"]}
{"id": "C42", "title": "Wrenches form a vector space", "statement": "get/setVector round-trip (force first), + - * / += -= *= /= satisfy the vector space laws componentwise, == is exact.", "quantifier": "all wrenches and scalars", "why_tests_cant": "algebra over R^6", "anchors": ["include/kindr/phys_quant/Wrench.hpp"]}
{"id": "C43", "title": "Vector head/tail/segment access", "statement": "Reading a segment that was written returns it, other coefficients are unchanged, head/tail are the segments at the two ends, Zero/Unit constructors put 1 in exactly the named coefficient; out of range access is excluded.", "quantifier": "all dimensions, indices and contents", "why_tests_cant": "all sizes", "anchors": ["include/kindr/vectors/Vector.hpp:83-259"]}
{"id": "C44", "title": "Vector arithmetic", "statement": "n-dimensional dot/norm satisfy Cauchy-Schwarz and the triangle inequality, normalized has norm 1, projectOn is the orthogonal projection, cross is orthogonal to both operands, isSimilarTo is true iff every coefficient differs by less than tol, min/max/mean/sum bounds.", "quantifier": "all dimensions and contents", "why_tests_cant": "all sizes", "anchors": ["include/kindr/vectors/Vector.hpp:348-611"]}
{"id": "C45", "title": "Physical types are dimensionally sound", "statement": "Whenever two physical types multiply or divide to a typed quantity, the SI dimensions agree; multiplication of types is commutative and division inverts it; the typed products are exactly the listed laws of mechanics (time integrals, lever arms, Newton's and Euler's laws, scaling by a number), the typed quotients exactly their inverses.", "quantifier": "all ordered pairs of the 18 physical types", "why_tests_cant": "finite but the table is template metaprogramming; no runtime test enumerates it", "anchors": ["include/kindr/vectors/Vector.hpp:651-810", "include/kindr/vectors/VectorBase.hpp:50-64", "include/kindr/phys_quant/PhysicalType.hpp:39-61"]}
{"id": "C46", "title": "skew/unskew", "statement": "getSkewMatrixFromVector(a)*b = a x b, the matrix is antisymmetric, getVectorFromSkewMatrix inverts it, and every antisymmetric matrix is a skew matrix.", "quantifier": "all vectors/matrices", "why_tests_cant": "algebra", "anchors": ["include/kindr/math/LinearAlgebra.hpp:41-55"]}
{"id": "C47", "title": "pseudoInverse satisfies the Penrose conditions", "statement": "Given an SVD a = U S V^T of an m x n matrix, the matrix computed by pseudoInverse satisfies the four Penrose conditions when no non-zero singular value falls under the tolerance.", "quantifier": "all sizes and matrices", "why_tests_cant": "all sizes", "anchors": ["include/kindr/math/LinearAlgebra.hpp:65-97"]}
{"id": "C48", "title": "UnitQuaternion::setIdentity does not set the identity", "statement": "Contrary to its name, setIdentity() on a UnitQuaternion yields, for every previous value, the zero quaternion: not Identity(), not of unit norm, and rejected by the debug assertion.", "quantifier": "all unit quaternions", "why_tests_cant": "API law (untested method)", "anchors": ["include/kindr/quaternions/Quaternion.hpp:475-489"]}
{"id": "C49", "title": "Debug comparisons cannot see NaN", "statement": "compareRelative (behind all debug assertions) returns true whenever one of its arguments is NaN or infinite; so in debug mode a quaternion, rotation quaternion or angle-axis with a NaN or infinite coefficient passes the unit-norm assertion. On finite arguments it answers the documented question: true exactly when the relative difference is at most the tolerance, up to rounding, apart from its two near-zero rules.", "quantifier": "all IEEE inputs incl. NaN and infinity", "why_tests_cant": "special values", "anchors": ["include/kindr/common/assert_macros_eigen.hpp:47-67"]}
{"id": "C50", "title": "Wrapping stays in range and is accurate in floating point", "statement": "With IEEE rounding, for T float or double and for finite x, y with y nonzero and |x| <= 2^(prec-2)|y|, floatingPointModulo(x,y) is finite, in [0,y] (y>0) or [y,0] (y<0), excludes the end y (unless T is float and floor is only available for double), and is x minus an integer multiple of y up to 4 roundoffs of |x|+|y|. Likewise wrapPosNegPI (in [-pi,pi)), wrapTwoPI (in [0,2pi)), relative to the true pi, and wrapAngle (in [x1,x2]). A NaN or infinite argument gives NaN. Beyond that bound the range claim is false: wrapTwoPI(1.1e17) is negative.", "quantifier": "all finite floats and doubles within the bound, every evaluation strategy of the compiler; all non-finite arguments", "why_tests_cant": "2^128 inputs; adversarial rounding", "anchors": ["include/kindr/common/common.hpp:45-85"]}
{"id": "C51", "title": "AngleAxis::getUnique in floating point", "statement": "For every finite angle up to 2^(prec-2), in float and double, getUnique returns a finite angle in [0,pi_T] and the same rotation up to rounding. For PrimType_=float the half-turn branch (angle == -M_PI) is never taken, so getUnique flips the axis of a half turn each time and (pi,n), (pi,-n) keep different unique forms; the double version takes the branch and gives both the same unique form, which is a fixed point.", "quantifier": "all finite angles within the bound, all axes", "why_tests_cant": "needs exact binary32 reasoning", "anchors": ["include/kindr/rotations/AngleAxis.hpp:259-299", "include/kindr/common/common.hpp:95-99"]}
{"id": "C52", "title": "Any history of operations tracks the mathematical rotation", "statement": "Starting from a legal rotation object, any sequence of setIdentity, invert, right/left multiplication, assignment from another class, setUnique and fix leaves the object legal and denoting exactly the product prescribed by the history (classes without truncation).", "quantifier": "all operation sequences of any length", "why_tests_cant": "unbounded histories", "anchors": ["include/kindr/rotations/RotationBase.hpp", "include/kindr/rotations/RotationImpl.hpp"]}
{"id": "C53", "title": "Product of a constant rotation and a quaternion derivative", "statement": "For every rotation R and RotationQuaternionDiff dq of a curve q(t), R*dq and dq*R are the derivatives of the products R*q(t) and q(t)*R, and the local (resp. global) angular velocity extracted from R*q, R*dq (resp. q*R, dq*R) is that of q, dq.", "quantifier": "all rotations of all classes, all differentiable quaternion curves", "why_tests_cant": "ranges over all differentiable curves; a test compares finitely many finite differences", "anchors": ["include/kindr/rotations/RotationDiff.hpp: operator*(RotationBase, RotationDiffBase), operator*(RotationDiffBase, RotationBase)"]}
{"id": "C54", "title": "Pose comparison", "statement": "A==B is true exactly when the positions are equal and the rotations compare equal, A!=B is its negation; for quaternion poses A==B holds exactly when A and B transform every point identically (q and -q are identified).", "quantifier": "all pairs of poses", "why_tests_cant": "equality must agree with the action on every point of space", "anchors": ["include/kindr/poses/Pose.hpp: ComparisonTraits", "include/kindr/poses/PoseBase.hpp: operator==, operator!="]}
{"id": "C55", "title": "Pose conversion keeps the motion", "statement": "Constructing a HomogeneousTransformation of one rotation class from a pose of any other class keeps the position and the rotation, so transform() of every point is the same.", "quantifier": "all poses, all pairs of rotation classes, all points", "why_tests_cant": "uncountably many poses; 36 class pairs", "anchors": ["include/kindr/poses/HomogeneousTransformation.hpp: HomogeneousTransformation(const PoseBase<OtherDerived_>&)"]}
{"id": "C56", "title": "The twist of a moving pose gives the velocity of every body point", "statement": "Along every differentiable curve of quaternion poses with linear velocity v and quaternion derivative dq, Twist(v,dq).getVector(q) = (v, w) where every body point x, tracked by transform(), moves with velocity v + R(w x x).", "quantifier": "all differentiable curves of poses, all points", "why_tests_cant": "ranges over all curves; derivative is a limit", "anchors": ["include/kindr/poses/Twist.hpp: getVector(rotation)", "include/kindr/poses/HomogeneousTransformation.hpp: transform"]}
{"id": "C57", "title": "compareRelativePeriodic decides circular closeness", "statement": "For every positive period P the comparison of a and b returns true exactly when their distance on the circle of circumference P is at most percent/100*P, or both are within 1e-15 of multiples of P, or one is a multiple and the other lies less than 1e-6 above one. It is symmetric, ignores whole periods, and is reflexive for non-negative tolerances; it is not invariant under changing the sign of both arguments.", "quantifier": "all reals a, b, positive periods, tolerances", "why_tests_cant": "continuum of arguments with three special cases near multiples of the period", "anchors": ["include/kindr/common/assert_macros_eigen.hpp:69-89 compareRelativePeriodic"]}
{"id": "C58", "title": "Quaternion-matrix round trips: exact on unit quaternions, unstable around them", "statement": "Converting a unit quaternion to a matrix and back any number of times returns it up to sign. For a quaternion off unit norm one round trip multiplies the norm error by v2/(1-v2) (v2 = squared vector part) below 120 degrees and returns it unchanged above; so for angles between 90 and 120 degrees errors grow geometrically: for every eps there is an eps-accurate start whose rotation is more than 0.3 (operator norm) off after finitely many round trips, and likewise a RotationMatrix object repeatedly multiplied by the identity RotationQuaternion.", "quantifier": "all quaternions, all numbers of round trips, all eps > 0", "why_tests_cant": "drift over an unbounded number of conversions; the limit depends on an arbitrarily small deviation", "anchors": ["include/kindr/rotations/RotationQuaternion.hpp:556-565", "include/kindr/rotations/RotationMatrix.hpp:330-345", "include/kindr/rotations/RotationImpl.hpp:73-99 MultiplicationTraits"]}
{"id": "C59", "title": "Every conversion is total and accurate, truncation windows included", "statement": "Constructing any rotation class from any legal rotation succeeds, has the requested class, and the result rotates every vector as the source does up to a relative error of machine epsilon/1000 (quaternion, matrix, Euler zyx) or twice the truncation tolerance (1e-12 double, 1e-5 float) otherwise; the same for exponentialMap and setRandom of any vector.", "quantifier": "all classes, all legal rotations (also arbitrarily small ones)", "why_tests_cant": "continuum of rotations around the truncation thresholds", "anchors": ["include/kindr/rotations/RotationQuaternion.hpp:495-587", "include/kindr/rotations/AngleAxis.hpp:355-423", "include/kindr/rotations/RotationVector.hpp:304-363", "include/kindr/rotations/EulerAnglesZyx.hpp:535-582", "include/kindr/rotations/EulerAnglesXyz.hpp:492-540"]}
{"id": "C60", "title": "rotate and inverseRotate are accurate for every legal rotation", "statement": "rotate(v), inverseRotate(v) and inverseRotate(rotate(v)) succeed for every legal rotation and vector and equal R v, R^T v and v up to relative errors of machine epsilon/24000, /24000 and /10000.", "quantifier": "all legal rotations of all classes, all vectors", "why_tests_cant": "continuum of rotations and vectors, including the truncated series branch", "anchors": ["include/kindr/rotations/RotationBase.hpp:297-330", "include/kindr/rotations/RotationImpl.hpp:106-120"]}
{"id": "C61", "title": "Products and boxPlus are accurate for every pair of legal operands", "statement": "a*b succeeds for legal rotations of any two classes, has the class of a and denotes the composition up to a relative error of machine epsilon/1000 (truncation tolerance for a RotationVector result); a.boxPlus(v) succeeds for every vector and denotes exp(v)*a within machine epsilon/500 or three times the tolerance.", "quantifier": "all pairs of legal rotations of all classes, all vectors", "why_tests_cant": "continuum of operand pairs; results inside the truncation windows", "anchors": ["include/kindr/rotations/RotationBase.hpp:254-257", "include/kindr/rotations/RotationImpl.hpp:73-99", "include/kindr/rotations/RotationImpl.hpp:160-170"]}
{"id": "C62", "title": "Logarithm, boxMinus, disparity angle, isNear and interpolate for every pair of legal operands", "statement": "logarithmicMap and boxMinus always succeed with a vector of length at most pi whose rotation is the true one up to twice the truncation tolerance; getDisparityAngle is the true angle up to machine epsilon/100 (4 tolerances for rotation vectors) and isNear can be wrong only within that distance of its threshold; boxPlus(boxMinus) and the end points of interpolate are met up to five tolerances, and interpolate(ratio) denotes exp(ratio*boxMinus)*a.", "quantifier": "all pairs of legal rotations of all classes, all ratios and thresholds", "why_tests_cant": "continuum of pairs, including nearly equal and nearly opposite ones", "anchors": ["include/kindr/rotations/RotationImpl.hpp:141-170", "include/kindr/rotations/RotationImpl.hpp:210-224", "include/kindr/rotations/RotationBase.hpp:291-295", "include/kindr/rotations/RotationBase.hpp:365-373"]}
{"id": "C63", "title": "Error of a rotation object after any history of calls", "statement": "A rotation object that is not a matrix, driven by any sequence of setIdentity, invert, r=r*o, r=o*r, r=o, setUnique and fix with arbitrary legal operands of any class (matrix times quaternion object and Euler setUnique excluded), never produces NaN, keeps its class and after n calls rotates every vector as the history prescribes up to 2(n+1) truncation tolerances; a quaternion object with quaternion left operands drifts at most machine epsilon/5000 per call (n <= 1e5).", "quantifier": "all call sequences, all legal operands; no bound on n except for quaternion objects (1e5)", "why_tests_cant": "unbounded histories and continuum of operands, including operands inside truncation windows", "anchors": ["include/kindr/rotations/RotationBase.hpp:254-257", "include/kindr/rotations/RotationQuaternion.hpp:297-367", "include/kindr/rotations/RotationBase.hpp:386-388"]}
{"id": "C64", "title": "Debug assertions never change results and never fire on legal histories", "statement": "A build without NDEBUG either throws or returns exactly what the release build returns, for every call, every object (legal or not) and every history of calls. On legal rotations no assertion fires in any operation of the rotation interface (constructor, conversion, product, inverse, rotate, ==, isNear, disparity, exp/log, boxPlus/boxMinus, interpolate, getUnique, fix, setFromVectors), nor during any history of calls with legal operands. The set accepted by the assertions is not closed: squares of accepted quaternions and repeated products of an accepted matrix with the identity quaternion can throw.", "quantifier": "all objects, operands and call histories (100000 calls for a quaternion object whose norm drifts)", "why_tests_cant": "unbounded histories and a continuum of operands; the assertion margins must hold for all of them", "anchors": ["include/kindr/common/assert_macros_eigen.hpp:103-141", "include/kindr/rotations/RotationQuaternion.hpp:94-134", "include/kindr/rotations/AngleAxis.hpp:94-126", "include/kindr/rotations/RotationMatrix.hpp:87-109", "include/kindr/rotations/RotationImpl.hpp:73-238"]}
{"id": "C65", "title": "Accessors, setters and constructors address the documented parameter", "statement": "For each class with named parameters (Quaternion, UnitQuaternion, RotationQuaternion, AngleAxis, RotationVector, RotationMatrix, both Euler angle classes): after any sequence of setter calls each accessor returns, for every parameter it is documented to return and in the documented order, the value last written to that parameter (under any of its names), or its earlier value if the sequence does not write it; constructors install exactly the parameters they are given; the rotation denoted is the one of the named parameters; rebuilding an object from its accessors gives the same object. In a debug build a setter throws exactly on arguments off the documented tolerance, and by then the object has already been modified.", "quantifier": "all classes, all initial memory contents, all finite histories of setter calls with any arguments, all accessors and constructors", "why_tests_cant": "Tests call a setter and read it back on a few values; interference between setters and aliases (yaw/z, x/roll, vector order, Eigen's x,y,z,w order) has to be excluded for every history.", "anchors": ["include/kindr/quaternions/Quaternion.hpp: w/x/y/z, real, imaginary, vector, setZero, operator()", "include/kindr/rotations/RotationQuaternion.hpp: setValues, setParts, vector, setIdentity, operator()", "include/kindr/rotations/AngleAxis.hpp: setAngle, setAxis, setVector, vector", "include/kindr/rotations/RotationVector.hpp: setX, setVector", "include/kindr/rotations/RotationMatrix.hpp: setMatrix, matrix", "include/kindr/rotations/EulerAnglesZyx.hpp, EulerAnglesXyz.hpp: setYaw/setPitch/setRoll, setX/setY/setZ, vector"]}
{"id": "C66", "title": "Rounding of quaternion arithmetic stays within a few units per call, for every history", "statement": "In IEEE float and double, whatever the order in which the compiler adds the products and whether it fuses them: the product of two quaternions is within 9 unit roundoffs of the exact product; fix() returns the unit quaternion in the same direction within 6 roundoffs; starting from an object and with operands known up to A roundoffs (6 <= A <= 50), after any history of n products, assignments, inversions, setUnique and fix() calls the object stands for the intended rotation up to (A+10)(n+1) roundoffs and its length is off by at most (A+10)(k+1), k products since the last fix(); the debug assertion on the length accepts it as long as that stays below 99e-6 (for A = 6: k <= 100 in float, 5e10 in double), and rejects lengths off by 101e-6; rotating a vector at the end of the history gives the intended vector within the stated bound. Nothing overflows or becomes NaN.", "quantifier": "all finite floats/doubles in range, all orders of evaluation and fusing choices, all histories of any length", "why_tests_cant": "Tests use a tolerance on a few products; accumulated rounding over arbitrary histories and evaluation orders cannot be enumerated.", "anchors": ["include/kindr/rotations/RotationImpl.hpp:73-131", "include/kindr/rotations/RotationQuaternion.hpp: inverted, getUnique, norm, fix (FixingTraits), constructor assertion", "include/kindr/quaternions/Quaternion.hpp: operator*, norm, normalize"]}
{"id": "C67", "title": "Rounding of rotation matrices stays within a few units per call, for every history", "statement": "In IEEE float and double and for every order of evaluation: the matrix obtained from a quaternion is within 18 unit roundoffs plus five times the length error of the rotation of the quaternion; starting from a matrix and with operands known up to A roundoffs (A <= 1000), after any history of n products, assignments and inversions of a RotationMatrix object it is within (1.01 A + 12)(n+1) roundoffs of the intended rotation, and rotate(v) is within 6 + (1.01 A + 12)(n+1) roundoffs times |v| of the intended vector.", "quantifier": "all finite floats/doubles in range, all orders of evaluation and fusing choices, all histories of any length", "why_tests_cant": "Accumulated rounding over arbitrary histories and evaluation orders cannot be enumerated.", "anchors": ["include/kindr/rotations/RotationMatrix.hpp: conversion from RotationQuaternion, operator*, inverted, transposed", "include/kindr/rotations/RotationImpl.hpp:107-131"]}
{"id": "C68", "title": "Conversion between float and double rotation quaternions", "statement": "Converting a float quaternion to double is exact, and converting it back returns the same bits (also for NaN, infinities and signed zeros); conversion to the same type is the identity; narrowing double to float moves the quaternion by at most one unit roundoff of its length and cannot overflow for lengths up to 2^100; a legal quaternion stays legal: the assertion accepts the converted quaternion whenever the length was within 98e-6 of one.", "quantifier": "all float and double quaternions", "why_tests_cant": "2^128 and 2^256 inputs.", "anchors": ["include/kindr/rotations/RotationQuaternion.hpp:553-558", "include/kindr/quaternions/Quaternion.hpp:141-157, 360-379"]}
{"id": "C69", "title": "Time derivatives of rotations: named rates, sums, and linear conversions", "statement": "For an object of any of the six derivative classes (quaternion, matrix, Z-Y'-X'' and X-Y'-Z'' Euler rates, local and global angular velocity), after any sequence of calls (+, -, +=, -=, scaling, setZero, assignment, writes through w/x/y/z/yaw/pitch/roll/matrix) that compiles, each rate read under any of its names is what the documented effects of the calls make of its initial value, and vector() lists them in the documented order. Every conversion between classes at a fixed rotation is linear: converting a sum (or linear combination) gives the sum of the converted derivatives.", "quantifier": "all classes, all rates, all finite call histories, all rotations at which the conversion is defined", "why_tests_cant": "Tests add two vectors once per class; aliases (z/yaw, x/roll with opposite storage orders in the two Euler classes) and superposition must hold for all histories and all rotations.", "anchors": ["include/kindr/rotations/RotationDiffBase.hpp:120-193", "include/kindr/rotations/LocalAngularVelocity.hpp:142-205", "include/kindr/rotations/GlobalAngularVelocity.hpp:148-212", "include/kindr/rotations/EulerAnglesZyxDiff.hpp:123-244", "include/kindr/rotations/EulerAnglesXyzDiff.hpp:123-238", "include/kindr/rotations/RotationQuaternionDiff.hpp", "include/kindr/rotations/RotationMatrixDiff.hpp:112-160"]}
{"id": "C70", "title": "Floating-point construction from AngleAxis, RotationVector and Euler angles is accurate, end to end over histories", "statement": "In IEEE float and double, with a math library whose sin and cos are accurate to two unit roundoffs, and for every order of evaluation and fusing choice: RotationQuaternion(src) is finite and within B+4 (AngleAxis whose axis is unit up to B roundoffs), 7+4|v| (RotationVector v, |v| up to 2^50), 31 (Euler angles of any finite size) roundoffs of a unit quaternion of exactly the rotation src stands for; RotationMatrix(src) and src.rotate(v) are within 56+16B, 68+28|v|, 236 roundoffs. End to end: a RotationQuaternion (or RotationMatrix) object constructed from src0, then multiplied from either side with such objects, reassigned, inverted, normalized in any history of n calls, rotates a vector to within an explicit linear number of roundoffs of the exact composition of the exact rotations.", "quantifier": "all finite floats/doubles in range, all four source parameterizations, all math libraries of the stated accuracy, all evaluation orders, all histories of any length", "why_tests_cant": "Tests compare a few conversions to 1e-6; the bound must hold for all angles, axes, vectors (both branches of the rotation vector map, down to denormals) and for all histories.", "anchors": ["include/kindr/rotations/RotationQuaternion.hpp:495-590", "include/kindr/rotations/RotationMatrix.hpp:312-381", "include/kindr/rotations/RotationImpl.hpp:73-123"]}
{"id": "C71", "title": "Floating-point AngleAxis, RotationVector and Euler angle objects: construction, conversion, products, inverses and histories", "statement": "In IEEE float and double, with any math library of the stated accuracy and for every order of evaluation: AngleAxis, RotationVector, EulerAnglesZyx, EulerAnglesXyz constructed from a quaternion within A <= 76 roundoffs of unit hold finite numbers and stand for its rotation up to 2A+18, 2A+52, 112A+476 roundoffs, also at the Euler singularities; conversions between the four classes change the rotation by at most 4300 roundoffs (plus 1.01e-5 in float, 1.01e-12 in double where short rotation vectors are replaced by the identity); l*r has the class of l and stands for the product up to 170, 204, 8988 roundoffs; inverted() up to 4200. An object of any of these classes on which any history of products from either side, assignments, invert(), setIdentity() and conversions is performed stays finite, and after n calls stands for the exact composition up to 13300 n roundoffs plus the drops. Beyond that range the code can fail: the quaternion (1 - 88*2^-24,0,0,0) becomes a rotation vector of NaNs, and the axis constructed from a quaternion one roundoff from the identity can have length sqrt 2.", "quantifier": "all floats/doubles in range, all four classes in every combination, all math libraries of the stated accuracy, all evaluation orders, all histories", "why_tests_cant": "Tests convert a handful of rotations and compare to 1e-6; the bounds must hold for all inputs, including denormal vector parts, w near 0, angles near pi and gimbal lock, and accumulate over all histories.", "anchors": ["include/kindr/rotations/AngleAxis.hpp:355-423", "include/kindr/rotations/RotationVector.hpp:304-352", "include/kindr/rotations/EulerAnglesZyx.hpp:535-582", "include/kindr/rotations/EulerAnglesXyz.hpp:492-540", "include/kindr/rotations/RotationImpl.hpp:73-99"]}
{"id": "C72", "title": "Floating-point poses: products, transform, inverseTransform, homogeneous matrix and histories", "statement": "In IEEE float and double, for every order of evaluation and with or without fused multiply-adds: a HomTransformQuat (HomTransformMatrix) object on which any history of products from either side, assignments, setIdentity(), calls on its rotation member (fix(), invert(), setUnique(), products) and assignments of its position is performed stays finite. If initial value and operands are known up to A roundoffs and the positions handed in are no longer than L, then after n calls its rotation is the intended one up to 2(A+10)(n+1) (matrix: (1.01A+12)(n+1)) roundoffs, its position up to (4A+53)(n+1)^2 (matrix: (A+12)(n+1)^2) roundoffs of L, and transform(x), inverseTransform(x) return the image and the preimage of x under the intended rigid motion with errors of the same order. inverseTransform undoes transform and conversely up to (15A+200)|x| + (28A+370)L roundoffs. getTransformationMatrix() acts on homogeneous coordinates like the motion up to 7A+19 roundoffs, its last row is exactly 0 0 0 1, its last column holds the bits of the position, and the HomTransformMatrix converted from the pose has the same accuracy.", "quantifier": "all floats/doubles in range, all evaluation orders, all histories of calls (length n limited only by (4A+53)(n+1) roundoffs <= 1/10), all points", "why_tests_cant": "Pose chains are tested with a handful of poses and a tolerance; the bound must hold for every chain length, every operand and every evaluation order, and positions grow along the chain.", "anchors": ["include/kindr/poses/HomogeneousTransformation.hpp:100-130", "include/kindr/poses/HomogeneousTransformation.hpp:160-185", "include/kindr/poses/PoseBase.hpp:123-140", "include/kindr/vectors/Vector.hpp:348-358"]}
{"id": "C73", "title": "Floating-point rotation matrices: conversion to every other parameterization", "statement": "In IEEE float and double, for every order of the additions: the RotationQuaternion constructed from a RotationMatrix whose numbers are within d <= 1/1000 (operator norm) of a rotation R holds finite numbers and is within 3d + 14 roundoffs of one of the two unit quaternions of R, at every rotation including half turns (trace -1) and ties between diagonal entries. AngleAxis, EulerAnglesZyx and EulerAnglesXyz constructed from a matrix within A <= 395 roundoffs, and RotationVector constructed from a matrix within A <= 20 roundoffs of R, hold finite numbers and stand for R up to 6A+46, 336A+2044 and 6A+80 roundoffs. Matrix -> quaternion -> matrix changes the rotation by at most 21A+117 roundoffs, quaternion -> matrix -> quaternion by at most 21A+71 roundoffs and the sign. A restriction on A is needed: the float matrix (1-2^-16)*Identity, 1.53e-5 from the identity, becomes a RotationVector of three NaNs.", "quantifier": "all matrices of floats/doubles near a rotation, all rotations, all orders of evaluation, every math library with accurate sin/cos/atan2", "why_tests_cant": "The four branches depend on signs and comparisons of rounded numbers; tests pick matrices well inside the branches, the bound must also hold where the rounded trace or the rounded diagonal selects another branch than the exact one.", "anchors": ["include/kindr/rotations/RotationQuaternion.hpp:560-565", "include/kindr/rotations/AngleAxis.hpp:392-399", "include/kindr/rotations/RotationVector.hpp:356-363", "include/kindr/rotations/EulerAnglesZyx.hpp:544-549", "include/kindr/rotations/EulerAnglesXyz.hpp:520-525"]}
{"id": "C74", "title": "Floating-point objects of all six classes: conversions, mixed products, inverses, fix(), rotate() and histories", "statement": "In IEEE float and double, for every order of evaluation and every math library with accurate sin, cos, atan2 and pow: an object of any of the six rotation classes constructed from an object of any of the six classes holds finite numbers and stands for the same rotation up to an explicit number of roundings depending on the two classes and on the defect of the source (deviation of the quaternion norm from one, distance of the matrix from a rotation); the product of two objects of any classes has the class of the left operand and stands for the product of the rotations; inverted() stands for the inverse; fix() brings a quaternion to norm one up to 6 roundings, a matrix to determinant one up to 32 roundings and an axis to length one up to 6 roundings, whatever the defect was, without moving the rotation by more than 13 (25) roundings; rotate(v) agrees with the rotation. After any history of products from either side, assignments, invert(), setIdentity(), fix() and conversions with operands of all six classes the object is finite and stands for the exact product up to the sum of these errors; for AngleAxis, RotationVector and Euler angle objects with operands of all classes this is at most n times 134000 roundings plus 1.01e-5 (float) or 1.01e-12 (double) after n calls.", "quantifier": "all floats/doubles in range, all pairs of classes, all evaluation orders, all histories of calls", "why_tests_cant": "There are 36 pairs of classes and unboundedly many histories; tests compare single conversions of exactly representable rotations with a tolerance. The bounds must hold for every value, every branch selected by rounded numbers and every chain of calls.", "anchors": ["include/kindr/rotations/RotationImpl.hpp:73-123", "include/kindr/rotations/RotationMatrix.hpp:312-381", "include/kindr/rotations/RotationMatrix.hpp:402-418", "include/kindr/rotations/AngleAxis.hpp:453-459", "include/kindr/rotations/RotationQuaternion.hpp:560-565", "include/kindr/rotations/RotationQuaternion.hpp:614-620"]}
{"id": "C75", "title": "Repeated conversions between RotationQuaternion and RotationMatrix", "statement": "Converting a RotationQuaternion (w, v) with |v|^2 < 3/4 to a RotationMatrix and back preserves w v and multiplies |q|^2 - 1 by |v|^2/(1 - |v|^2), so that a defect of the norm shrinks for rotation angles below 90 degrees and grows for angles between 90 and 120 degrees. Starting from any quaternion with norm below one, however close to one, and |v|^2 between 1/2 and 3/4, repeated round trips converge to a unit quaternion of the rotation about the same axis by the supplementary angle. In IEEE float and double the rounded quaternion of a rotation by 118 degrees stands for a rotation by 62 degrees after 60 round trips.", "quantifier": "all quaternions in the stated range, all numbers of round trips; both floating-point formats for the witness", "why_tests_cant": "A test performs one round trip, whose error is below any tolerance; the growth only shows over histories, and for a range of angles.", "anchors": ["include/kindr/rotations/RotationQuaternion.hpp:560-565", "include/kindr/rotations/RotationMatrix.hpp:328-340"]}
{"id": "C76", "title": "Disparity angle, isNear, getUnique, logarithm, boxMinus, boxPlus and interpolate in floating-point arithmetic", "statement": "For objects of all six rotation classes in IEEE float and double: x.getDisparityAngle(y) is a finite number in [0, float pi] and differs from the true angle between the two rotations by at most 8/5 of the error of the computed difference plus 120 roundings (250 roundings for two RotationQuaternions left by fix()), also at angles near 0 and pi; isNear(y, tol) decides every case that is further from the tolerance than this error. getUnique() of AngleAxis gives an angle in [0, float pi] and changes the rotation by at most 132 roundings; getUnique() of RotationVector gives a length of at most pi + 170 roundings. logarithmicMap() of any class and boxMinus are finite vectors of length at most pi + 170 roundings with a stated error of the rotation; boxPlus, y.boxPlus(x.boxMinus(y)) and interpolate stand for exp(v) * x, x and exp(ratio v) * x up to stated errors, the ratio clamped to [0,1].", "quantifier": "float and double, all finite objects of the six classes whose norm/orthogonality defect and angles are in the stated range (defaults: angles up to 6.4 rad), all orders of evaluation, every math library with the stated accuracy, all ratios and tolerances", "why_tests_cant": "Tests compare with a tolerance at sampled rotations; the bound must hold near the angles 0 and pi, where acos/atan2 and the wrap into [-pi,pi) are discontinuous, for every pair of classes and every compiler.", "anchors": ["include/kindr/rotations/RotationImpl.hpp:141-170", "include/kindr/rotations/RotationImpl.hpp:210-224", "include/kindr/rotations/RotationBase.hpp:283-296", "include/kindr/rotations/RotationBase.hpp:334-373", "include/kindr/rotations/AngleAxis.hpp:259-298", "include/kindr/rotations/RotationVector.hpp:244-248"]}
{"id": "C77", "title": "EulerAngles getUnique() in floating-point arithmetic", "statement": "In IEEE float and double, getUnique() of EulerAnglesZyx and EulerAnglesXyz with finite angles up to 2^51: when the middle angle is further than 1e-3 (plus the rounding error of its wrap) from every odd multiple of pi/2 the results are finite, the outer angles lie in [-pi,pi] (pi rounded to the type), the middle one in [-pi/2,pi/2], and the rotation changes by a stated number of roundings only. EulerAnglesXyz never changes the rotation by more than 0.002 plus roundings, and at distance d from gimbal lock by at most 2 d plus roundings. EulerAnglesZyx within 1e-3 of +-pi/2 returns the rotation turned about z by +-2 roll, up to 0.002; so contrary to its documentation the rotation with yaw 0 and pitch = roll = the number nearest to pi/2 changes by (almost) half a turn, in float and in double.", "quantifier": "float and double, every way the compiler may evaluate the modulo, all finite angles up to 2^51", "why_tests_cant": "The branches compare rounded wrapped angles with rounded thresholds; whether each of them keeps the rotation must hold for every triple, near every threshold and for huge angles.", "anchors": ["include/kindr/rotations/EulerAnglesZyx.hpp:349-418", "include/kindr/rotations/EulerAnglesXyz.hpp:259-328", "include/kindr/common/common.hpp:45-99"]}
{"id": "C78", "title": "operator== of rotations in floating-point arithmetic", "statement": "In IEEE float and double: two RotationQuaternions compare equal exactly if their coefficients are equal or all of opposite sign, two RotationMatrices exactly if their entries are equal, for all finite numbers. An object of any class equals itself, comparing two objects of one class does not depend on the order. If objects of any two classes (left not AngleAxis) compare equal, their rotations agree up to a stated number of roundings (Euler angles clear of gimbal lock). AngleAxis compares with a tolerance: equal objects differ by at most 1/1000, objects whose getUnique() agree to 0.9998e-4 in each number are equal. A matrix constructed from a quaternion compares equal to it, but a quaternion constructed from that matrix need not equal the original quaternion.", "quantifier": "float and double, all finite objects of the six classes standing for rotations, every order of evaluation on either side", "why_tests_cant": "operator== composes getUnique(), a conversion and exact comparisons of rounded numbers; that true implies equal rotations must hold for every pair of objects of every pair of classes.", "anchors": ["include/kindr/rotations/RotationBase.hpp:262-276", "include/kindr/rotations/RotationImpl.hpp:126-136", "include/kindr/rotations/RotationQuaternion.hpp:600-610", "include/kindr/rotations/AngleAxis.hpp:438-448", "include/kindr/common/assert_macros_eigen.hpp:47-67"]}
{"id": "C79", "title": "Vectors of any dimension in floating point: coefficientwise operations and comparisons", "statement": "In IEEE float and double, for vectors of any dimension: sums, elementwise products and dot products do not depend on the order of their operands bit for bit; each coefficient of a sum, difference, elementwise product or quotient is the correctly rounded exact one; v-v is zero, v+0 and v*1 are v, negation and abs are exact; a scalar factor is rounded to the type of the vector, division by a scalar is accurate to 2.1 roundings even if done with the reciprocal; the product of two vectors exists exactly if one has dimension 1 and does not depend on their order; operator== holds exactly if the coefficients are the same numbers; isSimilarTo(other,tol) true implies every two coefficients differ by less than tol exactly (and conversely up to one rounding of tol), is symmetric and independent of the order of reduction; max and min are the extreme coefficients exactly; float to double and back is the identity.", "quantifier": "float and double, every dimension, all vectors (finite where stated), scalars and tolerances, every order in which Eigen reduces", "why_tests_cant": "Holds for every dimension, every bit pattern and every order of reduction a vector unit may use.", "anchors": ["include/kindr/vectors/Vector.hpp:344-480", "include/kindr/vectors/Vector.hpp:487-493", "include/kindr/vectors/Vector.hpp:562-597", "include/kindr/vectors/Vector.hpp:684-713"]}
{"id": "C80", "title": "Vectors of any dimension in floating point: dot, norm, normalization, projection, cross product, sum, mean", "statement": "In IEEE float and double, for vectors of any dimension n with n unit roundoffs at most one percent, whatever the order of the additions and whichever products are fused: dot() is exact up to 1.01 n roundings of the sum of the magnitudes of the products; norm() is the length up to n/2+1 roundings, never NaN and never negative; normalized() is the unit vector up to n/2+3.2 roundings and has length one to that accuracy; projectOn() is the orthogonal projection up to 2.2(n+1) roundings; cross() is exact up to 3 roundings of the product of the lengths, antisymmetric and zero for a vector with itself if nothing is fused; sum() and mean() are exact up to n-1 and n roundings. Outside the stated ranges normalized() can return zero or the vector itself and projectOn() is not finite.", "quantifier": "float and double, every dimension, all finite vectors in the stated ranges, every order of the additions and choice of fused operations", "why_tests_cant": "The bounds range over all dimensions, inputs and the compiler's and vector unit's choice of evaluation order.", "anchors": ["include/kindr/vectors/Vector.hpp:498-556", "include/kindr/vectors/Vector.hpp:602-611"]}
{"id": "C81", "title": "Debug-build assertions in floating point: same results, exact thresholds, which histories cannot throw", "statement": "In IEEE float and double, in a build without NDEBUG: whenever a sequence of calls on an object of any of the six rotation classes does not throw, it returns bit for bit the object of the release build. The assertion on rotation axes accepts every axis of length one up to 8e-7 and rejects every axis off by 12e-7; the assertions on matrices accept M with M*M^T within 8e-7 of the identity and determinant within 5.5e-7 of one, and everything they accept is within 12e-7 and 15e-7. Histories over all six classes whose accounted defect stays below 9.9e-5 never throw, except on the axis of an AngleAxis computed from a quaternion whose vector part is nonzero but shorter than 2^-116 (float) or 2^-1012 (double), and there they can: AngleAxis of (1,d,d,0) with d the smallest positive number always throws. A RotationQuaternion multiplied at most K times between calls of fix() never throws (float, normalised operands: K = 100), however long the history; without fix() 1000 products of a normalised quaternion throw in float, and a product of two accepted quaternions can throw.", "quantifier": "float and double, all objects of the six classes, all sequences of calls of any length, every order of evaluation, every math library within the stated accuracy", "why_tests_cant": "A test runs one history, one compiler and one math library; the claim ranges over all of them.", "anchors": ["include/kindr/common/assert_macros.hpp", "include/kindr/common/assert_macros_eigen.hpp:47-141", "include/kindr/rotations/RotationQuaternion.hpp:90-134", "include/kindr/rotations/AngleAxis.hpp:94-126", "include/kindr/rotations/AngleAxis.hpp:210-220", "include/kindr/rotations/RotationMatrix.hpp:87-109", "include/kindr/quaternions/Quaternion.hpp:318-355"]}
{"id": "C82", "title": "Angular velocities and time derivatives of quaternions and matrices in floating point", "statement": "In IEEE float and double, whatever the order of the additions: if a rotation moves along a differentiable curve with some angular velocity (in the body or in the world frame) and the stored quaternion or matrix is A roundings from the curve, then RotationQuaternionDiff(q, w) is the derivative of the quaternion curve up to 4.1 + A/2 roundings of |w|, RotationMatrixDiff(R, w) the derivative of the matrix curve up to 9.4 + A roundings of |w|, and Local/GlobalAngularVelocity(q, dq) and (R, dR) the angular velocity up to the analogous bound plus the error of the given rate; turning w into dq and back gives w up to 16 + 2.1 A roundings. GlobalAngularVelocity(R, local) and LocalAngularVelocity(R, global) convert between the frames for all six rotation classes up to the class's accounted defect.", "quantifier": "float and double, all differentiable curves of rotations, all stored rotations near them, all velocities and rates in the stated ranges, every order of the additions", "why_tests_cant": "The claim ranges over all curves, inputs and evaluation orders, and its reference value is a derivative that no finite computation gives exactly.", "anchors": ["include/kindr/rotations/RotationQuaternionDiff.hpp:204-220", "include/kindr/rotations/RotationMatrixDiff.hpp:182-198", "include/kindr/rotations/LocalAngularVelocity.hpp:220-243", "include/kindr/rotations/GlobalAngularVelocity.hpp:223-247", "include/kindr/rotations/RotationQuaternion.hpp:400-417", "include/kindr/math/LinearAlgebra.hpp:40-60"]}
{"id": "C83", "title": "Rates of Euler angles in floating point: accuracy and the gimbal-lock exception", "statement": "In IEEE float and double with a math library accurate to two roundings: the angular velocity computed from Euler angles (Zyx local, Xyz local and global) and their rates is the angular velocity of every curve of angles with these rates, up to 22 roundings of the length of the rates. In the other direction, if the cosine of the pitch is at least 100 roundings, no exception is thrown and the rates are those of the curve up to 34 roundings of |w| divided by the squared cosine; rates to velocity and back is the identity up to 130 roundings divided by the squared cosine. The exception for gimbal lock is thrown exactly when the math library returns zero for the cosine of the pitch, which implies that the true cosine is at most two roundings.", "quantifier": "float and double, all finite angles, all velocities and rates in the stated ranges, every math library within the stated accuracy, every order of the additions", "why_tests_cant": "Near gimbal lock the error grows without bound; only a proof over all angles gives the dependence on the pitch and excludes spurious exceptions.", "anchors": ["include/kindr/rotations/EulerAnglesZyx.hpp:421-461", "include/kindr/rotations/EulerAnglesXyz.hpp:330-417", "include/kindr/rotations/EulerAnglesZyxDiff.hpp:271-277", "include/kindr/rotations/EulerAnglesXyzDiff.hpp:363-369", "include/kindr/rotations/LocalAngularVelocity.hpp:248-265", "include/kindr/rotations/GlobalAngularVelocity.hpp:259-267"]}
{"id": "C84", "title": "setFromVectors in floating point", "statement": "In IEEE float and double, for two vectors a, b whose lengths are between 2^-50 and 2^50 and h = 1 + cos(angle between them): setFromVectors(a, b) does not throw and yields a finite quaternion. Unless the vectors are nearly opposite (h at most about 1e-5 in float, 1e-12 in double) its norm is one up to 48/h roundings and the rotation turns the direction of a into the direction of b up to 140/h roundings; for nearly opposite vectors, if the singular value decomposition is accurate to k roundings, up to 3.1 sqrt(1e-5) (3.1 sqrt(1e-12)) plus 5k+20 roundings with a norm within 1.1k+4 roundings of one. An object of any of the six classes then stands for that rotation up to the error of the conversion. A zero vector throws. Outside of the range non-zero short vectors throw, a zero vector next to a very long one does not, and very long vectors yield a quaternion that is not of unit length; for almost opposite float vectors the norm can be off by more than a percent, which makes a debug build throw; if 48/h roundings are at most 9.9e-5 a debug build returns the object of the release build.", "quantifier": "float and double, all pairs of finite vectors in the stated range, all six classes, every order of the additions and every fusing of products, every accurate math library and decomposition", "why_tests_cant": "The error depends on the angle and on the branch of Eigen's algorithm; the loss of unit length happens only in a narrow band of angles next to the switch between the branches.", "anchors": ["include/kindr/rotations/RotationBase.hpp:370-382", "include/kindr/rotations/RotationImpl.hpp:178-201", "include/kindr/rotations/RotationQuaternion.hpp:117-122"]}
{"id": "C85", "title": "Jacobian of the exponential map in floating point", "statement": "In IEEE float and double, for a rotation vector of length n up to 2^30 that moves with the rate d, getJacobianOfExponentialMap(vector) is finite and, applied to d, gives the global angular velocity of the rotation, relative to |d|: up to n^2/5 plus 7 roundings for vectors in the small-norm branch (n at most 1.0001e-4) and up to 7/n roundings of the precision in which cos and sin are evaluated plus 112 roundings otherwise. At worst that is 3e-9 in double, 8e-6 in float if cos and sin are those of double, and 5e-3 in float if they are those of float; with correctly rounded float functions the error just above the threshold really is more than 5e-5, since both factors vanish.", "quantifier": "float and double, all finite rotation vectors up to length 2^30 and all rates, cos and sin in the precision of the scalar type or in double, every order of the additions, every fusing of products, the scalar multiplied into the matrix product or after it, every accurate math library", "why_tests_cant": "The error is largest in a narrow band above a threshold and depends on cancellation in 1-cos(n) and n-sin(n); a test with a few vectors of ordinary length sees none of it.", "anchors": ["include/kindr/rotations/RotationDiff.hpp:78-91", "include/kindr/math/LinearAlgebra.hpp"]}
{"id": "C86", "title": "Second-order mappings of EulerAnglesXyzDiff in floating point", "statement": "In IEEE float and double, for angles and rates (of length at most 1000) stored in objects: getMappingFromSecondDiffToLocalAngularVelocity and ...ToGlobalAngularVelocity are finite and equal the time derivative of the matrix that takes rates to the angular velocity, up to 44 roundings of the length of the rates; the two inverse mappings, if the cosine of the pitch is at least 1000 roundings, do not throw, are finite and equal the time derivative of the inverse matrix up to 111 roundings of the length of the rates divided by the cube of the cosine. So the angular acceleration and the second derivatives of the angles computed with them are correct up to these errors. The inverse mappings throw exactly when the library's cosine is zero, and then the true cosine is at most 2 roundings.", "quantifier": "float and double, all finite angles, all finite rates up to length 1000, all motions through them, every accurate math library, every order of the additions and every fusing of products", "why_tests_cant": "A product formula of five factors per entry with a derivative as its meaning: a test at a few angles cannot see a wrong factor that is one there, nor the growth of the error near gimbal lock.", "anchors": ["include/kindr/rotations/EulerAnglesXyzDiff.hpp:239-337"]}
{"id": "C87", "title": "General quaternions and rotation times derivative in floating point", "statement": "In IEEE float and double: inverted() of a general Quaternion whose length lies between 2^-50 and 2^50 is finite, within 6.2 roundings (relative to its length) of the exact inverse, and the product of the quaternion and its inverse on either side is within 16 roundings of the identity. Outside of the representable range the functions fail silently: if every coefficient is at most 2^-76 (float) or 2^-538 (double), inverted() returns the zero quaternion and normalized() the unchanged quaternion; if one coefficient reaches 2^64 (float) or 2^512 (double), both return the zero quaternion. rotation * derivative and derivative * rotation, for a rotation object of any of the six classes and a quaternion derivative, are finite and equal the derivative of the product curve with the unit quaternion the object stands for, up to a stated number of roundings relative to the size of the derivative.", "quantifier": "float and double, all finite quaternions, all six rotation classes, all derivable quaternion curves, every order of the additions, every fusing of products, division by quotient or reciprocal", "why_tests_cant": "The bounds hold for every quaternion in a range of 2^100 and every evaluation order of the compiler; the silent failure regions are whole sets of inputs; tests try a few quaternions of length about one.", "anchors": ["include/kindr/quaternions/Quaternion.hpp:102-114,220-246", "include/kindr/rotations/RotationDiff.hpp:62-76"]}
{"id": "C88", "title": "Integrating sampled angular velocities in floating point", "statement": "A body turns with an orientation differentiable in time. A loop integrates increments (duration times sampled angular velocity) with boxPlus() (world coordinates) or a product with Rotation(RotationVector(v)) on the right (body coordinates), in IEEE float or double, and may call fix(). If during each step duration times angular velocity stays within d of the increment, then after n steps a RotationQuaternion object that is fixed at least every K steps is finite, is a unit quaternion up to A + 43 K roundings however many steps were made, and is within e + n (101 roundings + d) of the orientation of the body, e being the initial error. A RotationMatrix object that is never fixed stays within A + 394 n roundings of a rotation matrix that is within e + n d of the orientation of the body.", "quantifier": "float and double, all motions with angular velocity, all sample lists of any length, increments up to 6.4 rad, every mixture of body and world increments, every order of the additions and every fusing", "why_tests_cant": "The number of steps, the motion and the rounding of every step are arbitrary; a test integrates one motion for a fixed number of steps.", "anchors": ["include/kindr/rotations/RotationBase.hpp:254-257", "include/kindr/rotations/RotationImpl.hpp:144-170", "include/kindr/rotations/RotationQuaternion.hpp:614-620"]}
{"id": "C89", "title": "setRandom in floating point: legal for every draw, and every rotation is reachable", "statement": "In IEEE float and double, for every draw of the generator and every class, setRandom()/getRandom() draws a vector whose coefficients lie between -T(M_PI) and T(M_PI) and whose length is at most 5.46, and returns a finite, legal object that stands for the rotation about the vector by its length up to the error of the conversion from a rotation vector. Conversely every rotation is within 32 roundings, plus that error, of the result for some three draws.", "quantifier": "float and double, all draws of [0,1]^3, all six classes, fused or separate product and sum, every evaluation order; all rotation matrices", "why_tests_cant": "A test sees a handful of random draws out of 2^72 (float) or 2^159 (double), and reachability is an existence statement about every rotation.", "anchors": ["include/kindr/common/common.hpp:109-117", "include/kindr/rotations/RotationImpl.hpp:227-238", "include/kindr/rotations/RotationBase.hpp:220-245"]}
{"id": "C90", "title": "Poses with a rotation of any class in floating point", "statement": "For a HomogeneousTransformation whose rotation is of any of the six classes, in IEEE float and double: if its rotation stands for a rotation with a defect of A roundings and its position is off by E, then transform(), inverseTransform() and the product with another pose (of the same or another rotation class) return finite numbers within a stated bound of the exact rigid motion: 1.1 (D roundings of the length of the vector + E) plus one rounding of the lengths involved, D being the error of rotate() for that class (plus 4200 roundings for inverted() of the four non-quaternion, non-matrix classes).", "quantifier": "float and double, all six rotation classes and all pairs of classes, all poses and vectors up to 2^90, every evaluation order and fusing", "why_tests_cant": "Tests use quaternion poses and a few vectors; the bound covers every class, every pose and every compiler's order of evaluation.", "anchors": ["include/kindr/poses/HomogeneousTransformation.hpp:40-44,119-130,160-185", "include/kindr/rotations/RotationBase.hpp:318-328"]}
{"id": "C91", "title": "Dead reckoning with poses in floating point", "statement": "A body turns and moves along a path that stays within M of the origin. Every step multiplies a HomTransformQuat object by the pose made of a measured displacement (at most len long) and of the exponential of a measured rotation vector, both in body coordinates; fix() is called on the rotation at least every K steps. If the measurements describe the motion up to d (angle) and dd (displacement) per step, then after any number n of steps in IEEE float or double the pose is finite, its rotation is a unit quaternion up to A + 43 K roundings, its orientation is within angle = e + n (101 roundings + d) of that of the body, and its position within n (angle len + drift per step) of the path, where the drift per step is dd plus a stated number of roundings of len and M; so the position error grows at most quadratically and never diverges to NaN or infinity.", "quantifier": "float and double, all differentiable motions, all measurement lists of any length, every evaluation order and fusing", "why_tests_cant": "The motion, the number of steps and the rounding of every step are arbitrary.", "anchors": ["include/kindr/poses/HomogeneousTransformation.hpp:176-185", "include/kindr/rotations/RotationImpl.hpp:144-170", "include/kindr/rotations/RotationQuaternion.hpp:614-620"]}
{"id": "C92", "title": "Pseudoinverse in floating point", "statement": "For float and double matrices, given any singular value decomposition U, s, V with finite coefficients (at most 2 in magnitude in U and V), pseudoInverse() returns true and inverts exactly the singular values above a threshold that is epsilon times the larger dimension times the largest singular value up to four roundings; the largest singular value is always inverted. If that threshold is at least 2^-89, every coefficient of the result is finite and is the one of V diag(1/s) U^T over the inverted singular values up to 2.07 k + 1 roundings of the sum of the magnitudes of its k terms; if moreover U, s, V decompose A exactly and every nonzero singular value exceeds the threshold, the result is the Moore-Penrose inverse of A up to that bound. The pseudoinverse of the zero matrix is exactly zero. Without the lower bound the claim is false: for the float matrix 2^-149 I, pseudoInverse() returns true with NaN coefficients.", "quantifier": "float and double, all decompositions of any dimension up to one percent of 1/roundoff, every epsilon, every evaluation order and fusing of the two matrix products", "why_tests_cant": "Tests use a few matrices and one compiler; rounding, rank deficiency and dimensions range over a continuum and all sizes.", "anchors": ["include/kindr/math/LinearAlgebra.hpp:65-97 pseudoInverse"]}
{"id": "C93", "title": "Twists and skew matrices in floating point", "statement": "getVector(), setVector(), the constructor from a 6-vector and Zero() of twists copy every bit, linear velocity first. getVector(rotation) of a moving body returns the linear velocity bit for bit and an angular velocity from which the velocity of every body point (the derivative of its position under the pose) follows up to the error of the linear velocity plus a stated number of roundings of the angular velocity times the distance of the point, for quaternion derivatives and for global angular velocities with any of the six rotation classes. getVectorFromSkewMatrix(getSkewMatrixFromVector(v)) returns the bits of v and conversely for skew matrices; the skew matrix times a vector is the cross product up to 5.3 roundings.", "quantifier": "float and double, all twists and rotation classes, all differentiable motions, all body points, every evaluation order and fusing", "why_tests_cant": "The velocity of a point is a limit; motions, points and roundings range over a continuum.", "anchors": ["include/kindr/poses/Twist.hpp:73-80,92-103,162-188,225-251", "include/kindr/math/LinearAlgebra.hpp:40-58"]}
{"id": "C94", "title": "Conversion between float and double objects of all six classes", "statement": "A double object constructed from a float object of the same class holds the same numbers, and converting back gives the original bit for bit. From double to float, construction of any of the six classes from any legal object of any class (except RotationVector from RotationQuaternion) gives a legal float object whose rotation is the same up to 4500 roundings of float; for the same class it is 2.5 roundings (quaternion), the angle plus 2.5 (angle-axis), the length (rotation vector), the sum of the angles (Euler). Conversions that convert the numbers first, and those that compute Euler angles in the source type and round last, have the error of the two steps. A quaternion or matrix constructed from a rotation vector of the other type takes the norm in the source type, so a double quaternion from a float vector has norm one only up to 26 roundings of float plus 7 of double. An angle-axis constructed from a rotation vector drops vectors shorter than the dummy precision of the source type (1e-12 from double, 1e-5 from float).", "quantifier": "both primitive types on either side, all objects of the six classes, every target class, every evaluation order and fusing, every libm within its accuracy", "why_tests_cant": "There are 36 pairs of classes and a continuum of objects per pair; tests convert a few objects with one compiler and libm.", "anchors": ["include/kindr/rotations/RotationQuaternion.hpp:495-590", "include/kindr/rotations/RotationMatrix.hpp:312-368", "include/kindr/rotations/AngleAxis.hpp:355-423", "include/kindr/rotations/RotationVector.hpp:304-363", "include/kindr/rotations/EulerAnglesZyx.hpp:535-582", "include/kindr/rotations/EulerAnglesXyz.hpp:492-540"]}
