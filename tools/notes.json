{
 "C05": {
  "note": "Exact outside the window 0<|v|<eps^(1/4) of RotationVector operands; C07 bounds the window."
 },
 "C06": {
  "note": "Exact outside the truncation windows, total everywhere; C07/C08 bound the windows."
 },
 "C11": {
  "note": "RotationVector results inside the truncation window are excluded by exact_result."
 },
 "C14": {
  "note": "Includes the counterexample to unconditional idempotence for rotation vectors."
 },
 "C18": {
  "note": "Exact characterisation plus refutation of the documented behaviour (defect in the code)."
 },
 "C19": {
  "note": "Completeness proved; documented exactness and transitivity refuted (defect in the code)."
 },
 "C20": {
  "note": "Exact cases proved, the documented general claim refuted (defect in the code)."
 },
 "C26": {
  "note": "Eigen's JacobiSVD is an oracle assumed to return a unit vector orthogonal to both inputs (hypothesis svd_null, shown satisfiable)."
 },
 "C27": {
  "note": "Matrix case: exact characterisation and refutation of the documented behaviour (defect in the code)."
 },
 "C48": {
  "note": "Refutes the documented behaviour (defect in the code)."
 },
 "C49": {
  "note": "Any association order of Eigen's sum of squares. IEEE model by Flocq (one NaN)."
 },
 "C50": {
  "note": "Proved for |x| <= 2^(prec-2)|y|; refuted beyond (theorems *_refuted), and the range ends are refuted where the code returns them."
 },
 "C51": {
  "note": "Includes the float defect (axis flips at half turns)."
 },
 "C38": {
  "note": "Local+Global mixing adds raw coordinates (recorded)."
 },
 "C39": {
  "note": "Truncation windows as in C11."
 },
 "C41": {
  "note": "getVector(rotation) re-expresses only the angular part; the theorem states what the code does."
 },
 "C57": {
  "note": "Exact characterisation; the asymmetry around 0 is a proved refutation."
 },
 "C58": {
  "note": "Exactness on unit quaternions and instability around them (defect proved)."
 },
 "C59": {
  "note": "Explicit error bounds for every legal operand, truncation windows included."
 },
 "C63": {
  "note": "Bound by induction over the history, any length."
 },
 "C64": {
  "note": "Debug build modelled separately (ModelDebug2.v); two negative theorems record the limits of the assertions."
 },
 "C65": {
  "note": "Storage-level model (ModelAccess.v); includes the refutation that a throwing debug setter leaves the object unchanged. UnitQuaternion::setIdentity is C48."
 },
 "C66": {
  "note": "IEEE semantics (Flocq) with any evaluation order, FMA or not; induction over the history."
 },
 "C67": {
  "note": "IEEE semantics, any evaluation order; induction over the history."
 },
 "C68": {
  "note": "IEEE semantics; exact bit statements."
 },
 "C69": {
  "note": "Induction over the call history; linearity for every conversion in RotationDiffConversionTraits. Calls that do not compile or link (RotationDiffBase += for non-velocity classes) are None in the model."
 },
 "C70": {
  "note": "IEEE semantics; sin/cos/atan2 are any functions accurate to two (four) roundings, as stated in SpecLibm.libm_ok (exact_libm_ok shows such a library exists)."
 },
 "C71": {
  "note": "IEEE semantics, every order of evaluation, every math library satisfying SpecLibm.libm_ok; induction over the history. Two theorems exhibit inputs where a stronger claim fails (NaN, axis of length sqrt 2)."
 },
 "C72": {
  "note": "IEEE semantics, every order of evaluation; induction over the history; quadratic growth of the position error is proved, not assumed."
 },
 "C73": {
  "note": "IEEE semantics, every order of evaluation; the branch taken is the one of the rounded numbers."
 },
 "C74": {
  "note": "IEEE semantics, every order of evaluation, every accurate math library. RotationVector objects multiplied by a matrix from the left are covered by C74_history (with its limit), not by C74_mixed_history."
 },
 "C75": {
  "note": "C75_defect and C75_unstable are exact-real theorems for every quaternion in the range; C75_float exhibits the effect with the IEEE model (computed)."
 },
 "C76": {
  "note": "IEEE semantics, every order of evaluation, every math library satisfying SpecLibm.libm_ok. The errors are composed from C74 (product, inverse, conversion) and C50 (wrap)."
 },
 "C77": {
  "note": "IEEE semantics; the wrap is computed in double (mixed arithmetic with M_PI). C77_zyx_refuted exhibits the defect of C18 in floats."
 },
 "C78": {
  "note": "IEEE semantics; comparisons of an AngleAxis or RotationQuaternion (left) with another class do not compile against Eigen without operator== for these types and are not modelled. The converse of C78_true_near does not hold in floats (C78_round_trip_differs)."
 },
 "C79": {
  "note": "IEEE semantics; operands of equal dimension. Vector units may treat NaN differently in max()/min(); only NaN-free inputs are claimed (C79_similar_nan shows one NaN outcome of the std::max semantics)."
 },
 "C80": {
  "note": "IEEE semantics, any order of the additions, any products fused; dimension times unit roundoff at most 1/100 (167772 coefficients for float). C80_normalized_range, C80_project_range, C80_cross_self_fused and C80_sum_order show the limits."
 },
 "C81": {
  "note": "IEEE semantics, every order of evaluation, every accurate math library. The accounts behind C81_history are upper bounds, not sharp. C81_matrix_ex also shows that 2^100 times the identity is accepted in float (overflow, then comparison with NaN)."
 },
 "C82": {
  "note": "IEEE semantics, every order of evaluation; the reference values are derivatives of arbitrary differentiable curves of rotations."
 },
 "C83": {
  "note": "IEEE semantics, every order of evaluation, every math library with sin and cos within two roundings. GlobalAngularVelocity from EulerAnglesZyxDiff does not compile in kindr and is not modelled."
 },
 "C84": {
  "note": "IEEE semantics, every order of evaluation. Eigen's setFromTwoVectors (Eigen 3.3) is modelled from memory; its JacobiSVD, used for nearly opposite vectors, is an arbitrary function of which svd_accurate (SpecTwo.v) is assumed. The factor 1/h of the regular branch is real: C84_norm_lost."
 },
 "C85": {
  "note": "IEEE semantics, every order of evaluation; the norm is bounded by 2^30 (beyond 2^63 the squared norm of a float vector overflows and cos is called with infinity, about which libm_ok says nothing). Which overload of cos and sin is called for float is a parameter (w). The loss of accuracy just above the threshold is a defect of the code: C85_cancellation."
 },
 "C86": {
  "note": "IEEE semantics. The matrices whose derivatives are taken are characterised without the code (SpecSecond: gives_local, gives_global, inverts). The term 2^-100 in the bounds covers underflow. Rates above 1000 are not covered (the products could be bounded the same way; overflow near gimbal lock is the limit)."
 },
 "C87": {
  "note": "Every Eigen evaluation order and both ways of dividing are quantified. Between the range of C87_inverse and the two regions of C87_out_of_range nothing is claimed about the inverse."
 },
 "C88": {
  "note": "The loop itself is user code (SpecMotion.v, integrate1); every function it calls is the model of the library. fix() on matrices is left out of C88_matrix."
 },
 "C89": {
  "note": "std::uniform_real_distribution is modelled by the formula draw * (max - min) + min of libstdc++ and libc++; the draw is any number of [0,1]. Nothing is claimed about the distribution of the draws (the code does not sample rotations uniformly)."
 },
 "C90": {
  "note": "Histories of quaternion and matrix poses are C72; C90 is about single calls, for every class."
 },
 "C91": {
  "note": "The loop itself is user code (SpecPoseSix.v, reckon1); every function it calls is the model of the library. The bound requires that the stated drift does not exceed M."
 },
 "C92": {
  "note": "Eigen's JacobiSVD is not modelled: its results are arguments. array().inverse() is 1/x (Eigen 3.2, 3.3)."
 },
 "C93": {
  "note": "The rotation is off by A roundings and the derivative by B; the linear velocity by E."
 },
 "C94": {
  "note": "RotationVector from a RotationQuaternion of the other type is not modelled: RotationVector.hpp:329-342 mixes scalar types in Eigen expressions. From float to double, conversions that need a unit axis or quaternion keep that as a hypothesis in roundings of double."
 }
}