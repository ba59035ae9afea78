# Formal model of ANYbotics/kindr in Rocq (Coq 8.16.1)

## 1. What is modelled, and how

kindr is a header-only C++ template library of rotations, poses and physical
vectors over Eigen.  The model is a set of total Gallina functions, one per C++
function, each with a comment citing file and lines of /repo.

* **Scalars.**  In the `Model*.v` files a C++ scalar is an exact real number
  (`Coq.Reals`), `M_PI` is `PI`, libm functions are the real functions.  All
  branches and thresholds of the code (1e-12, eps^(1/4), 1e-3, 1e-4 ...) are
  kept.  A real operation that is undefined (x/0, sqrt of a negative) gives the
  distinct outcome `NaN`; a thrown `std::runtime_error` gives `Throws`
  (`Spec.outcome`).  Rounding, overflow, signed zero are not in these files.
  `PrimType_` (float/double) is the parameter `p : prim`, which fixes the
  type-dependent thresholds.  Theorems quantify over `p`.
* **Floating point.**  Where the property is about rounding or NaN (C49-C51, C66-C68)
  a separate model in `Float*.v` uses IEEE semantics (Flocq / Coq's `spec_float`).
* **Templates.**  The six rotation classes are one tagged sum
  (`Spec.rotation`); the class chosen by a template argument is `kind`.  A
  statement "for all classes" is a `forall` over that sum.
* **Eigen / libm** are external to /repo. `ModelEigen.v` transcribes the Eigen
  3.3 functions kindr calls; they are trusted to be faithful.
* **Mutation.**  A method that mutates `*this` is a function returning the new
  value.

`Spec.v` is the independent specification: SO(3), Hamilton product, Rodrigues
formula, elementary rotations, `valid` and `meaning : rotation -> M33`.

## 2. Files

| file | content |
|---|---|
| Linalg.v | 3-vectors, 3x3 matrices, quaternion tuples (plain mathematics) |
| Spec.v, SpecFacts.v | specification of rotations; sanity facts about it |
| SpecHistory, SpecDiff, SpecPose, SpecPhys, SpecMat, SpecClose, Windows | the other small specifications: histories, derivatives, rigid motions, dimensions, matrices of any size, closeness of rotations, the truncation windows |
| ModelCommon.v | common/common.hpp, compareRelative |
| ModelEigen.v | Eigen functions used by kindr |
| ModelRotation.v | the six rotation classes + RotationBase interface (release build) |
| ModelHistory.v | calls as data, histories of calls on one object |
| ModelQuaternion.v | quaternions/QuaternionBase.hpp, Quaternion.hpp algebra |
| ModelDebug.v, ModelDebug2.v | the debug (not NDEBUG) build: the assertions, then every operation with its assertions |
| ModelDiff.v | RotationDiffs: angular velocities, quaternion/matrix/Euler/rotation-vector derivatives, second-order mappings |
| ModelPose.v | poses/: HomogeneousTransformation, PoseDiff, Twist, phys_quant Wrench |
| ModelVector.v, ModelPhys.v | vectors/: Vector<type,T,N>, physical-type table |
| ModelLinalg.v | math/LinearAlgebra.hpp |
| SpecRates.v, ModelRates.v, SpecDcall.v | named rates of derivative objects, calls on them |
| FloatModel3.v | AngleAxis/RotationVector/Euler angles to quaternion and matrix in IEEE floats, over an arbitrary C math library |
| SpecLibm.v, SpecBuild.v | accuracy assumed of the math library; the exact rotation of a float object, exact histories |
| FloatModel4.v, SpecExt.v | the other direction: quaternion to AngleAxis/RotationVector/Euler angles, conversions, products, inverses and histories of such objects in IEEE floats; their specification |
| FloatModel5.v, SpecPoseF.v | HomTransformQuat and HomTransformMatrix in IEEE floats: transform, inverseTransform, products, homogeneous matrix, histories; exact rigid motions |
| FloatModel6.v | RotationMatrix to quaternion, AngleAxis, RotationVector and Euler angles in IEEE floats |
| FloatModel7.v, SpecSix.v | objects of all six classes in IEEE floats: conversions, mixed products, inverses, fix(), rotate(), histories; the account of errors |
| FloatModel8.v, SpecBox.v | getDisparityAngle, isNear, getUnique, logarithmicMap, boxPlus, boxMinus, interpolate in IEEE floats; their error bounds |
| FloatModel9.v, SpecUnique.v, SpecEqual.v | getUnique() of the Euler angle classes and operator== in IEEE floats; error bounds |
| FloatModel10.v, SpecVecF.v | Vector<type,T,N> of any dimension in IEEE floats; real vectors as lists |
| FloatModel11.v, SpecDebugF.v | the six rotation classes in IEEE floats compiled without NDEBUG: the assertions of the constructors each call goes through; accounts of debug histories |
| FloatModel12.v | angular velocities and time derivatives of quaternions, matrices and Euler angles in IEEE floats |
| FloatModel13.v, SpecTwo.v | setFromVectors in IEEE floats; what is assumed of the singular value decomposition |
| FloatModel14.v | getJacobianOfExponentialMap in IEEE floats |
| FloatModel15.v | second-order EulerAnglesXyzDiff mappings in IEEE floats |
| SpecSecond.v | the matrix between rates of angles and angular velocity |
| FloatModel21.v, FloatXcast.v, FloatXcast2.v | construction of float objects from double objects and conversely, six classes |
| SpecXcast.v | how far the rotation may move in such a conversion |
| FloatModel19.v, PinvFacts.v | pseudoInverse in IEEE floats, with the SVD as an argument |
| SpecPinv.v | the coefficients of the truncated pseudoinverse in real arithmetic |
| FloatModel20.v | twists in IEEE floats |
| FloatModel18.v | HomogeneousTransformation with a rotation of any class in IEEE floats |
| SpecPoseSix.v | the rigid motion such a pose stands for; the dead reckoning loop |
| FloatModel17.v | setRandom in IEEE floats |
| SpecMotion.v | the loop integrating angular velocity samples; when samples describe a motion |
| FloatModel16.v | inverse of a general Quaternion, rotation * quaternion derivative, in IEEE floats |
| SpecTrip.v | repeated quaternion/matrix round trips |
| SpecAccess.v, ModelAccess.v | named parameters and storage: accessors, setters, constructors |
| FloatModel2.v, SpecFloatQ.v | IEEE model of quaternion and matrix arithmetic under every order of evaluation; its specification vocabulary |
| FloatModel.v | IEEE binary32/binary64 model (Flocq) of compareRelative, modulo, wrapping, AngleAxis::getUnique |
| *Facts.v, NearUnit, EulerNear, RoundTrip, MixedEq, FloatModulo, FloatWrap, FloatQ*, FloatMHist, FloatCast, FloatBuild*, FloatExt*, FloatPose*, FloatMat*, FloatSix, FloatFix, FloatOHist, FloatBox, FloatUnique, FloatEq, FloatVec*, FloatDebug*, FloatDiff*, FloatTwo*, FloatJac*, FloatSecond*, FloatInv*, MotionFacts, RandomFacts, PiBounds | lemmas and proofs |
| Claims*.v | the proofs of the property theorems |
| Prop*.v | generated by tools/genprops.py from Claims*.v: the property theorems only (statement, `exact`, `Print Assumptions`) and the `Example`s showing that hypotheses are satisfiable |

## 3. Properties: what is modelled and how it is proved

C01 reals: Int_part floor; range + congruence, uniqueness in a half-open period.
C02/C03 ring identities on 4-tuples.  C04 quaternion matrix algebra; sign
ambiguity from q q'^-1 being +-1.  C05/C06 `to_quat`, `to_mat`, ... against
`meaning`, one lemma per conversion.  C07/C08 Taylor bounds with alternating
series (sin/cos/atan bounds from the standard library).  C09 case analysis on
the four Shoemake branches, each pivot shown >= 1.  C10 atan2 characterisation
(r cos = x, r sin = y), SO(3) column relations.  C11-C13 corollaries of C05/C06.
C14/C15 wrap lemmas + axis uniqueness.  C16 from C15. C17 case analysis of the
five branches. C18-C20, C27 (matrix), C38, C48, C51: expected refutations with
witnesses.  C21 trace formula; triangle inequality via unit quaternion
products.  C23-C25 from conversion lemmas.  C26 with the SVD axis as an
explicit function hypothesis.  C29 arithmetic on compareRelative.  C30-C37
Coquelicot `is_derive` along arbitrary curves.  C39-C42 algebra. C43/C44 lists
of reals of any length.  C45 finite table, `vm_compute` lifted to forall.  C47
matrices of any size as functions nat -> nat -> R with the SVD as hypothesis.
C49 spec_float model. C50/C51 Flocq binary32/binary64.  C52 induction over
operation lists.
C53 product rule on quaternion tuples.  C54 reduction to C16/C20 and componentwise
equality.  C55 from C06.  C56 `is_derive` of the transformed point.  C57 exact
characterisation of the wrapped difference test by the circular distance.  C58
an explicit curve of near-unit quaternions leaving every neighbourhood under
round trips (`curve_escapes`), and exactness on unit quaternions.  C59-C63
explicit error bounds: a `near nu d r m` relation (norm defect nu, matrix
distance d) propagated through every conversion and operation; C63 by induction
over the history.  C64 the debug build is a second model in which each
constructor call carries its assertion; refinement lemma per function, then
induction over histories; the two negative theorems give explicit objects.
C65 a store of named parameters against the storage of each class; induction over
the setter calls.  C66-C68 sums of products as trees of roundings (`dtree`), one
error lemma for every tree (induction over the tree), then vector-norm bounds for
product, normalisation, matrix and rotation; histories by induction with an
invariant on direction error and length error.  C69 induction over the calls;
linearity conversion by conversion.  C70 the C math library is a record of
arbitrary functions; the theorems quantify over every library that satisfies
`libm_ok` (absolute errors of sin, cos, atan2 and the constant eps^(1/4)); error
bounds conversion by conversion (both branches of the rotation vector map), then
the histories of C66/C67 with witnesses for the intended quaternions.  C71 the
other direction (quaternion to AngleAxis, RotationVector, Euler angles) with the
same library record; Euler angles through `close_two_axes` so that the bound does
not degrade at the singularity; then conversions, products, inverses and
histories by induction with the invariant `object_ok`.  C72 poses: one lemma for
the position of a product from the error of `rotate` (`rot_spec`, instantiated by
C66/C67), then induction with a position error c(n+1)^2 L.  C73 one lemma for the
pivot branch (square root, reciprocal, three products) used four times; the branch
condition on the rounded entries bounds the pivot from below.  C74 one lemma per pair
of classes for conversion, product, inverse and fix; histories by induction with an
account of class, defect and error (`acc_run`); for objects of the four angle classes
the account is bounded by n times a constant.  C75 the round trip acts on
(w^2, |v|^2) by s -> c/(1-s) with c = w^2 s invariant; monotone convergence to the
smaller fixed point; the float instances are computed by `vm_compute` (existence
statements).  C76 the rotation angle is Lipschitz in the operator norm (factor 8/5,
also at 0 and pi), the wrap of C50/C51 moves it by at most the rounding of pi and of
the additions; the rest composes the errors of C74.  C77 the wrap is
C50 at double precision followed by one conversion; the four thresholds are computed;
one lemma lists what each branch does to exact representatives of the angles.  C78
getUnique() of the six classes moves the rotation by C76/C77's errors, comparison of
equal numbers identifies the rotations (matrices: their defects), C74 converts.
C79/C80 the error of a sum of n products under any order of additions and any fusing
is proved by induction on the expression tree ((1+u)^k bounded for k u <= 1/100);
comparisons and maxima are exact.  C81 the norm and dot-product errors against the
thresholds of compareRelative; induction over the history with C74's accounts; the
throwing witness for subnormal vector parts holds because the computed norm is a
multiple of the smallest number; the other witnesses are computed.  C82/C83 the exact
formulas are those of C30-C35 (derivatives of curves); on top of them the error of
three- and four-term sums, the errors of sin and cos, and for the inverse mappings the
error of a quotient by the computed cosine.  C84 the computed quaternion is compared
with the exact half-way quaternion (regular branch) or with the unit quaternion of the
same scalar part and axis (nearly opposite vectors); then C74 converts.
C85 (Jacobian in floats): error analysis of the two quotients, of the matrix
product and of the nine sums, then C37's derivative of the exponential map;
the witness rounds cos and sin to the nearest float near a power of two. C86 (second-order Euler mappings in
floats): relative error bounds composed product by product, with the powers of
1/cos(pitch) kept apart; the exact matrix is the derivative by C36. C87 (general
quaternions in floats): a quotient lemma applied to the squared norm of C66; the two failure regions by induction over the
evaluation tree (every product rounds to zero; one infinite product makes the sum +infinity); the products by the conversion of
C74 and the product of C66. C88 (integration in floats): the mean value theorem on exp(-(t-t0) w) R(t) bounds the exact motion
in one step; C74/C76 bound the rounding of one step; induction over the sample list. C89 (setRandom in floats): monotonicity of rounding for the range; the nearest grid draw and
a Lipschitz bound of the exponential map (its Jacobian is a contraction, bounded curve) for reachability. C90 (poses of any class): C74 for the rotation, one rounding per sum for the position.
C91 (dead reckoning): the mean value theorem for the path, C88's step for the orientation, C90's for the position, induction.
C92 (pseudoinverse): the error of a sum of products (C80) twice, the threshold by three roundings; Penrose's conditions from C47's algebra.
C93 (twists): C82 for the angular velocity, the derivative of a rigid motion (C56) for the points.
C94 (float and double): the rounding of each number and the Lipschitz bounds of the six parameterizations (C71, C77), composed with C74; C70's quaternion of a rotation vector with the norm as a parameter.

## 4. Trusted base

* The Coq 8.16.1 kernel (no kernel check is switched off; `vm_compute` is used,
  `native_compute` is not).
* The axioms of the standard library listed in section 6: those of its real
  numbers (`ClassicalDedekindReals.sig_forall_dec`, `.sig_not_dec`),
  `FunctionalExtensionality.functional_extensionality_dep`, and
  `Classical_Prop.classic` (used by lemmas of Coquelicot and Flocq).  This
  development adds none.
* The transcription of the C++ text into the `Model*.v` / `FloatModel.v` files;
  each definition cites the lines.
* `ModelEigen.v`: Eigen is not in /repo; its functions are written from the
  semantics of Eigen 3.3 (Quaternion product, toRotationMatrix, matrix to
  quaternion, AngleAxis, FromTwoVectors, normalize, eulerAngles, stableNorm).
  Eigen::JacobiSVD is an oracle with an explicit hypothesis in C26 and C47.
* The exact-real idealisation in `Model*.v`: C++ floats are reals, `M_PI` is
  `PI`.  Theorems in Claims9, 10, 16, 18-41 use IEEE arithmetic instead; there
  the C math library (and Eigen's stableNorm) is an arbitrary record of functions, quantified over, with the
  accuracy stated in `SpecLibm.libm_ok` as a hypothesis of the theorems (`pow`: `SpecSix.pow_ok`, four
  roundings of double for bases in [1/2,2] and exponents in [-1,1]).

## 5. What is modelled and what is not

Modelled: common/common.hpp, math/LinearAlgebra.hpp, quaternions/*, all of
rotations/* (six representations, the RotationBase/Conversion/Multiplication/
Rotation/Comparison/Disparity/Fixing/Map/Box traits, RotationDiffs), poses/*
(HomogeneousTransformation, TwistBase/Twist, WrenchBase/Wrench),
vectors/*, phys_quant/* (the product/quotient type table), common/assert macros
through their effect (throw or not).

Not modelled:

* `operator<<` (formatting), the gtest helper headers (common/gtest_eigen.hpp),
  `common/source_file_pos.hpp` and the text of exception messages: only
  the fact that an exception is thrown is kept.
* the random number generators behind `setRandom` (C28 quantifies over every
  draw).
* overload resolution and template metaprogramming: which function a call
  selects was resolved by reading.  Calls that do not compile are absent from
  the model (see findings 11).
* aliasing between an object and the arguments of a call, threads (kindr has no
  shared state), memory layout beyond coefficient order, alignment.
* rounding outside the float layer (C49-C51, C66-C68, C70-C94):
  Eigen's JacobiSVD (its results are arguments of C92).

<!-- assumptions begin -->
## 6. What `Print Assumptions` lists for each theorem

Generated by tools/assumptions.py. Every name is an axiom of the standard library.

**Closed under the global context (no axiom)**:
C43_read_segment, C43_write_segment, C45_dimensions_sound, C45_group_laws, C45_laws,
C45_no_redefinition, C45_expressions, C45_incomplete_refuted, C93_copies.

**`ClassicalDedekindReals.sig_forall_dec`**:
C41_twist_vector, C42_wrench_vector, C43_constructors, C65_setters_and_accessors, C65_constructors,
C65_rebuild, C69_history.

**`ClassicalDedekindReals.sig_forall_dec`, `FunctionalExtensionality.functional_extensionality_dep`**:
C01_modulo, C03_quaternion_matrices, C38_velocity_vector_space, C42_wrench_space, C44_vector_space,
C44_cross, C44_reductions, C44_similar, C44_typed_scalar, C44_elementwise_division, C46_skew,
C47_penrose, C47_least_squares, C47_one_sided, C47_truncated, C57_compare_periodic,
C57_periodic_symmetry, C57_periodic_reflection_refuted, C79_sign.

**`ClassicalDedekindReals.sig_forall_dec`, `ClassicalDedekindReals.sig_not_dec`, `FunctionalExtensionality.functional_extensionality_dep`**:
C01_wrap, C02_quaternion_algebra, C02_quaternion_inverse, C02_real_imaginary, C14_get_unique,
C15_get_unique_canonical, C17_euler_unique, C34_xyz_inverse, C35_gimbal_lock_reported,
C36_second_order_forward, C36_second_order_inverse, C36_acceleration, C44_dot_norm, C44_normalized,
C44_projection, C65_rotation, C65_debug_setters, C65_failed_setter_keeps_value_refuted.

**`ClassicalDedekindReals.sig_forall_dec`, `ClassicalDedekindReals.sig_not_dec`, `Classical_Prop.classic`, `FunctionalExtensionality.functional_extensionality_dep`**:
C04_unit_quaternion_rotation, C05_rotate_meaning, C05_rotate_is_meaning, C06_conversion_exact,
C06_conversion_total, C06_conversion_path, C07_small_rotation_vector,
C08_small_quaternion_to_vector, C08_small_vector_to_angle_axis, C09_matrix_to_quaternion,
C10_euler_extraction, C11_concatenation, C11_assoc_identity, C12_inversion, C12_inverse_of_product,
C13_rigid, C13_columns, C14_rotation_vector_idempotence_refuted, C16_equality_same_class,
C17_xyz_gimbal, C18_zyx_gimbal_characterised, C18_zyx_gimbal_refuted,
C19_angle_axis_equality_complete, C19_angle_axis_equality_refuted, C20_cross_class_equality_exact,
C20_cross_class_equality_refuted, C21_disparity, C21_metric, C21_invariance, C22_is_near,
C23_exp_log, C24_boxplus_boxminus, C25_interpolate, C26_set_from_vectors, C27_fix,
C27_matrix_fix_refuted, C28_set_random, C29_debug_assertions,
C48_unit_quaternion_setIdentity_refuted, C52_any_history, C52_quaternion_matrix_angle_axis_history,
C30_local_global_velocity, C30_same_motion, C31_quaternion_curve, C31_quaternion_roundtrip,
C31_quaternion_derivative, C32_matrix_curve, C32_matrix_roundtrip, C33_zyx_rates, C33_zyx_inverse,
C34_xyz_rates, C35_gimbal_lock_real, C37_jacobian_exact, C37_jacobian_error, C38_sum_is_composition,
C38_mixed_sum, C53_rotation_times_derivative, C39_rigid_motion, C39_composition, C39_group,
C39_chain, C39_matrix, C40_inverse_transform, C54_pose_equality, C55_pose_conversion,
C41_twist_in_frame, C56_twist_point_velocity, C49_not_finite, C49_unit_assert, C49_finite,
C50_modulo, C50_wrapPosNegPI, C50_pi, C50_wrapTwoPI, C50_wrapAngle, C50_nonfinite, C50_huge_refuted,
C50_float_end_refuted, C50_wrapAngle_end_refuted, C51_dead_branch, C51_float_half_turn,
C51_double_half_turn, C51_unique, C58_round_trip_unstable, C58_round_trip_step,
C58_round_trip_exact, C59_conversion_total, C59_exp_random_total, C60_rotate_total,
C61_product_total, C61_boxplus_total, C62_log_boxminus_total, C62_disparity_total,
C62_endpoints_total, C63_history_total, C63_quaternion_history_total, C20_cross_class_sound,
C20_euler_left, C20_vector_left, C64_debug_never_differs, C64_legal_operations,
C64_unchecked_conversions, C64_set_from_vectors, C64_legal_history, C64_exact_history,
C64_accepted_not_closed, C64_matrix_history_throws, C64_illegal_detected, C66_product, C66_fix,
C66_history, C66_assertion, C66_rotate, C67_from_quaternion, C67_history, C68_cast,
C68_unit_stays_unit, C69_superposition, C69_sum, C70_quaternion, C70_matrix, C70_history,
C70_matrix_history, C71_from_quaternion, C71_convert, C71_product, C71_inverted, C71_history,
C71_short_quaternion_nan, C71_axis_not_unit, C72_history, C72_matrix_history, C72_round_trip,
C72_matrix, C73_quaternion, C73_from_matrix, C73_round_trip, C73_scaled_identity_nan, C74_convert,
C74_product, C74_inverted, C74_fix, C74_rotate, C74_history, C74_mixed_history, C75_defect,
C75_unstable, C75_float, C76_disparity, C76_is_near, C76_quaternions, C76_unique_angle_axis,
C76_unique_vector, C76_log, C76_box_minus, C76_box_plus, C76_box_round_trip, C76_interpolate,
C77_clear, C77_xyz, C77_xyz_lock, C77_zyx_band, C77_zyx_refuted, C78_quaternion, C78_matrix,
C78_matrix_of_quaternion, C78_round_trip_differs, C78_true_near, C78_angle_axis_near,
C78_angle_axis_accepts, C78_reflexive, C78_symmetric, C79_commutative, C79_coefficients,
C79_exact_difference, C79_scale, C79_divide, C79_vector_product, C79_vector_product_mixed,
C79_equal, C79_equal_self, C79_neutral, C79_similar_true, C79_similar_near, C79_similar_order,
C79_similar_nan, C79_max_min, C79_cast, C80_dot, C80_norm, C80_norm_sign, C80_normalized,
C80_normalized_range, C80_project, C80_project_range, C80_cross, C80_cross_antisymmetric,
C80_cross_self, C80_cross_self_fused, C80_sum, C80_mean, C80_sum_order, C81_same, C81_axis,
C81_matrix, C81_history, C81_quaternions, C81_product_throws, C81_tiny_throws, C82_quaternion_rate,
C82_quaternion_velocity, C82_quaternion_roundtrip, C82_matrix_rate, C82_matrix_velocity, C82_frames,
C83_zyx_velocity, C83_xyz_velocity, C83_zyx_rates, C83_xyz_rates, C83_gimbal, C83_roundtrip,
C84_quaternion, C84_classes, C84_throws, C84_range, C84_norm_lost, C84_debug, C85_jacobian,
C85_worst, C85_cancellation, C86_forward, C86_inverse, C86_gimbal, C86_acceleration,
C86_second_derivative, C87_inverse, C87_out_of_range, C87_rotation_times_derivative, C88_quaternion,
C88_matrix, C89_random, C89_coverage, C90_transform, C90_inverse_transform, C90_product,
C91_dead_reckoning, C92_coefficients, C92_zero, C92_overflow, C92_penrose, C93_skew,
C93_quaternion_twist, C93_global_twist, C94_widen, C94_cast, C94_cast_first, C94_cast_last,
C94_rv_quat, C94_rv_aa, C94_to_float, C94_pairs.
<!-- assumptions end -->

## 7. Findings: places where the code departs from its documentation

1. EulerAnglesZyx::getUnique is wrong at gimbal lock; `==` is then wrong both ways (C18).
2. Both Euler getUnique: in the tolerance band around gimbal lock the sum/difference of the outer angles can leave [-pi,pi) and the function is not idempotent (C17).
3. UnitQuaternion::setIdentity sets all coefficients to zero (C48).
4. RotationMatrix::fix normalises the determinant only (C27).
5. AngleAxis `==` is neither exact nor transitive (C19).
6. compareRelative is true on NaN and infinities; a finite quaternion (1e200,0,0,0) passes the debug assertion by overflow (C49).
7. AngleAxis<float>::getUnique: the half-turn branch is dead and the axis flips each time; wrapPosNegPI<float> has its lower end below -M_PI (C51).
8. RotationVector from a quaternion that is not exactly unit can divide 0 by 0.
9. Local + Global angular velocity adds raw coordinates (C38).
10. Typeless x {Mass,Inertia,Power,Energy} is Typeless; Force x Velocity is Typeless (C45).
11. These do not compile when instantiated: GlobalAngularVelocity from EulerAnglesZyxDiff, projectOn with a different type, addition of quaternion derivatives and of mixed derivatives.
12. fix() of a zero quaternion stays zero; rotation vectors shorter than 1e-12 have the identity as unique form; RotationVector::getUnique is not idempotent just above full turns (C14).
13. `==` between classes fails as characterised in C20.
14. Quaternion<float> to RotationVector: truncated branch, relative error up to about 1.7e-6.
15. setFromVectors with nearly opposite vectors: the SVD sign is ambiguous (C26).
16. Twist::getVector(rotation) re-expresses the angular part only.
17. projectOn's documented formula disagrees with the (correct) code.
18. floatingPointModulo and the wrap functions leave their range for |x/y| beyond about 2^53; wrapTwoPI<float>(-1e-10f) returns 2pi_f; wrapAngle<double>(1-2^-53,1,2)=2 (C50).
19. quaternion-matrix round trips are unstable for rotation angles from 90 to 120 degrees (C58).
20. compareRelativePeriodic is asymmetric around 0 (C57).
21. The set of values the debug assertions accept is not closed under products, and an accepted matrix can make the debug build throw later (C64).
22. AngleAxis::setAxis/setVector and RotationQuaternion::operator()(Quaternion) assert after writing: a throwing debug setter leaves the illegal value in the object (C65).
23. RotationVector(q) for the finite float quaternion q = (1 - 88*2^-24, 0, 0, 0), which a history of products can leave behind and the debug assertion accepts, is three NaNs: 1 - w*w is not below 1e-5 and the code divides 0 by 0 (C71).
24. The axis of AngleAxis(q) can have length sqrt 2 (q = (1, 2^-149, 2^-149, 0) in float); its angle is then within 9 roundings of 0 (C71).
25. AngleAxis(v) and EulerAnglesXyz(v) turn rotation vectors shorter than 1e-5 (float) into the identity; EulerAnglesZyx(v) and RotationQuaternion(v) do not (C71).
26. RotationVector(M) for the float matrix M = (1-2^-16)*Identity (the debug assertion allows 1e-4) is three NaNs (C73).
27. Repeated conversions quaternion -> matrix -> quaternion are unstable for angles between 90 and 120 degrees: each trip multiplies the defect of the norm by tan^2(angle/2), and a quaternion with norm below one converges to the rotation by the supplementary angle; in float and in double the rotation by 118 degrees becomes one by 62 degrees after 60 trips (C75).
