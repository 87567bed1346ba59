# Design: formal model of lidar_feature_extraction

This file is the plan of the model in `/verif/rocq` and the record of what it
covers.  `properties.jsonl` holds the English properties C01..; `MANIFEST.json`
says which theorems settle which property; `seeded/LOG.jsonl` records the
mutation tests of the theorems.

## 1. Trusted base

1. **Coq's kernel** (8.16.1), the standard library, mathcomp, Flocq and
   Coquelicot as installed.  No axioms of our own, no `Admitted`, no functors,
   no plugins, no switched-off checks.
2. **`Print Assumptions`** is printed under every property theorem.  Only five
   axioms occur, all of Coq's standard library:
   * `ClassicalDedekindReals.sig_forall_dec` (F), `ClassicalDedekindReals.sig_not_dec` (N)
     and `FunctionalExtensionality.functional_extensionality_dep` (E), the axioms
     behind `Coq.Reals`;
   * `Classical_Prop.classic` (C), used by stdlib/Flocq/Coquelicot real analysis;
   * `ClassicalEpsilon.constructive_indefinite_description` (I), used in
     `RealMatrix.v` to make Coq's reals an instance of the mathcomp structures.
   Computations on binary32/binary64 use Flocq's constructive `BinarySingleNaN`;
   statements about real values add the axioms of `Coq.Reals`.
   The list per theorem is in section 5.1.  Checkers that list every opaque
   module field also report fields of sealed modules of mathcomp and Reals (for
   example `mathcomp.ssreflect.bigop.BigOp.bigop`); these have definitions behind
   the seal and are not axioms, and `Print Assumptions` does not list them.
3. **The reading of the C++/Python code**: every definition in a model file
   carries a comment with the file and lines it models, and says what it
   simplifies.  Nothing ties the model to the code but this reading; the code
   was neither built nor run.
4. **Library behaviour assumed** (entering as explicit parameters or relations,
   never as axioms):
   * `std::sort(cmp)`: defined only if `cmp` is a strict weak ordering on the
     elements (otherwise outcome `UB`); then the result is *some* permutation in
     which no later element compares less than an earlier one.  Every theorem
     quantifies over all such sorts (parameter `srt` with `valid_sort srt`).
   * `std::nth_element`: any permutation with the documented partition property.
   * `std::unordered_map` iteration order: an arbitrary permutation.
   * `std::map`: sorted association by key.
   * `std::shuffle`: an arbitrary permutation.
   * `std::acos`: an arbitrary function on doubles that returns NaN for NaN
     and for arguments outside [-1,1] (C standard); results do not use more.
   * IEEE-754 binary32/binary64, round to nearest even, no excess precision, no
     FMA contraction (Flocq).
   * Eigen matrix algebra, `inverse()`, eigen/LU solvers: exact algebra over
     Coq's reals, or an oracle, as said at each definition.
   * nanoflann KD-tree: oracle that returns min(k, number of rows) distinct nearest row indices.
   * ROS middleware: callbacks run one at a time; messages are delivered as
     values; publish appends to an output trace; TF lookup is an oracle.

## 2. Modelling conventions

* `outcome A := Ok a | ThrowInvalid | ThrowRange | ThrowOther | AssertFail | UB`.
  `at()` outside bounds is `ThrowRange`; `operator[]`/iterator misuse is `UB`;
  a false `assert` is `AssertFail` (all packages set `CMAKE_BUILD_TYPE Debug`,
  so asserts are live).
* Lengths/indices are `nat` when the code cannot make them negative and `Z`
  where the code computes with signed ints; wrap-around of unsigned arithmetic
  is written out where the code depends on it (`occlusion.hpp`).  Signed
  overflow of `int` sizes (clouds of more than 2^31 points) is not modelled.
* Floating point: the extraction model is parametric in a record `arith` of the
  scalar operations.  Theorems that hold for *every* `arith` therefore hold for
  IEEE arithmetic with NaN, infinities and rounding.  The instance `ieee acos`
  (Flocq binary32 for `float`, binary64 for `double`) is bit exact and is used
  for refutations and for the theorems that are about rounding; the instance
  `exact` (reals) is used for geometric meaning.
* Estimation code (Kalman filter, optimiser) is modelled in exact arithmetic over
  Coq's reals; NaN/Inf appear as an oracle verdict of the
  `HasNan/HasInf` checks where control flow depends on it.
* State machines (nodes) are step functions over event lists with an output trace.
* Model files contain no proofs; property theorems live in `Prop_*.v`, each closed
  by `exact <lemma>` with `Print Assumptions` under it and `Example`s showing
  that the hypotheses are met by a non-trivial case.
* `_partial`: a proved part of a property; `_refuted`: witness that the code
  violates the property as stated.

## 3. Files

| area | model | modelled code |
|---|---|---|
| outcomes, arrays | `Base.v` | vector `at`, `operator[]`, exceptions, `std::sort` |
| scalars | `Arith.v` | float/double operations, Flocq and real instances |
| message checks | `NodeModel.v` | ring_is_available and the guards of the extraction callback |
| extraction | `ExtractModel.v` | fill, label, index_range, occlusion, out_of_range, parallel_beam, neighbor, range, math, convolution, curvature, ring, color_points, callback |
| lib, robust | `LibModel.v` | algorithm, stats, eigen (copies), random, robust |
| localization node, optimiser loop | `LocModel.v` | stamp_sorted_objects, subscriber, optimizer (control flow), optimization_result, localizer |
| rotations, residuals | `PoseModel.v` | rotationlib, posevec, edge/surface/alignment residuals and Jacobians, degenerate, the algebra of optimizer.cpp |
| optimiser instance, search | `OptModel.v` | optimizer with the real pose algebra, kdtree wrapper |
| fits, problem construction | `ProblemModel.v` | mean and covariance, plane fit, Edge/Surface/LOAM Make with the search, Localizer, jacobian, filter, reliability checks |
| maps and small nodes | `MapModel.v` | recent_scans, odometry, point_cloud_map, mapping/map, map_io, path_generator, map_loader, map_tf_generator |
| localization node | `LocNodeModel.v` | the node of LocModel.v with the localizer of ProblemModel.v |
| messages | `MsgModel.v` | ros_msg.cpp poses and transforms, the map builder on messages, SampleStandardDeviation |
| orientation in doubles | `RoundTripModel.v` | MakePose, the quaternion of a pose and Localizer::Update in any arithmetic |
| stored points | `TransformModel.v` | TransformPointCloud in any arithmetic, map and accumulated scans on top of it |
| launched system | `SystemModel.v` | EKF localizer and lidar localizer wired as in localization.launch.py |
| launch files | `LaunchModel.v` | names, remappings, endpoints, the three launch files, map files |
| synchronisers | `SyncModel.v` | message_filters ExactTime with the queue sizes of the localizer and the map builder |
| scans to poses | `ChainModel.v` | the extraction process, its messages, and the localization process with its synchroniser |
| messages to map | `MapChainModel.v` | the mapping process with its synchroniser |
| warnings of the EKF | `WarnModel.v` | which warnings a measurement raises, which of them the throttled log shows |
| scans to map | `FullMapModel.v` | the edge messages of the extraction as the clouds of the mapping |
| driver to features | `DriverModel.v` | converter, reading of the message by pcl, extraction node, one behind the other |
| driver to map | `RawMapModel.v` | converter process and extraction process over the sensor's messages |
| stacking, points as rows | `StackModel.v` | lib/include/lidar_feature_library/eigen.hpp:47-65, lib/src/pcl_utils.cpp:32-46, lib/include/lidar_feature_library/pcl_utils.hpp:54-58, point_to_vector.hpp, pointcloud_to_matrix.hpp |
| line markers | `MarkerModel.v` | ros_msg.cpp:91-98, 147-188 |
| published pose | `PublishModel.v` | MakePoseFromXYZRPY and the pose in the EKF localizer's messages |
| converter | `ConvertModel.v` | convert.py |
| EKF node | `EkfModel.v` | aged queue, measurements, update_interval, delay, state transition, covariance, node, Simple1DFilter |
| Kalman filters | `KalmanModel.v` | kalman_filter, time_delay_kalman_filter, mahalanobis |

Specifications: `Spec*.v`.  Proofs: `*Proofs*.v` and `RealMatrix.v` (reals as a
mathcomp field).  Property theorems: `Prop_*.v`.

Not modelled: ROS/PCL/Eigen/nanoflann internals, parameter declaration, logging text (which warnings of the EKF appear is in WarnModel.v),
TF broadcasting internals, builders of twists in `ros_msg.cpp`, visualisation, performance, threads (each node spins a
single-threaded executor; the mapping a multi-threaded one, with all its callbacks in one mutually exclusive group), file formats of PCD, the source of message_filters (its exact-time policy is modelled from its documentation), ROS discovery and delivery (that matching endpoints are connected, and how names are expanded, is taken from rcl's documentation), `lib/span.hpp` beyond
`at`, `imu_integration`, `edge_surface_map.hpp` (it cannot be compiled), and `pose_updater.hpp` in
`localization`.

## 4. Plan per property

* **C01** labels as list, neighbour relation as function; invariant over the
  greedy loop: no Edge within `padding` along a connected run of a Default point
  or of another Edge.  Generic in the visiting order.
* **C02** invariant over the loop (any order, any relation).
* **C03** loop invariant over a descending order given by `valid_sort`.
* **C04** same invariant as C01 carried through the surface loop.
* **C05** expected false: fills are clipped at block borders; witness by computation.
* **C06** with C07; labels outside the blocks never written.
* **C07** Flocq: error bound of the rounded boundary (< 2^-20) for all integers up to
  2^30, truncation monotone; exactness at j=0 and j=n.
* **C08** expected false (5 blocks, start 18, width 2): `vm_compute` on binary64; plus the proved bound (each block differs from nominal by at most 1).
* **C09** case analysis on the model.
* **C10** characterisation lemmas for the three fills (exact set written).
* **C11** iff-characterisation for the two loops by induction over the loop index.
* **C12** unsigned wrap modelled; expected false for size <= padding.
* **C13, C14, C15, C16, C18** pipeline theorems over the callback model for every `arith`.
* **C17** expected false because of C08; proved with three points per block.
* **C19** real instance: with a = ra(cos t, sin t) etc. comparator <-> ta < tb, except for two distinct points on the positive x axis: refuted there, proved elsewhere.
* **C20** refuted: positive x axis (asymmetry), and rounding (binary32) away from the axes; proved for exact arithmetic off the positive axis.
* **C21** partition/permutation for all sorts; order by C19.
* **C22** refuted by binary64 computation ((2,3) twice); proved in exact arithmetic.
* **C23** commutativity of IEEE mult/add (Flocq lemma).
* **C24, C25** over an arbitrary ring / reals.
* **C26, C27, C28** refuted with witnesses; positive statements for begin = 0, min = 0.
* **C29** for every conforming nth_element. **C30, C31, C32, C33** list lemmas.
* **C34** sorted association list. **C35** refuted, exact effect proved. **C36** refuted (history of length n leaves n entries). **C37** trace semantics of the node; publication part proved, UB part refuted. **C38** refuted (binary64 rounding of int64), positive bound for differences >= 512 ns below 2^61.
* **C39** traces of `Run` for any problem oracle. **C40, C41** refuted, with the positive part (error of the last *accepted* pose) proved.
  C40 also for the point alignment and for every run stopped by a larger error, and proved for runs stopped by the scale (Prop_Worse.v).
* **C42, C43** real analysis (stdlib Reals derivatives). **C44** on top of the median model.
* **C45-C48** polynomial identities over reals + derivative statements. **C49** list model with oracles. **C50** refuted for small maps, proved otherwise.
* **C51-C55** histories by induction; C53 refuted.
* **C56-C59** mathcomp matrices over the reals: Joseph form, augmented matrices.
* **C60-C62** queue histories; C61 refuted. **C63** scalar and matrix information form.
* **C64** refuted. **C65** refuted (equal times), rest proved on binary64. **C66** reals/Flocq rounding; **C67-C69** reals; **C70** reals, histories; **C71** node state machine, UB part refuted; **C72** refuted for the empty string (front() of an empty string), proved otherwise; **C73** mathcomp/reals.
* **C74-C78** histories, byte lists.
* **C79** (added later) chain rule along the applied motions, Coquelicot derivatives.
* **C80** induction on the buffer: late fusion commutes with prediction, information form.
* **C81** node state machine with the time-delay filter; refuted for messages that crash it.
* **C82-C84** refuted with witnesses in exact arithmetic; positive statements for small heading differences, unrotated frames, and no delay.
* **C85** greedy cover of the labelling followed through the blocks and the checks; expected false because the checks run last; witness by computation. **C86** case analysis of the callback's guards.
* **C87** normal equations of the weighted problem restricted to the tangent space; positive definiteness from the degeneracy test; convexity gives the minimum. A run is shown to be a sequence of such steps for a specification (SpecRun.v) with the numbers written out.
* **C88** the run invariant gives a sound filter; ticks without messages only predict; the heading is exact, the position error per tick is bounded by the mean value theorem and summed over the ticks.
* **C89** the body of the update loops against a specification of gating and textbook fusion (SpecFusion.v); non-finite values in IEEE arithmetic by case analysis.
* **C90** composition of the interval, prediction (C67, C68), queue (C60, C61) and fusion (C57, C89) theorems under the run invariant.
* **C91** invariant over histories; the published 6 x 6 arrays are the covariance placed in a zero matrix.
* **C92** decomposition of the sum of squares at the mean; the eigenvector is specified as maximiser of the quadratic form.
* **C93** uniqueness of the least squares solution for planes off the origin; planes through the origin have no coefficients (refutation).
* **C94** all residuals vanish by C92 and C93, so scale and right hand side vanish and the increment is zero, in the degenerate case and (by positive definiteness) in the regular one.
* **C95** row by row as in C48, for given coefficients.
* **C96** the sorting theorem of C31 and the distance lemma of C93.
* **C97** (SpecHeight.v, HeightProofs.v) doubles: the filters after a history are a fold over
  its poses; NaN is absorbing. For the positive part an invariant of the update: gain in
  [0, 1] after rounding, deviation at most 2^150, and a weighted mean of two doubles of size
  at most 2^1000 rounds to such a double.
* **C98** (HeightExactProofs.v) reals: the filter keeps the square root of the variance of the
  textbook recursion; the share of a measurement lies strictly between 0 and 1.
* **C99** the same fold, compared with the update cycle of C90 on a pose beyond the delay
  buffer.
* **C100** the same fold.
* **C101** two concrete cycles in numbers through the specification of C90; the invariant
  that the bias variance is at most 0.0001 by induction over histories.
* **C102** a textbook update shrinks the covariance (mathcomp matrices); both ticks start
  from the same prediction.
* **C103** (OrderProofs.v, TieProofs.v) without ties every valid sort gives the same ring, so
  rings of the two messages view the same points, and the labels depend on the viewed points
  only. Refutation: all sorted permutations of a concrete ring are enumerated.
* **C104**, **C105** (SpecOrigin.v, OriginProofs.v) simulation of the moved history by the
  original one: filters with equal covariances whose positions differ by the displacement,
  moved queues, shifted clocks.
* **C106** (TurnProofs.v, TurnNodeProofs.v) one cycle at rest in numbers through the specification
  of C90; an initial covariance along the axes; for histories without pose measurements a
  simulation of the turned history, by blocks of the covariance.
* **C107** (SpecInitial.v) erasing the correlations of every initial pose changes nothing that is
  published (simulation); one tick after an initial pose in numbers; the variances for every pose.
* **C108** unit quaternions with equal matrices are equal up to sign.
* **C109** the squared length of a moved vector as a polynomial in the quaternion; C54 for the map.
* **C110** by the first two moments; one value in IEEE doubles.
* **C111** the node with the localizer inside; residuals and Jacobian rows are equal or all
  negated, so the normal equations are the same; simulation over iterations and callbacks.
  Witness: two parallel planes, least squares by the normal equations.
* **C112** the callback on two clouds whose points correspond (RelatedProofs.v): same rings,
  distances, angles and order give corresponding outputs; azimuths shift by the angle.  Witness:
  eight points and a half turn.
* **C113** the same correspondence with equal horizontal coordinates.
* **C114** (SpecArrival.v, ArrivalProofs.v) a pose and a twist callback commute; the next pose or
  twist can be moved to the front; induction over the history.
* **C115** (SpecShuffle.v, ShuffleProofs.v) sums, medians and the entries of the linear system are
  symmetric in the terms; induction over iterations and callbacks.
* **C116** mean, covariance and the least squares minimiser are symmetric in the neighbours; the
  n nearest points are a set if no distances are equal.  Witness: six points, fifteen searched for.
* **C117** the format string covers every field up to its end, and unpacking needs exactly its size;
  index -1 of the list of types is a double (refuted).
* **C118** the Jacobians are even or odd in the quaternion like the chart matrix, so the product changes
  the sign of the turn exactly when the conversion returns the opposite quaternion (two cases by injectivity
  up to sign); uniqueness of the minimiser by strict convexity gives the reversed step; a run on the corners of a square in closed form.
* **C119** a turn of the axes acts orthogonally on the seven coordinates of the step, so the linear model,
  its eigenvalues and its minimiser turn along; induction on the iterations.  Refuted by the run of C118.
* **C120** (SpecMirror.v, MirrorProofs.v) simulation: the mirrored filter has the signs
  (1, -1, -1, -1, 1, -1) on every block of the state and the products of them on the
  covariance; signs commute with products and with exact inverses.
* **C121** (SpecMirrorMap.v, MirrorMapProofs.v) as C119, for the mirror followed by a turn: it acts
  orthogonally on the seven coordinates of the step; the mirror is an automorphism of quaternions.
  The mirror maps the run of C118 to one on the other side of the branch of the conversion.
* **C122** (SpecSettle.v, Prop_Settle.v) on top of C98: by induction over the recent poses, the
  variance is never below the inverse of the weight so far, so a pose of variance v leaves at most
  W/(W + 1/v) of a deviation; the product of these telescopes to the share of the older poses.
* **C123** (SpecFlip.v, FlipProofs.v, FlipCallback.v) the mirror reverses the order of each ring; every step of
  the labelling (neighbours, masks, curvature, blocks, descending and ascending passes, fills) commutes
  with reversal of a ring if the blocks have equal length and no curvatures are equal.  Refuted by
  seven points in two blocks.
* **C124** (OffsetProofs.v) residuals of exact lines and planes are linear in the position, so they are the
  translation columns of the Jacobian times the displacement; the step back makes the weighted linear error zero
  whatever the weights are, the normal matrix is regular, hence it is the step; the next problem has residual
  zero and C94's run ends it.
* **C125** (BestProofs.v) completes the square: for every choice of weights the variance of the error is that of the
  Kalman gain plus the innovation covariance along the difference of the weights.
* **C126** (BestProofs.v) the remaining difference is N V r (noise, inverse innovation covariance, old difference);
  with W = N^-1 the three products are sums of the quadratic forms of N and P along V r. The delayed copy is read
  through the stacked measurement matrix; the node follows from C89.
* **C127** (SpecSwap.v, SwapProofs.v) in information form updates add up: (1 + P A) x' = x + P b and (1 + P A) P' = P with
  A and b the sums over the measurements of C^T N^-1 C and C^T N^-1 y, and 1 + P A is regular; no inverse of P is needed.
* **C128** (Prop_Swap.v) accepted messages are textbook updates (C89), so C127 applies; the gate makes the general claim
  false (witness computed entry by entry).
* **C129** (SpecBearing.v, FloatAngle.v, Prop_Bearing.v) products of ordinary floats are rounded with relative error
  2^-24, so the sign of the rounded determinant is right if |sin| of the difference of directions is 0 or above 2^-24;
  hence the comparator is atan2 < atan2 bit for bit, std::sort is defined, and C16 and C21 apply.  The same lemma gives
  the single-precision parts of C19, C20 and C103.
* **C130** (SpecAccuracy.v, AccuracyProofs.v, Prop_Accuracy.v) the ranges have relative error 2^-51, as squares of
  floats are normal doubles; partial sums of the window stay below 4 p 2^(m+1), a multiple of which is representable, so
  each of the 2p+2 roundings costs at most 2^(m+b-50); the final square is monotone.  With C06 and C13 this gives the
  statements on the published clouds.  The same lemmas give C25_nonnegative_double.
* **C131** (PublishModel.v, SpecPublish.v, Prop_Publish.v) the matrix of the published quaternion is Rz Ry Rx (C46, C108),
  whose entries give the angles back; the one-dimensional filters keep roll and pitch in range (an invariant of every
  history), so the node's own output is read back exactly; C88 and an induction over the ticks give the restart.
* **C132** (SpecUpright.v, Prop_Upright.v) roll and pitch of every published pose lie between those reported (C98), an
  interval inside (-pi/2, pi/2) for a vehicle on its wheels; the entries of the published rotation matrix follow. Two
  poses with rolls a and -a show that it fails for a vehicle upside down.
* **C133** (RoundTripModel.v, SpecDrift.v, Prop_Drift.v) the optimiser's way from matrix to quaternion and back, in any
  arithmetic; over the reals it agrees with PoseModel.v. With s the squared length of the vector part and e the excess of
  the squared norm, one round gives e' = e s / (1 - s) and s' = s + e' as long as s < 3/4. Growth for s > 1/2, decay for
  s < 1/2, rest for s >= 3/4; in doubles a run of 95 rounds is computed and shown to have reached a fixed point.
* **C134** (TransformModel.v, SpecStored.v, Prop_Stored.v) pcl::transformPointCloud in any arithmetic, poses in doubles and
  points in floats, under the map builder and the accumulated scans of MapModel.v. Forward error analysis: matrix from the
  quaternion, products and sums in doubles, one conversion to float. Against the claim: no float is nearer than 2^(k-24) to
  2^k + 2^(k-24). The same tools bound the centroid of C77 in doubles.
* **C135** (SystemModel.v, SpecSystem.v, Prop_System.v) The EKF localizer and the lidar localizer wired as in
  localization.launch.py, each callback one event, messages between them given by index so that delay, loss and repetition
  are all included. Invariant over histories: estimate, queues, priors and everything published stay at the initial pose.
  Against the claim: the update with the filter's own prediction as measurement has a smaller variance whenever the
  estimate of x, y and heading is uncertain, and a prediction at standstill keeps it so.
* **C136** (LaunchModel.v, SpecLaunch.v, Prop_Launch.v) Names and remappings as strings with the expansion rules of rcl,
  the endpoints each program creates with type, reliability and durability, the launch files as functions of their
  arguments and of the namespace they are included in. By cases over nodes and endpoints for all arguments; below a namespace
  by the length of the names.
* **C137** (LaunchModel.v, Prop_Launch.v) Files as a function from paths; the ends of the two main functions; C54 and C55
  give the contents.
* **C138** (SyncModel.v, SpecSync.v, SyncProofs.v, Prop_Sync.v) The exact-time synchroniser as an ordered list of incomplete
  tuples. Invariant: for growing stamps the list holds exactly the messages newer than the last pair that have no
  partner; safety and counting by induction without assumptions on the stamps.
* **C139** (ChainModel.v, SpecChain.v, ChainProofs.v, Prop_Chain.v) The extraction process as a function from scans to stamped
  message pairs, the localization process as a machine over arriving messages and priors; the run of the machine is
  reduced to a run of the node over the synchroniser's callbacks, then C138 and an invariant of the node (each
  publication comes from a callback and a received prior; its stamps are those of the callbacks with some left out).
* **C140** (MapChainModel.v, SpecMapChain.v, Prop_MapChain.v) The mapping process over arriving messages; its run is the map
  builder over the synchroniser's callbacks (C138). Key frames of stamped poses as in C54; coverage by induction on
  the key frame relation; the code's angle test as an inner product of quaternions (trace of the relative rotation).
* **C141** (WarnModel.v, SpecWarn.v, WarnProofs.v, Prop_Warn.v) The loop bodies again, with the warnings they raise, shown
  to leave the filter as in EkfModel.v; the log as a function of the warnings and the clock, with the one static time of
  RCLCPP_WARN_THROTTLE. By induction over the warnings. How long the macro stays silent is a parameter (some releases keep the
  first duration they are given).
* **C142** (FullMapModel.v, Prop_FullMap.v) The edge topic of the extraction process as the clouds of the mapping process.
  C140 and C139 composed with C13 (ranges) and C14 (no duplicates); the frames of the map are chosen by induction on the
  key frames of C140.
* **C143** (DriverModel.v, Prop_Driver.v) The converter's callback, pcl::fromROSMsg on its output (bytes to IEEE floats) and the
  extraction's callback composed. The converter's theorem (C75) gives the bytes, an induction over the points gives the floats;
  the specification reads them directly from the sensor's message. For the NaN: two returns ordered by the comparison, both
  incomparable with a third.
* **C144** (RawMapModel.v, Prop_RawMap.v) The converter and the extraction as processes over the messages they receive, in
  front of the mapping process of C142. By induction over the messages the scans of the extraction are the returns of the
  sensor's messages (C75, C143); then C142. That an exception ends the converter is rclpy's behaviour, recorded in the model.
* **C145** (Prop_RawPose.v) The converter and extraction processes of C144 in front of the localization process of C139. The
  returns in a message are shown to be determined by the message; then the theorems of C139, C143 and C144.
* **C146** (Prop_Rows.v) The announced points as slices of the data, by row and column; C75 on them. By induction over the
  rows the slices put together are the data (no padding), or the data without the padding.
* **C147** (StackModel.v, Prop_Stack.v) Matrices whose entries are indeterminate until written; invariant of the loop
  (rows before i are final), i * N modulo 2^32; the round trip from Flocq's correctness of the conversions.
* **C148** (StackModel.v, Prop_MapMatrix.v) The loop over the cloud with checked access; invariant: the rows before i are
  final; the conversion of a float to a double keeps every kind of number.
* **C149** (MarkerModel.v, Prop_Marker.v) The marker as a state, any sequence of calls as a fold; induction over the calls; the
  range checks by Flocq's comparison.

## 5. Results and findings

### 5.1 Results per property

Axioms: letters as in section 1 (E, F, N: `Coq.Reals`; C: `classic`; I: indefinite
description), measured with `Print Assumptions`; *none* is "Closed under the global
context".  A *partial* property whose note starts with REFUTED is violated by the code
as stated; what still holds is proved by the `_partial` theorems.

* **C01** (proved) Edge points of a block are separated by more than the padding
  - theorems: `C01_edges_separated` [none], `C01_surfaces_separated` [none]
  - Any arithmetic (IEEE with NaN included), any order produced by the sort, any symmetric neighbour relation; proved for Surface points too.
* **C02** (proved) Edge and surface labels are only given to qualifying points
  - theorems: `C02_edge_sound` [none], `C02_surface_sound` [none], `C02_passes_do_not_mix` [none]
  - Any arithmetic and any sort order; symmetry not needed.
* **C03** (proved) No strong edge candidate is lost (maximality of the suppression)
  - theorems: `C03_edge_maximal` [none], `C03_surface_maximal` [none], `C03_edge_pass_defined` [none], `C03_surface_pass_defined` [none]
  - std::sort modelled by the standard's postcondition (valid_sort); a NaN curvature makes the comparator no strict weak order, which the model reports as UB.
* **C04** (proved) The surface pass never takes an edge away
  - theorems: `C04_surface_keeps_edges` [none]
  - The Example ex_C04_needs_symmetry shows the symmetry hypothesis is necessary.
* **C05** (partial) Edge separation on a whole ring
  - theorems: `C05_ring_separation_refuted` [CEFN], `C05_block_separation_partial` [CEFN]
  - REFUTED: two adjacent Edge points on the two sides of a block boundary (witness: a 12-point ring, padding 1, 2 blocks). Proved: separation inside each block, blocks partition the ring interior.
* **C06** (proved) Features keep clear of the ends of a ring
  - theorems: `C06_features_clear_of_ends` [CEFN]
  - IEEE arithmetic; size+padding+2 < 2^31 and size*n_blocks <= 2^53.
* **C07** (proved) Blocks partition the padded index range
  - theorems: `C07_blocks_partition` [CEFN], `C07_boundary_accuracy` [CEFN]
  - IEEE double arithmetic as in the code, for 0<=begin, end<2^31, end*n_blocks<=2^53 (true for every ring of fewer than 2^22 points and 2^31 blocks).
* **C08** (partial) Blocks have the nominal width
  - theorems: `C08_nominal_width_refuted` [CEFN], `C08_width_within_one_partial` [CEFN], `C08_power_of_two_partial` [CEFN]
  - REFUTED: rounding of the boundary formula gives a block one point shorter than floor(w/n) (even an empty block, Example C08_empty_block). Proved instead: every block is within one of the nominal width, and exact for power-of-two block counts.
* **C09** (proved) Block access reports bad indices
  - theorems: `C09_block_errors` [none]
* **C10** (proved) Filling labels touches exactly the connected run
  - theorems: `C10_fill_from_left` [none], `C10_fill_from_right` [none], `C10_fill_neighbors` [none], `C10_fill_errors` [none], `C10_fill_neighbors_defined` [none]
* **C100** (partial) A new initial pose restarts the estimate
  - theorems: `C100_restart_refuted` [CEFN], `C100_first_partial` [CEFN]
  - REFUTED: height, roll and pitch after a later initial pose are a weighted mean with the old estimate and never the given values, unless they agreed before. Proved: the first pose is taken as it is. Position and heading do restart (C88_stays_put). Real arithmetic.
* **C101** (partial) Without bias estimation the heading bias stays zero
  - theorems: `C101_stays_zero_refuted` [CEFIN], `C101_variance_partial` [CEFIN]
  - REFUTED: only the process noise of the bias is switched off; its initial variance is 0.0001 in any case, and a history of two measurements and two ticks ends with a bias that is not zero, for every exact matrix inverse. Proved: the variance of the bias never exceeds its initial value. Real arithmetic.
* **C102** (proved) Measurements never make the published estimate less certain
  - theorems: `C102_measurements_help` [CEFIN]
  - Real arithmetic; no measurement waits before the arrivals; distinct clock readings of ticks.
* **C103** (partial) The features do not depend on the order of the points in the message
  - theorems: `C103_input_order_refuted` [CEFN], `C103_distinct_directions_partial` [E], `C103_distinct_angles_partial` [CEFN], `C103_float_partial` [CEFN]
  - REFUTED: two returns of one beam, in the same direction at different distances, are ordered by their places in the message, and in one order the nearer one is an edge and in the other it is not, for every conforming sort (IEEE arithmetic). Proved: if no two points of a ring have the same direction the output is the same up to order, in any arithmetic; missing: rings with several returns in one direction.
* **C104** (proved) The choice of the map's origin does not matter to the EKF localizer
  - theorems: `C104_map_origin` [CEFN]
  - Real arithmetic, for every matrix inverse and every sine, cosine and arctangent; also covers histories that end in an exception.
* **C105** (proved) The choice of the origin of time does not matter to the EKF localizer
  - theorems: `C105_time_origin` [CEFN]
  - Real arithmetic; in doubles the time in seconds is rounded.
* **C106** (partial) The direction of the map's axes does not matter to the EKF localizer
  - theorems: `C106_map_axes_refuted` [CEFIN], `C106_initial_covariance_refuted` [CEFN], `C106_twists_partial` [CEFN]
  - REFUTED twice: headings are averaged without regard to the cut at pi, so a vehicle at rest with headings on both sides of the cut gets another heading when the axes are turned by half a turn; and the correlations of the initial pose are dropped, so turning the axes by 45 degrees changes the published covariance. Proved: for histories of initial poses with equal, uncorrelated position variances, twists and ticks everything published is turned. Missing: pose measurements away from the cut. Real arithmetic, every exact matrix inverse.
* **C107** (partial) The uncertainty of the initial pose is taken over
  - theorems: `C107_correlations_refuted` [CEFN], `C107_never_used_refuted` [CEFN], `C107_variances_partial` [CEFN]
  - REFUTED: only the variances of x, y and heading are used; with correlations in all messages erased everything published stays the same (for every history of complete initial poses), and a given covariance of 1/2 of x and y is published as 0. Proved: the variances of x, y and heading are taken over and grow by the motion. Real arithmetic.
* **C108** (proved) Poses survive the message format
  - theorems: `C108_pose_round_trip` [EFN], `C108_message_round_trip` [EFN]
  - Real arithmetic; tf2 may negate the quaternion.
* **C109** (partial) Scans keep their shape in the map
  - theorems: `C109_distorted_refuted` [EFN], `C109_distances` [EFN], `C109_rigid_iff` [EFN], `C109_undistorted_partial` [CEFN]
  - REFUTED: quaternions of messages are not normalised; with (1,0,0,1) two points a metre apart are more than two metres apart in the map. Proved: the exact change of all distances for every quaternion, that only unit quaternions (and those without vector part) keep distances, and that maps built from unit quaternions consist of undistorted scans. Real arithmetic.
* **C11** (proved) Occlusion labelling marks exactly the shadow of range jumps
  - theorems: `C11_occlusion_exact` [none], `C11_occlusion_defined` [none], `C11_out_of_range_exact` [none], `C11_parallel_beam_exact` [none]
* **C110** (partial) The sample standard deviation is the sample standard deviation
  - theorems: `C110_standard_deviation` [CEFN], `C110_single_value_refuted` [CEFN], `C110_equal_values_refuted` [CEFN]
  - REFUTED for a single value: in doubles the result is not a number, for every finite value; three equal values (0.1) have a positive result. Proved for two or more values in real arithmetic.
* **C111** (partial) The origin of the map does not matter to lidar localization
  - theorems: `C111_origin_of_the_map_refuted` [CEFN], `C111_origin_of_the_map_partial` [CEFN], `C111_one_scan_partial` [CEFN]
  - REFUTED: planes are fitted as w.x = -1, whose least squares solution depends on where the origin is; for a map with two storeys a scan has error 0 with one origin and (56/319)^2 with the origin a metre lower, for every least squares solver. Proved: for whole histories of the node the shift of the origin shifts what is published and changes nothing else, for every edge map and for surface maps whose neighbourhoods lie in planes containing neither origin. Real arithmetic; the neighbour search is assumed not to depend on the origin.
* **C112** (partial) The features do not depend on the direction in which the sensor is mounted
  - theorems: `C112_mounting_direction_refuted` [CEFN], `C112_mounting_direction_partial` [CEFN]
  - REFUTED: rings are cut open behind the sensor and the margins at the cut carry no features, so an edge straight ahead disappears when the sensor looks backwards (half turn, exact in floats, any sort). Proved in real arithmetic: turning by any angle that takes no return past the cut turns everything published and changes nothing else, if no two returns of a ring have the same direction.
* **C113** (proved) The features are selected by horizontal coordinates alone
  - theorems: `C113_heights_do_not_matter` [E]
  - Any arithmetic, any sort, all outcomes.
* **C114** (proved) The order in which pose and twist messages arrive between two ticks does not matter to the EKF localizer
  - theorems: `C114_arrival_order` [none]
  - Any arithmetic, orientation conversion and filter; all outcomes.
* **C115** (proved) The order of the features of a scan does not matter to the lidar localizer
  - theorems: `C115_feature_order` [CEFN], `C115_one_scan` [CEFN]
  - Real arithmetic; for every map, search and solver. The voxel reduction is assumed to keep the same points whatever their order. In floating-point arithmetic sums depend on the order in the last digits.
* **C116** (partial) The order of the points in the maps does not matter to the lidar localizer
  - theorems: `C116_map_order_refuted` [CEFN], `C116_map_order_partial` [CEFN], `C116_same_neighbors_partial` [CF]
  - REFUTED for maps with fewer points than the 15 that are searched for: unused index entries stay zero, so the first point of the map is counted several times; exchanging two points of a map changes the error of a scan from 0 to (27/40)^2, for every nearest-neighbour search and least squares solver. Proved: with enough points and no two equally far from the query every search finds the same points, and if the search finds the same points and the fitted planes are determined, whole histories give the same. Real arithmetic.
* **C117** (partial) The point type converter raises on clouds that do not match their announced layout
  - theorems: `C117_unset_type_refuted` [none], `C117_read_as_double_refuted` [none], `C117_rejected_partial` [none]
  - REFUTED: type 0, the value of a field that was never set, is accepted and read as a double, because the list of types is indexed with -1. Proved: the converter raises on a step of zero, data that are no whole number of steps, fields of types above 8, and fields of known types that reach beyond the step.
* **C118** (partial) Every optimiser step follows the slopes of the residuals at the current estimate
  - theorems: `C118_opposite_slopes_refuted` [CEFN], `C118_turns_backwards_refuted` [CEFN], `C118_wrong_way_refuted` [CEFN], `C118_slopes_partial` [CEFN]
  - REFUTED: the optimiser keeps a quaternion across iterations, the problems convert the pose back to one; once the estimate crosses a branch of that conversion (e.g. a heading of -120 degrees) the two are opposite, every slope has the wrong sign in the turn (C118_opposite_slopes_refuted), the computed turn is reversed (C118_turns_backwards_refuted), and a run ends further from the truth than after its first step while it reports success (C118_wrong_way_refuted, for all solvers meeting their specifications). C118_slopes_partial: the slopes are those of the step or all those of the reversed turn; the former in the first iteration and while the scalar part is above 1/2. Real arithmetic.
* **C119** (partial) The directions of the axes of the map do not matter to the lidar localizer
  - theorems: `C119_axes_refuted` [CEFN], `C119_alignment_partial` [CEFN], `C119_localizer_partial` [CEFN], `C119_small_turns_partial` [EFN]
  - REFUTED: for all solvers meeting their specifications, a run of two iterations from heading 0 meets a square turned by 90 degrees more closely than the same run told in axes turned by 225 degrees, because the latter crosses a branch of the conversion to quaternions (cf. C118). Proved: the whole results agree, failures included, for the alignment problem and for the localizer's problem, if the conversion gives corresponding quaternions at the estimates that the run passes, which holds while both orientations stay below 120 degrees (C119_small_turns_partial); for the localizer the search has to find the same points, and the neighbourhoods have one principal direction resp. determine a plane. Real arithmetic.
* **C12** (partial) Occlusion labelling is safe on short rings
  - theorems: `C12_short_ring_safe_refuted` [CEFN], `C12_short_ring_fails` [none]
  - REFUTED: for arrays with at most padding points the unsigned bound wraps and the query throws std::out_of_range; C12_short_ring_fails proves it for every such array whose adjacent points are neighbours-queryable. The callback avoids it by dropping rings with at most padding points.
* **C120** (proved) The EKF localizer treats left and right alike
  - theorems: `C120_left_right` [CEFIN]
  - Exact arithmetic and the repository's time-delay filter, for every odd sine, even cosine, arctangent odd in its first argument (as atan2 of the C library is, which has signed zeros; the real arctangent is so except straight back, where it gives +180 degrees on both sides), exact matrix inversion and conversion of orientations that the mirror image negates in roll and yaw. All outcomes, failures included.
* **C121** (partial) The lidar localizer treats left and right alike
  - theorems: `C121_left_right_refuted` [CEFN], `C121_alignment_partial` [CEFN], `C121_localizer_partial` [CEFN], `C121_signs_partial` [EFN]
  - REFUTED: for all solvers meeting their specifications, two iterations on a square that has to be turned by 90 degrees to the left from 225 degrees end in another place than the mirror image of the result for the mirrored square, which has to be turned to the right from 135 degrees: only the first run crosses a branch of the conversion to quaternions with another sign (cf. C118). Proved: the whole results are mirror images, failures included, for the alignment problem and for the localizer's problem, if the conversion treats all estimates of the run with the same sign; C121_signs_partial gives that sign for every orientation (in particular runs below 120 degrees qualify). For the localizer the search and the voxel reduction have to commute with the mirror, and the neighbourhoods have one principal direction resp. determine a plane. Real arithmetic.
* **C122** (proved) Height, roll and pitch settle on what the poses report
  - theorems: `C122_share` [CEFN], `C122_forgotten` [CEFN], `C122_settles` [CEFN]
  - Real arithmetic; positive variances; any Kalman filter for x, y and yaw. The bound with the shares holds for all stamps, also equal or decreasing ones; the fixed factor is v/(v + (q gap)^2) for variances up to v, gaps of at least gap seconds, and q = 1 (height) or 1/10 (roll, pitch).
* **C123** (partial) The feature extraction treats left and right alike
  - theorems: `C123_left_right_refuted` [CEFN], `C123_left_right_partial` [CEFN]
  - REFUTED: binary64, for every conforming sort: five labelled points in two blocks are cut 2 + 3 from the right, so two neighbouring edges in different blocks are both published, and only one of them in the mirrored scan, where they share a block. Proved in real arithmetic, edges, surfaces and colours, both callbacks ending normally: scans without returns straight behind the sensor or in equal directions within a ring, whose long enough rings divide evenly into blocks and bend differently at different places.
* **C124** (proved) A wrong position with the right orientation is corrected in one step
  - theorems: `C124_alignment` [CEFN], `C124_localizer` [CEFN]
  - Real arithmetic; any Cholesky solver, eigenvalues, selection, principal direction and least-squares solver meeting their specifications; not degenerate: no eigenvalue below 0.1 in absolute value, the bound of the code; the initial error is at most half the largest double. The planes do not contain the origin of the map (cf. C93).
* **C125** (proved) A measurement is used in the best possible way
  - theorems: `C125_plain` [CEFIN], `C125_delay` [CEFIN]
  - Real arithmetic, exact matrix inversion. Weights are compared by the variance of the error when the errors of estimate and measurement have the covariances the filter assumes and are uncorrelated; for the filter with delayed copies the statement is about the stacked state of all copies.
* **C126** (proved) A measurement draws the estimate towards it and not beyond
  - theorems: `C126_plain` [CEFIN], `C126_delay` [CEFIN], `C126_pose` [CEFIN], `C126_twist` [CEFIN]
  - Real arithmetic, exact matrix inversion. With r and r' the differences before and after and W the inverse of the measurement's covariance: 0 <= r'.W r' <= r'.W r <= r.W r, and r'.W r' < r.W r in the filters if r is not 0 and the measured quantities have a positive definite covariance. In the node the difference of headings is that of the numbers, not the shorter turn (cf. C82).
* **C127** (proved) The order of measurements does not matter to the Kalman filters
  - theorems: `C127_plain` [CEFIN], `C127_plain_together` [CEFIN], `C127_delay` [CEFIN], `C127_delay_together` [CEFIN]
  - Real arithmetic, exact matrix inversion; all updates succeed because the noises are positive definite (C56).
* **C128** (partial) The order of waiting messages does not matter to the EKF localizer
  - theorems: `C128_order_refuted` [CEFIN], `C128_accepted_partial` [CEFIN]
  - REFUTED: two poses one metre to the left and right of the estimate, gate 1.2: whichever comes first is accepted and narrows the gate for the other, which is rejected; the estimates end up a third of a metre to the left or to the right. Smoothing over two ticks, so that both messages are taken from the queue (with smoothing over one tick half of the messages stay in the queue, which is the first half of the arrival order). Proved in real arithmetic: if all messages are accepted when their turn comes, in both orders, the estimates and covariances are equal.
* **C129** (proved) Scans whose directions single precision can tell apart are always processed
  - theorems: `C129_rings_by_direction` [CEFN], `C129_always_published` [CEFN]
  - IEEE arithmetic, bit-exact, for every acos. Ordinary size: zero or between 2^-60 and 2^60 in magnitude. The bound on the directions is on the sine of their difference, 2^-24; C20_strict_weak_order_rounding_refuted shows that some bound is needed.
* **C13** (proved) Published features are clean
  - theorems: `C13_features_clean` [none]
  - For every arithmetic instance, sort and ring order.
* **C130** (proved) The curvature is the bend of the ring within a known tolerance
  - theorems: `C130_curvature_accurate` [CEFN], `C130_clear_points_qualify` [CEFN], `C130_even_profile` [CEFN], `C130_edges_stand_out` [CEFN], `C130_surfaces_are_even` [CEFN]
  - IEEE double arithmetic, bit-exact, for every acos. The bend is a sum of real square roots (SpecAccuracy.v); -100 <= m <= 100 and 0 <= b <= 30. The bound on the surfaces asks for a finite surface threshold.
* **C131** (proved) Orientations mean the same to all nodes
  - theorems: `C131_read_back` [CEFN], `C131_heading_of_pose` [CEFN], `C131_restart` [CEFIN]
  - Exact arithmetic. tf2's getYaw and getRPY are external; assumed is that they give the angles of the rotation matrix for unit quaternions whose forward axis is not within 0.26 degrees of the vertical, and values in the usual ranges otherwise (reads_angles in SpecPublish.v). The restart theorem assumes that the callback accepts the message (which it does when the frame and the covariance are complete and the stamp is not negative, see C131_restart_case).
* **C132** (partial) Which way up the vehicle is, is kept
  - theorems: `C132_upright_partial` [CEFN], `C132_inclination_partial` [CEFN], `C132_upside_down_refuted` [CEFN]
  - REFUTED: the roll is averaged as a plain number, so of two poses with rolls a and -a beyond a right angle, both upside down and as close to each other as one likes, the published pose is level and on its wheels. Proved: vehicles reported on their wheels are published on their wheels, and not more inclined than reported. Exact arithmetic; tf2's getRPY as in C131.
* **C133** (partial) Rounding errors of the orientation do not build up
  - theorems: `C133_doubles_refuted` [CEFN], `C133_builds_up_refuted` [CEFN], `C133_unstable_refuted` [CEFN], `C133_below_90_partial` [CEFN], `C133_beyond_120_partial` [CEFN]
  - REFUTED: every update converts the rotation matrix to a quaternion and back without normalising it, which multiplies the error of the norm by tan^2 of half the angle. In IEEE doubles a localizer facing 100 degrees reports after 95 scans without features, each of them returning false, a pose that faces more than 25 degrees elsewhere and enlarges distances by more than 1.2. With exact arithmetic every excess of the norm, however small, builds up to an enlargement by seven percent. Proved (exact arithmetic): below 90 degrees errors die out geometrically, beyond 120 degrees nothing changes.
* **C134** (partial) Points of the map are stored where the poses put them
  - theorems: `C134_far_refuted` [CEFN], `C134_seven_millimetres_refuted` [CEFN], `C134_map_partial` [CEFN], `C134_accumulated_partial` [CEFN], `C134_near_the_origin_partial` [CEFN]
  - REFUTED: the map stores single precision, so a vehicle 2^k metres from the origin has points that are stored 2^(k-24) metres or more from where they belong, for every k up to 100; 7 mm at 131 km, a size usual for coordinates on a national grid. Proved for both orders of the sum and all decisions about key frames: every coordinate is stored within a relative error of 2^-24 and an absolute one of 2^(max(a+7,b)-48) for points up to 2^a and positions up to 2^b; within half a millimetre less than 8192 m from the origin.
* **C135** (partial) Scans without information do not make the localization more certain
  - theorems: `C135_no_information_refuted` [CEFIN], `C135_parked_partial` [CEFIN], `C135_no_features` [CEFN], `C135_degenerate` [CEFN]
  - REFUTED for the covariance: the lidar localizer publishes the pose it was given with a constant covariance also when the optimisation learnt nothing, and the filter takes its own prediction for an independent measurement; for every sound start and filter parameters one such scan between two ticks makes the published variance of x smaller than in the run without it. Proved for the pose: over all histories of the parked vehicle both nodes publish the initial pose. Scans without features and scans with a degenerate normal matrix are such scans.
* **C136** (partial) The launched nodes are connected as intended
  - theorems: `C136_localization` [none], `C136_mapping` [none], `C136_group_partial` [none], `C136_namespace_refuted` [none], `C136_odometry_refuted` [none]
  - Proved for the localization and the mapping launch file started by themselves. REFUTED below a namespace: the localizer's scan_surface is not remapped, so in every proper namespace it never gets a surface scan, and the converter uses the absolute name /points_raw, which the rule for points_raw does not match there. REFUTED for the odometry launch file: the extraction reads the sensor directly instead of the converted points, and asks for reliable delivery, so that it gets nothing from a best-effort driver.
* **C137** (partial) What the mapping writes is what the localization reads
  - theorems: `C137_localizable_refuted` [EFN], `C137_localizable_partial` [CEFN], `C137_nothing_mapped` [EFN]
  - REFUTED: the mapping writes maps/edge.pcd only, the localization gives up with status -1 unless maps/surface.pcd exists too. With a surface map from elsewhere: it starts with the map built from the key frames.
* **C138** (proved) The two messages of a scan are used together and once
  - theorems: `C138_pairs` [none], `C138_every_scan` [none], `C138_localizer` [none], `C138_mapping` [none], `C138_same_scan` [none], `C138_at_most_once` [none], `C138_in_order` [none], `C138_adjacent` [none], `C138_running_ahead` [none]
  - The synchroniser is that of message_filters, written down from its documentation; queue sizes and streams are those of the repository. A scan without its partner message is dropped silently; if stamps go back (a recording played again), pairs arriving next to each other are still used.
* **C139** (proved) Each published pose belongs to one scan and is computed from that scan
  - theorems: `C139_in_order` [none], `C139_own_features` [none], `C139_every_scan` [CEFN]
  - Composes the extraction callback, the messages it publishes, the synchroniser, the store of priors and the localization callback. The first two hold for any arithmetic, the third for IEEE doubles in the localizer. The optimisation is a parameter (modelled in LocModel and OptModel, C39-C49); the network is any order-preserving, lossy delivery per topic. Growing stamps are needed: with two scans of one stamp the edge points of one and the surface points of the other are combined (Example C139_equal_stamps).
* **C14** (proved) Features are a duplicate-free subset of the scan
  - theorems: `C14_duplicate_free_subset` [none]
* **C140** (proved) The map is made of clouds placed by the pose of their own time
  - theorems: `C140_own_pose` [EFN], `C140_map` [CEFN], `C140_covered` [CEFN], `C140_saved` [CEFN]
  - Composes the synchroniser, the conversion of pose messages and the map builder. Real arithmetic; orientations are unit quaternions (what happens otherwise is C109). The condition on the angle is stated with the inner product of the quaternions and shown to be the code's test on the relative rotation.
* **C141** (partial) A measurement that is not used is reported, with the reason
  - theorems: `C141_raised` [none], `C141_true` [none], `C141_some_line_partial` [none], `C141_only_reason_partial` [none], `C141_every_time_partial` [none], `C141_masked_refuted` [none], `C141_backwards_refuted` [none]
  - REFUTED: all throttled warnings share one time of the last line, so measurements stamped slightly ahead of the clock and rejected by the gate produce, for ever, only the line about the stamp; after the clock is set back nothing throttled is written until it has caught up. Proved: every drop raises a warning for a true reason, every line is true, some line was written in the last two seconds, with the reason if no other was raised, and values that are not finite or updates that fail are reported every time.
* **C142** (proved) The map consists of measured edge points, each at most once
  - theorems: `C142_measured` [EFN], `C142_map` [CEFN], `C142_covered` [CEFN]
  - Composes the extraction process (C139) with the mapping process (C140). Extraction in any arithmetic of the model, IEEE included; the mapping in real arithmetic on the values of the coordinates; orientations are unit quaternions (otherwise C109). The edge messages are assumed to arrive in order, some possibly lost.
* **C143** (partial) From the sensor's cloud to the features, through the converter, invalid returns do no harm
  - theorems: `C143_returns_partial` [CEFN], `C143_published_partial` [CEFN], `C143_shutdown_refuted` [CEFN], `C143_invalid_refuted` [CEFN]
  - REFUTED: the converter declares every output as dense and keeps returns with NaN coordinates, so behind it the extraction never asks for the shutdown, and one NaN return in a ring with two ordinary ones in different directions to the left makes the comparison given to std::sort no strict weak ordering, which is undefined behaviour. Proved, for the layouts of C75: the extraction works on exactly the returns that are not at the origin, with their values, and publishes features when these are ordinary finite points; other layouts are not covered.
* **C144** (partial) From the sensor's messages to the map file, through converter, extraction and mapping
  - theorems: `C144_measured_partial` [CEFN], `C144_map_partial` [CEFN], `C144_covered_partial` [CEFN], `C144_malformed_refuted` [none]
  - REFUTED: a message that does not match its announced layout raises in the callback, the exception leaves rclpy.spin and main, so that nothing the sensor sends afterwards is ever converted. Proved for sequences of messages with the layouts of C75: the points of the map are returns of the sensor, each at most once, placed by the pose with the stamp of their message, and every message whose features and pose arrive is represented. Other layouts are not covered.
* **C145** (partial) From the sensor's messages to the poses of the lidar localizer, through converter, extraction and localization
  - theorems: `C145_in_order_partial` [CEFN], `C145_own_returns_partial` [CEFN], `C145_every_message_partial` [CEFN], `C145_malformed_refuted` [CEFN]
  - REFUTED: after a message that does not match its announced layout no pose is published for anything the sensor sends (the converter has ended, C144). Proved for messages with the layouts of C75: order, own returns, and exactly one pose per message when nothing is lost and the returns are valid and told apart by single precision (with a NaN the extraction is undefined, C143). The optimisation is a parameter, as in C139.
* **C146** (partial) The converter reads exactly the points that the message announces
  - theorems: `C146_packed_rows_partial` [none], `C146_row_padding_refuted` [none]
  - REFUTED: height, width and row_step are not looked at; padding between the rows of the size of some points is converted as points, other padding shifts all following points or raises (C117). Proved: rows without padding and as many bytes as announced give exactly the announced points that are not at the origin.
* **C147** (partial) Stacked vectors, matrices and points keep their rows
  - theorems: `C147_vectors_partial` [none], `C147_matrices_partial` [none], `C147_large_refuted` [none], `C147_points_partial` [CEFN], `C147_points_out_partial` [CEFN], `C147_round_trip_partial` [CEFN]
  - REFUTED: HorizontalStack computes the row in an unsigned int, so beyond 2^32 rows it overwrites the first matrices and leaves the last rows indeterminate. Proved up to 2^32 rows, and the rest of the statement (fewer than 2^32 elements, where the loop counter does not wrap; all NaNs are one NaN).
* **C148** (proved) The neighbour search sees every map point, unrounded
  - theorems: `C148_xyzcr` [CEFN], `C148_xyzcr_xyz` [CEFN], `C148_xyz` [CEFN]
  - All NaNs are one NaN in Flocq's BinarySingleNaN; Eigen's assignment of a vector to a row is modelled by its effect and its assertions.
* **C149** (proved) Line markers show exactly the added lines
  - theorems: `C149_lines` [CEFN], `C149_last_width` [CEFN], `C149_last_color` [CEFN], `C149_rejected` [CEFN], `C149_unset` [CEFN]
  - For builds with assertions (without NDEBUG); the members of a new message are zero, as rosidl initialises them.
* **C15** (proved) One bad ring never damages the others
  - theorems: `C15_ring_isolation` [none], `C15_publication_happens` [none]
* **C16** (partial) The extraction callback never escapes with an exception
  - theorems: `C16_never_escapes_refuted` [CEFN], `C16_finite_clouds_partial` [CEFN]
  - REFUTED: a NaN point leads to std::sort with a comparator that is no strict weak order (undefined behaviour). Proved: normal termination for all clouds with finite x, y.
* **C17** (partial) Every sufficiently long ring contributes
  - theorems: `C17_long_ring_contributes_refuted` [CEFN], `C17_three_points_per_block_partial` [CEFN]
  - REFUTED: padding 7, 13 blocks, 40 points; rounding leaves one point in a block and the ring is discarded. Proved with 3 points per block.
* **C18** (proved) Output does not depend on the ring map order
  - theorems: `C18_ring_order_independent` [none]
* **C19** (partial) The polar-angle comparator orders by atan2
  - theorems: `C19_comparator_is_atan2_refuted` [CEFN], `C19_comparator_off_axis_partial` [CEFN], `C19_atan2_is_polar_angle` [CEFN], `C19_float_partial` [CEFN]
  - REFUTED: two distinct points on the positive x axis are each reported smaller than the other. Proved: equal to atan2 < atan2 in every other case (exact arithmetic); and bit-exactly in single precision for ordinary coordinates if the directions are equal, opposite or differ by an angle with sine above 2^-24.
* **C20** (partial) The polar-angle comparator is a strict weak ordering
  - theorems: `C20_strict_weak_order_refuted` [CEFN], `C20_strict_weak_order_rounding_refuted` [CEFN], `C20_strict_weak_order_exact_partial` [CEFN], `C20_float_partial` [CEFN]
  - REFUTED twice: two points on the positive x axis; and, by float rounding of the determinant, three points of the open first quadrant. Proved: strict weak order in exact arithmetic with at most one point on the positive x axis; and in single precision on the rings of well resolved scans (see C129).
* **C21** (proved) Rings are angle-sorted partitions of the cloud
  - theorems: `C21_rings_partition` [none], `C21_rings_angle_sorted` [CEFN], `C21_sparse_rings` [none]
  - Partition for every arithmetic; order by atan2 in exact arithmetic, by the comparator in float arithmetic.
* **C22** (partial) A point is a neighbour of a copy of itself
  - theorems: `C22_neighbour_of_copy_refuted` [CEFN], `C22_same_direction_exact_partial` [CEFN]
  - REFUTED: for every acos returning NaN above 1, (2,3) is not a neighbour of its copy (computed cosine 1+2^-52). Proved in exact arithmetic.
* **C23** (proved) The neighbour relation is symmetric
  - theorems: `C23_neighbour_symmetric` [CEFN]
  - IEEE doubles, any acos.
* **C24** (proved) Convolution is the sliding window sum
  - theorems: `C24_convolution` [none], `C24_window_sum_exact` [CEFN]
* **C25** (proved) Curvature is non-negative and blind to straight range profiles
  - theorems: `C25_curvature_value` [CEFN], `C25_nonnegative` [CEFN], `C25_shift_invariant` [CEFN], `C25_zero_on_progression` [CEFN], `C25_quadratic_scaling` [CEFN], `C25_reversal` [CEFN], `C25_nonnegative_double` [CEFN]
  - Exact arithmetic, as the property says; for finite coordinates non-negativity also in double arithmetic (C25_nonnegative_double, where every curvature is moreover finite). For the others in double arithmetic see C130.
* **C26** (partial) Range over an interval returns the ranges of that interval
  - theorems: `C26_range_interval_refuted` [CEFN], `C26_range_from_zero_partial` [none]
  - REFUTED: Range(begin,end) ignores begin. Proved for begin = 0, the only use in the package.
* **C27** (partial) Visualisation colours identify labels
  - theorems: `C27_colours_distinguish_refuted` [none], `C27_colours_up_to_edge_surface_partial` [none]
  - REFUTED: Edge/Surface and EdgeNeighbor/SurfaceNeighbor share colours.
* **C28** (partial) Value colouring maps [min,max] onto [0,255]
  - theorems: `C28_value_colour_refuted` [CEFN], `C28_value_colour_zero_min_partial` [CEFN]
  - REFUTED: min is not subtracted (value = min gives 255, value = max is undefined on [1,2]). Proved for min = 0 in exact arithmetic.
* **C29** (partial) Median is the median
  - theorems: `C29_median_middle` [CEFN], `C29_median_halves` [CEFN], `C29_median_double` [CEFN], `C29_median_double_halves_partial` [CEFN], `C29_median_overflow_refuted` [CEFN]
  - REFUTED for doubles above 2^1022: the median of (max,max) is infinite because the two middle elements are added before halving. Proved in exact arithmetic for all data and every conforming nth_element, and in bit-exact doubles for NaN-free data bounded by 2^1022 (rounding included).
* **C30** (proved) Selecting by index and by value are inverse views
  - theorems: `C30_indices_by_value` [none], `C30_by_indices` [none], `C30_out_of_range` [none], `C30_value_view` [none]
  - Generic in the element type.
* **C31** (proved) Three-value sort sorts
  - theorems: `C31_permutation` [none], `C31_sorted_double` [CEFN], `C31_sorted_real` [EF]
  - Permutation for all doubles incl. NaN; ordered for all non-NaN doubles and for reals.
* **C32** (proved) Covariance message round trip
  - theorems: `C32_matrix_round_trip` [none], `C32_array_round_trip` [none], `C32_row_major` [none]
  - Generic in the entry type.
* **C33** (proved) Random index selection is a permutation
  - theorems: `C33_each_index_once` [none]
  - std::shuffle is any function returning a permutation of its argument.
* **C34** (proved) Closest prior
  - theorems: `C34_closest_exact` [CEFN], `C34_closest_double` [CEFN], `C34_empty` [none]
  - Exact arithmetic without restriction; IEEE doubles for finite stamps up to 2^64 in magnitude. On the empty store the call is undefined (precondition).
* **C35** (partial) RemoveOlderThan removes exactly the older entries
  - theorems: `C35_remove_older_refuted` [CEFN], `C35_removes_newer_partial` [CEFN]
  - REFUTED: RemoveOlderThan removes the newer entries and is undefined when all entries are newer; the exact effect is proved for all stores.
* **C36** (partial) Memory of prior poses stays bounded
  - theorems: `C36_priors_never_forgotten_refuted` [CEFN], `C36_memory_grows_refuted` [CEFN]
  - REFUTED: in every history a prior not later than the scans that follow it is kept for ever; for every k there is an ordinary drive with k stored priors.
* **C37** (partial) Pose publication protocol
  - theorems: `C37_publication_partial` [CEFN], `C37_defined_iff_partial` [CEFN], `C37_defined_partial` [CEFN], `C37_starts_from_closest_partial` [CEFN], `C37_undefined_refuted` [CEFN], `C37_starts_from_closest_refuted` [CEFN]
  - REFUTED in part: a prior more than a second ahead of a scan leads to undefined behaviour or is forgotten. Proved for all histories: one pose and one transform per answered scan while defined, the exact condition for definedness, and start from the closest prior when no prior was ever more than a second ahead of a scan. The optimisation itself is a parameter.
* **C38** (partial) Prior stamps are distinguished
  - theorems: `C38_stamps_distinguished_refuted` [CEFN], `C38_stamps_far_apart_partial` [CEFN]
  - REFUTED: stamps are converted to double and collapse; proved distinct and ordered when more than 256 ns apart (below 2^61 ns).
* **C39** (proved) Optimiser terminates with a consistent verdict
  - theorems: `C39_verdict` [none], `C39_defined` [none]
  - Every arithmetic (IEEE doubles included), every problem, every update function. C39_verdict characterises each of the five messages by the measured errors, scales and steps; the linear algebra inside the step is a parameter here (see C40, C79).
* **C40** (partial) A successful optimisation never makes the error worse
  - theorems: `C40_error_increases_refuted` [CEFN], `C40_alignment_refuted` [CEFN], `C40_returns_the_worse_refuted` [CEFN], `C40_scale_stop_partial` [CEFN], `C39_verdict` [none]
  - REFUTED: for the point alignment, a run from the position of least error (24) ends with success = true at a pose of error 26.88 (C40_alignment_refuted); every run stopped by LargerErrorThanPrevious after its first iteration succeeds with a pose strictly worse than one it has visited (C40_returns_the_worse_refuted); with a discontinuous problem the error quadruples. Proved instead: a run stopped by the scale is no worse than its start (C40_scale_stop_partial), and errors and scales of the accepted iterations never increase (C39_verdict).
* **C41** (partial) A degenerate problem is not reported as converged
  - theorems: `C41_degenerate_succeeds_refuted` [CEFN]
  - REFUTED for every degenerate problem: a zero step is returned and judged converged, so the run reports success at the initial pose.
* **C42** (proved) Huber loss and weight agree
  - theorems: `C42_huber_derivative` [CEFN], `C42_huber_bounds` [CEFN], `C42_weight_bounds` [CEFN]
  - Real arithmetic, as the property states.
* **C43** (proved) Reweighting majorises the robust cost
  - theorems: `C43_majorisation` [CEFN], `C43_weighted_descent` [CEFN]
  - Real arithmetic.
* **C44** (proved) Robust scale is location-invariant and scale-equivariant
  - theorems: `C44_mad_affine` [CEFN], `C44_scale_affine` [CEFN], `C44_empty` [CEFN], `C44_mad_is_median_of_deviations` [CEFN]
  - Exact arithmetic, every conforming nth_element (a different one may be used on each call).
* **C45** (proved) Rotation Jacobian is the derivative of quaternion rotation
  - theorems: `C45_drpdq_is_derivative` [EFN], `C45_sandwich_is_rotation` [EF]
  - Real arithmetic.
* **C46** (proved) Quaternion matrices represent multiplication
  - theorems: `C46_multiplication_matrices` [EF], `C46_hat` [EF], `C46_wxyz` [none], `C46_rpy` [EFN], `C46_matrix_quaternion_round_trip` [EFN]
  - Real arithmetic. Eigen's matrix-to-quaternion conversion is modelled with its branches.
* **C47** (proved) Pose increments stay rotations
  - theorems: `C47_increment_unit` [EFN], `C47_increment_angle` [EFN], `C47_pose_stays_rotation` [CEFN]
  - Real arithmetic (rounding drift of the quaternion is not covered).
* **C48** (proved) Feature residuals vanish exactly on the feature
  - theorems: `C48_edge_zero_iff_on_line` [EF], `C48_edge_norm` [EF], `C48_surface_zero_iff_on_plane` [EFN], `C48_surface_is_distance` [EFN], `C48_edge_jacobian` [EFN], `C48_surface_jacobian` [EFN], `C48_alignment_jacobian` [EFN]
  - Real arithmetic.
* **C49** (proved) Residuals and Jacobians stay aligned
  - theorems: `C49_aligned` [EFN], `C49_empty` [EFN], `C49_alignment` [EFN]
  - Line, plane and downsampling results are parameters.
* **C50** (partial) Nearest-neighbour search returns distinct map points
  - theorems: `C50_distinct_partial` [none], `C50_duplicates_refuted` [none], `C50_empty_map_refuted` [none]
  - REFUTED for maps smaller than k: the search fills up with copies of point 0 (and asserts on the empty map). Proved for maps of at least k points, given that nanoflann finds min(k, size) distinct indices.
* **C51** (proved) Recent scans are the most recent ones
  - theorems: `C51_recent` [none], `C51_all` [none], `C51_append_only` [none], `C51_dense` [none], `C51_negative_undefined` [none]
  - pcl's transform and += are modelled as map and append. n >= 0; negative n is undefined behaviour (C51_negative_undefined), the package uses positive constants.
* **C52** (proved) Odometry adds each scan once at the estimated pose
  - theorems: `C52_each_scan_once` [none], `C52_defined` [none]
  - The pose updater is a parameter; the map is PointCloudMap.
* **C53** (partial) A failed update does not move the localizer
  - theorems: `C53_failed_update_moves_refuted` [CEFN], `C53_empty_problem_partial` [CEFN]
  - REFUTED: an update that returns false (iteration limit) moves the pose. Proved: an update failing because there are no features leaves it.
* **C54** (proved) Map is built from key frames
  - theorems: `C54_key_frames` [CEFN]
  - Real arithmetic, rotation matrices; for every value of the uninitialised previous pose. The rotation threshold is on the sine of half the angle.
* **C55** (proved) The map file is written iff there is something to save
  - theorems: `C55_saved_iff` [EFN], `C55_accumulated` [none]
  - What pcl::io::save is given; its own failure (e.g. missing directory) is ignored by the code and not modelled.
* **C56** (proved) Covariance stays symmetric positive semidefinite
  - theorems: `C56_plain` [CEFIN], `C56_delay` [CEFIN]
  - Exact arithmetic; every exact matrix inverse (Eigen's inverse is a parameter constrained to invert invertible matrices).
* **C57** (proved) The time-delay filter is the Kalman filter of the augmented system
  - theorems: `C57_predict` [CEFN], `C57_update` [CEFIN], `C57_plain` [CEFIN], `C57_elements` [CEFIN]
  - Exact arithmetic; measurement covariance positive definite.
* **C58** (proved) Delayed states are remembered
  - theorems: `C58_history` [none], `C58_shift` [none], `C58_outside` [none]
  - Any arithmetic; every history of predictions and updates.
* **C59** (proved) A rejected measurement leaves the filter unchanged
  - theorems: `C59_delay` [none], `C59_too_late` [none], `C59_plain` [none], `C59_finite_gain` [none], `C59_plain_finite_gain` [none]
  - Any arithmetic, including NaN gains.
* **C60** (proved) Aged queue: each message is delivered max_age times
  - theorems: `C60_deliveries` [none], `C60_exactly_max_age` [none], `C60_drains` [none], `C60_ages` [none], `C60_round_robin` [none], `C60_pop_empty` [none]
  - All histories of pushes and pops (distinct messages); popping an empty queue is undefined behaviour.
* **C61** (partial) Every queued measurement is considered in each cycle
  - theorems: `C61_skipped_refuted` [none], `C61_last_turn_refuted` [none], `C61_front_half_partial` [none], `C61_all_partial` [none]
  - REFUTED: the loop compares a growing index with the shrinking queue, so messages are skipped whenever others are in their last turn (always with smoothing_steps = 1). Proved: a prefix of at least half the queue is handled, in order, and all of it if no message is in its last turn.
* **C62** (proved) Each measurement is fused smoothing_steps times in total
  - theorems: `C62_total` [none], `C62_drains` [none], `C62_no_starvation` [none], `C62_recording` [none], `C62_pose_instance` [none], `C62_twist_instance` [none]
  - Every history of arrivals and cycles and every handler that returns; distinct messages, smoothing_steps >= 1. 'Handed to the filter' includes messages the handler then rejects (delay, NaN, gate).
* **C63** (proved) Smoothing does not change the total information
  - theorems: `C63_plain` [CEFIN], `C63_delay` [CEFIN], `C63_pose_covariance_scaled` [CEFN], `C63_twist_covariance_scaled` [CEFN]
  - Exact arithmetic, for a state that does not move between the fusions.
* **C64** (partial) Measurements in the wrong frame are ignored
  - theorems: `C64_pose_refuted` [none], `C64_twist_refuted` [none]
  - REFUTED: the frame check only warns; whatever a message in the expected frame does, the same message in any other frame does too (every arithmetic, every filter).
* **C65** (partial) Update interval is positive and bounded
  - theorems: `C65_same_time_refuted` [CEFN], `C65_collapsing_clock_refuted` [CEFN], `C65_bounds_partial` [CEFN], `C65_clock_partial` [CEFN], `C65_backwards` [CEFN], `C65_is_elapsed_time` [CEFN]
  - REFUTED: two calls at the same time (in doubles: clock readings up to about 200 ns apart) return dt = 0. IEEE doubles: 0 < dt <= 10 proved when time advanced, e.g. by two microseconds; backwards time raises and changes nothing. Exact arithmetic: dt is the elapsed time, at most 10 s.
* **C66** (partial) Delay step addresses the delay buffer
  - theorems: `C66_nearest_exact` [CEFN], `C66_monotone_exact` [CEFN], `C66_defined_exact` [CEFN], `C66_ieee` [CEFN], `C66_ieee_defined_partial` [CEFN], `C66_stale_refuted` [CEFN], `C66_zero_interval_refuted` [CEFN], `C66_pose_fused_inside` [none], `C66_twist_fused_inside` [none]
  - REFUTED in part: the conversion to int is undefined for old stamps (e.g. stamp 0) and for dt = 0. Otherwise proved for IEEE (with the float rounding of roundf) and exactly.
* **C67** (proved) Yaw normalisation
  - theorems: `C67_normalized` [CEFN], `C67_predicted` [CEFN]
  - Real arithmetic.
* **C68** (proved) State transition matrix is the Jacobian of the motion model
  - theorems: `C68_jacobian` [CEFN], `C68_jacobian_normalized` [CEFN]
  - Real arithmetic; with the normalisation wherever the next yaw is not pi.
* **C69** (proved) Covariance blocks round trip through messages
  - theorems: `C69_pose_round_trip` [CEFN], `C69_twist_round_trip` [CEFN], `C69_pose_layout` [none], `C69_twist_layout` [none]
  - IEEE doubles bit for bit (one NaN), with smoothing_steps = 1; the layout in any arithmetic.
* **C70** (proved) One-dimensional filters average
  - theorems: `C70_uninitialised` [CEFN], `C70_between` [CEFN], `C70_variance` [CEFN], `C70_weighted` [CEFN], `C70_weighted_mean` [CEFN]
  - Real arithmetic, positive deviations. With a zero variance twice at one stamp the filter becomes NaN (C70_zero_variance_refuted).
* **C71** (proved) EKF publication protocol
  - theorems: `C71_protocol` [none], `C71_silent_before_initial_pose` [none], `C71_backwards_unchanged` [none], `C71_initial_pose_clears` [none]
  - Any arithmetic, any filter and parameters; every history all of whose callbacks return (C81 is about when they do).
* **C72** (partial) Leading slash removal is total and idempotent
  - theorems: `C72_empty_refuted` [none], `C72_nonempty_partial` [none], `C72_idempotent_partial` [none]
  - REFUTED for the empty string (front() of an empty string is undefined behaviour); proved for all others. '//map' is shortened twice when applied twice.
* **C73** (proved) Mahalanobis gate
  - theorems: `C73_gate` [CEFIN], `C73_singular` [CEFN]
  - Exact arithmetic; a singular covariance is shown separately.
* **C74** (proved) The published path is append-only
  - theorems: `C74_path` [none], `C74_one_per_pose` [none], `C74_covariance_ignored` [none]
* **C75** (partial) Point conversion drops exactly the origin points
  - theorems: `C75_converted_partial` [none], `C75_row_step_partial` [none], `C75_ring_refuted` [none], `C75_packed_raises_refuted` [none], `C75_swapped_raises_refuted` [none]
  - REFUTED: the node inserts a 4 byte padding field at offset 12 whatever the input layout, so a well-formed cloud whose intensity is at 12 is published with the ring read from the wrong bytes (or the callback raises), and a cloud with ring before intensity raises. The _partial theorems prove the full claim, all bytes and both byte orders, for every layout with bytes 12..15 free and intensity before ring. Signalling NaN payloads (changed by CPython) are not modelled.
* **C76** (proved) Binary point layout round trip
  - theorems: `C76_format_size` [none], `C76_sorted_format_size` [none], `C76_values_at_offsets` [none], `C76_stored_unique` [none], `C76_round_trip` [none], `C76_packed_in_range` [none]
  - All field lists, values and both byte orders. The struct module is modelled at byte level.
* **C77** (partial) Map frame transform is the centroid
  - theorems: `C77_empty_map_refuted` [CEFN], `C77_centroid_partial` [CEFN], `C77_moves_along_partial` [CEFN], `C77_doubles_partial` [CEFN]
  - REFUTED for the empty map: the transform has NaN translation. Proved for 1..2^32-1 points in exact arithmetic; in IEEE doubles within 2^(m+b-52) of the centroid for up to 2^b points with coordinates up to 2^m.
* **C78** (partial) Map loader publishes the loaded file once
  - theorems: `C78_unreadable_published_refuted` [none], `C78_published_once` [none]
  - REFUTED in part: the return code of loadPCDFile is dropped, a file that cannot be read is published as a map. Proved: empty name rejected, otherwise exactly one message with frame map and the loaded content.
* **C79** (proved) Solved increments are derivatives of the residuals along the applied motions
  - theorems: `C79_edge` [CEFN], `C79_surface` [CEFN], `C79_alignment` [CEFN], `C79_increment` [EFN]
  - Real arithmetic: Jacobian times M is the derivative of the code's residuals along the motions the optimiser applies, when both are computed from the same quaternion; the optimiser may hold its opposite, see C118.
* **C80** (proved) Late fusion of a delayed measurement
  - theorems: `C80_late_fusion` [CEFIN], `C80_commute` [CEFIN]
  - Exact arithmetic, linear motion model x -> F x + b with noise Q per tick.
* **C81** (partial) EKF localizer never crashes on messages
  - theorems: `C81_no_transform_refuted` [none], `C81_empty_frame_refuted` [none], `C81_negative_stamp_refuted` [none], `C81_defined_partial` [CEFN]
  - REFUTED: an initial pose whose TF lookup fails is undefined behaviour in every state (the error is only logged, then the empty optional is dereferenced), so is an empty frame name; a negative stamp throws out of the callback; see also C65, C66. Proved: every history with ticks at least g apart, stamps within 2^30 g, non-empty frames and available TF is defined, with the repository's time-delay filter, exact arithmetic.
* **C82** (partial) Heading corrections take the shorter way
  - theorems: `C82_opposite_heading_refuted` [CEFIN], `C82_shorter_turn_partial` [CEFIN]
  - REFUTED: the innovation is the plain difference of the angles, so for every a in (0, pi) an estimate a and a measurement -a of equal certainty give heading 0, the opposite direction when a is near pi. Proved: correct whenever the represented angles differ by less than pi. Exact arithmetic.
* **C83** (partial) The initial pose is transformed into the filter's frame
  - theorems: `C83_quarter_turn_refuted` [CEFN], `C83_rotation_ignored_refuted` [CEFN], `C83_height_refuted` [CEFN], `C83_unrotated_partial` [CEFN]
  - REFUTED: only the translation is added to the position, the frame's rotation is applied to the heading alone, and the height ignores the transform. Proved for frames that are not rotated.
* **C84** (partial) Delayed measurements are gated with the covariance of their time
  - theorems: `C84_delayed_outlier_refuted` [CEFIN], `C84_no_delay_partial` [CEFN]
  - REFUTED: the gate of a delayed measurement uses the newest covariance; witness: an outlier of three standard deviations at its time passes a gate of two. Proved without delay.
* **C85** (partial) Strong features are not lost
  - theorems: `C85_strong_points_represented_refuted` [CEFN], `C85_candidates_represented_partial` [CEFN]
  - REFUTED: labels are assigned before the validity checks, so a foreground corner is suppressed by the wall point next to it, whose curvature is larger, and the wall point is then discarded as occluded: no edge is published (bit-exact witness of 12 points). Proved: every candidate is represented by an Edge (Surface) point or by a candidate that fails a check. IEEE arithmetic, any sort.
* **C86** (proved) Unusable messages request a shutdown
  - theorems: `C86_shutdown_exactly_when_unusable` [none]
  - Any arithmetic; every message on which the callback returns.
* **C87** (proved) Each optimiser step is the weighted least squares step
  - theorems: `C87_step_minimises` [CEFN], `C87_run_steps_minimise` [CEFN], `C87_run` [CEFN]
  - C87_run: a whole run is a sequence of such steps from the initial pose, with the constants 1.4826..., 1.345, 0.1 and 1e-8 written out and the scale given by medians. Exact arithmetic; Eigen's Cholesky solver and eigenvalues are parameters that solve positive definite systems and contain the smallest eigenvalue. Examples show that such solvers exist. The linearised residuals are those of the given Jacobians; whether these are the slopes at the current estimate is C118.
* **C88** (proved) Without measurements the estimate follows the motion
  - theorems: `C88_dead_reckoning` [CEFIN], `C88_stays_put` [CEFIN]
  - Real arithmetic; ticks at advancing clock readings; covariances of the messages positive definite.
* **C89** (proved) A measurement is fused at its time or dropped
  - theorems: `C89_pose` [CEFIN], `C89_twist` [CEFIN], `C89_not_finite` [CEFN]
  - Real arithmetic with an exact matrix inverse; IEEE doubles for values that are not finite. The gate uses the newest covariance (see C84) and the unwrapped difference of headings (see C82).
* **C90** (proved) What a tick of the localizer does
  - theorems: `C90_tick` [CEFIN], `C90_arrival` [CEFN]
  - Real arithmetic; every history whose tick clock readings are distinct.
* **C91** (proved) Published covariances are covariances
  - theorems: `C91_covariances` [CEFIN]
  - Real arithmetic; every history whose tick clock readings are distinct and whose messages carry regular covariances.
* **C92** (proved) The line fitted to the neighbours is the best line
  - theorems: `C92_best_line` [EFN], `C92_mean_and_covariance` [EF], `C92_no_points` [none], `C92_found_line` [EFN], `C92_edge_distance` [EFN]
  - Real arithmetic; the eigenvector of Eigen is a parameter that maximises the quadratic form of this covariance on the unit sphere.
* **C93** (partial) The plane fitted to the neighbours is their plane
  - theorems: `C93_through_origin_refuted` [EF], `C93_fitted_plane_refuted` [EF], `C93_least_squares` [EF], `C93_exact_plane_partial` [EFN]
  - REFUTED: planes are represented as w.x + 1 = 0, which excludes planes through the origin of the map, for example the ground z = 0: whatever the solver returns is not the plane of the neighbours, and the linear system is singular. Proved: least squares, and the exact plane and distance for all other planes. Real arithmetic; the QR solver is a parameter that minimises the misfit when the unknowns are determined.
* **C94** (proved) A prior that fits the map exactly is confirmed
  - theorems: `C94_exact_scan` [CEFN], `C94_exact_alignment` [CEFN]
  - Real arithmetic; solvers as parameters with their specifications (principal direction, least squares, Cholesky, smallest eigenvalue, nth_element). Covers degenerate and regular problems.
* **C95** (proved) The Jacobian for given coefficients is a derivative
  - theorems: `C95_coefficient_jacobian` [EFN], `C95_lengths` [F]
  - Real arithmetic.
* **C96** (proved) Decisions about fits
  - theorems: `C96_reliable` [EF], `C96_along_plane` [EFN], `C96_filter` [none]
  - Real arithmetic for the first two.
* **C97** (partial) A bad pose does not spoil the height for ever
  - theorems: `C97_value_refuted` [CEFN], `C97_variance_refuted` [CEFN], `C97_repeated_refuted` [CEFN], `C97_finite_partial` [CEFN]
  - REFUTED: a single pose whose height (roll, pitch) is NaN, a negative variance, or two poses of one stamp with variance zero make every later published height (roll, pitch) NaN, even after a new initial pose, for every history and every main filter. Proved: if all poses are of moderate size with variances in [2^-200, 2^200], everything published is finite. IEEE doubles.
* **C98** (proved) Height, roll and pitch are tracked by the textbook filter
  - theorems: `C98_textbook` [CEFN], `C98_between` [CEFN]
  - Real arithmetic; positive variances.
* **C99** (partial) A rejected pose has no influence on the output
  - theorems: `C99_rejected_pose_counts_refuted` [CEFN]
  - REFUTED: a pose that is too old for the main filter leaves position and heading as they are but moves height, roll and pitch, for every history with no other waiting pose. That rejected poses do not change the main filter is part of C89. Real arithmetic, every main filter.

### 5.2 Findings: behaviour of the code that contradicts a stated property

Each has a `_refuted` theorem with a witness.

* **Extraction.** Edge points can be adjacent across a block boundary (C05). Rounding in
  `IndexRange::Boundary` makes blocks shorter than nominal, even empty (C08), and a ring
  with enough points can be discarded because of it (C17). Short arrays wrap the unsigned
  loop bound of the occlusion pass (C12). NaN coordinates reach `std::sort` with a comparator
  that is no strict weak order (C16). The angle comparator answers true both ways for two
  points on the positive x axis, and rounding breaks transitivity elsewhere (C19, C20). A
  point may not be its own neighbour, because the cosine rounds above 1 (C22). `Range`
  over an interval ignores its begin (C26). Labels share colours (C27). `ValueToColor` does
  not subtract the minimum (C28). A foreground corner is suppressed by a stronger wall point
  that is discarded afterwards as occluded, so the corner yields no edge (C85). Two returns of one
  beam are ordered by their places in the message, which decides whether there is an edge
  (C103).
  An edge at the cut behind the sensor is never published, so the features depend on the
  direction in which the sensor is mounted (C112).
* **Library.** The median of huge doubles overflows (C29).
* **Localization.** `RemoveOlderThan` removes the newer entries (C35); priors accumulate for
  ever (C36); a prior far ahead of a scan leads to undefined behaviour (C37); nearby stamps
  collapse in `double` (C38). A successful optimisation may return a worse pose, also when
  aligning points from the position of least error (C40); a
  degenerate problem is reported as converged (C41); a failed update moves the pose (C53).
  The orientation is never normalised: at headings between 90 and 120 degrees rounding errors
  grow exponentially with the number of scans without features, up to a pose that enlarges
  the scans by 22 percent and faces 26 degrees elsewhere (C133).
  Maps are stored in single precision relative to the origin of the pose messages: with
  coordinates of a national grid the points move by centimetres (C134).
* The launched nodes form a loop: a scan from which the lidar localizer learns nothing returns the
  filter's own prediction as a measurement, and the published covariance shrinks (C135).
* Included below a namespace, the localization launch file leaves the localizer without surface scans and
  ignores the topic of the sensor; the odometry launch file bypasses the converter and names an executable
  that is not built (C136).
* The mapping never writes the surface map without which the localization refuses to start (C137).
* The warnings of the EKF localizer share one throttle: stamps slightly ahead of the clock hide, for ever, that
  every measurement is rejected by the gate (C141).
* The converter keeps NaN returns and declares its output dense: the extraction's guard is disarmed, and a single
  NaN return gives std::sort an inconsistent comparison, undefined behaviour (C143).
* One malformed message of the sensor ends the converter: nothing sent afterwards is converted, mapped or localized
  (C144, C145).
* The converter ignores height, width and row_step: padding between the rows becomes points (C146).
* HorizontalStack stacks on top of each other, and beyond 2^32 rows over the first matrices (C147).
  The nearest neighbour search pads with point 0 on small maps (C50). Planes through the
  origin of the map, such as the ground at height 0, cannot be fitted (C93).
* **Left and right.** Rings whose points do not divide evenly into blocks are cut in other places when
  the scan is mirrored: other points are published (C123).
* **EKF.** Messages are skipped while others expire (C61); wrong frames only warn (C64); dt
  can be 0 (C65); old stamps make the delay conversion undefined (C66); an empty frame name
  is undefined behaviour (C72); a failed TF lookup is dereferenced and a negative stamp
  escapes the callback (C81); heading innovations are not wrapped (C82); neither is the
  roll, so that a vehicle reported upside down can be published level on its wheels (C132); the initial pose is
  not rotated into the map frame and its height ignores the transform (C83); the gate of a
  delayed pose uses the newest covariance (C84). A NaN, a negative variance or two
  zero-variance poses of one stamp make height, roll or pitch NaN for ever (C97,
  `C70_zero_variance_refuted`); rejected poses still move height, roll and pitch (C99), and a
  new initial pose does not restart them (C100).  `enable_yaw_bias_estimation = false` only
  removes the process noise of the bias: the bias is still estimated (C101).  Turning the axes of the
  map changes the fused heading of a vehicle at rest (C106).  `InitCovariance` reads only the
  diagonal entries of the initial pose's covariance: correlations are lost (C107), and a
  turn of the axes changes the published covariance (`C106_initial_covariance_refuted`).
* **Messages.** Quaternions of pose messages are used without normalising: the map builder
  distorts scans (C109).  `SampleStandardDeviation` of one value is not a number (C110).
  The planes fitted to neighbours that are not exactly flat depend on the origin of the map (C111).
* **The optimiser turns the wrong way.** `Optimizer::Run` keeps `q` and multiplies it by its
  steps, while the problems compute their Jacobians with `Quaterniond(pose.rotation())`.  When
  the estimate crosses a branch of that conversion during a run (for a vehicle: a heading of
  -120 degrees, for example), the two quaternions have opposite signs and the
  rotational part of every following step is reversed (C118).  So the result depends on the
  directions of the axes of the map (C119), and on whether the scene or its mirror image is
  seen (C121).
* **Small maps.** A search for 15 neighbours in a map of fewer points counts the first point of
  the map several times: the result depends on the order of the map (C116).
* `convert.py:get_datatype` indexes the list of types with `datatype - 1`: type 0 (a field whose type
  was never set) becomes index -1 and is read as a double instead of being rejected (C117).
* **Converter and map nodes.** A padding field is inserted at offset 12 whatever the input
  layout (C75); the empty map gives a NaN transform (C77); an unreadable file is published
  as a map (C78).

Seen while reading, without a `_refuted` theorem:

* `KalmanFilter` declares a destructor that is not defined.
* `edge_surface_map.hpp` includes `edge_surface_tuple.hpp`, which does not exist, and uses the
  class template `RecentScans` without arguments: the header cannot be compiled. Nothing includes it.
* `MapBuilder::Callback` reads the uninitialised `prev_transform_` on the first cloud
  (`map.hpp:123-125`).  The model passes an arbitrary value instead, and C54 holds for every
  such value because the empty map accepts the cloud anyway; by the letter of C++ reading it
  is undefined behaviour, which the model does not represent.

### 5.3 What the mutation tests do and do not show

`seeded/LOG.jsonl` has one line per wrong program. The build stops at the first failing lemma
of each file, so a failing *helper* lemma shows only that the proof no longer goes through; it
does not show that the property statement excludes the wrong program. The log says for
each line at which level it was detected.
