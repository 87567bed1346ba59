{"id": "C01", "title": "Edge points of a block are separated by more than the padding", "statement": "After edge labelling of one block, two different points that both carry the Edge label and that are joined by an unbroken run of consecutive neighbours are more than `padding` positions apart.", "quantifier": "every label array (with no Edge label beforehand), every curvature array, every symmetric neighbour relation, every padding >= 0, every threshold, every order in which std::sort may leave equal (or any) keys", "why_tests_cant": "The set of labels, curvatures, neighbour relations and tie orders is unbounded; the tests fix two arrays of length 8.", "anchors": ["extraction/include/lidar_feature_extraction/label.hpp:EdgeLabel::Assign", "extraction/include/lidar_feature_extraction/fill.hpp:FillNeighbors"]}
{"id": "C02", "title": "Edge and surface labels are only given to qualifying points", "statement": "A point carries the Edge label after labelling a block only if it carried it before or it was Default, and its curvature is >= the edge threshold; a point becomes Surface only if it was Default when the surface pass started and its curvature is <= the surface threshold.", "quantifier": "every label/curvature array, neighbour relation, padding, thresholds and sort order", "why_tests_cant": "Soundness must hold for all inputs and all tie-breaking orders of an unstable sort.", "anchors": ["extraction/include/lidar_feature_extraction/label.hpp:EdgeLabel::Assign", "extraction/include/lidar_feature_extraction/label.hpp:SurfaceLabel::Assign"]}
{"id": "C03", "title": "No strong edge candidate is lost (maximality of the suppression)", "statement": "After edge labelling of a block, every point that was Default and whose curvature is >= the threshold is either an Edge itself, or within `padding` positions along an unbroken run of neighbours of an Edge point whose curvature is not smaller; i.e. only a stronger (or equal) edge can suppress a candidate.", "quantifier": "every label/curvature array whose comparison is a strict weak order (no NaN), every neighbour relation, every result std::sort may produce", "why_tests_cant": "Needs an argument over the greedy loop for all arrays and tie orders.", "anchors": ["extraction/include/lidar_feature_extraction/label.hpp:EdgeLabel::Assign", "extraction/include/lidar_feature_extraction/algorithm.hpp:Argsort"]}
{"id": "C04", "title": "The surface pass never takes an edge away", "statement": "Running the surface labelling after the edge labelling with the same padding and a symmetric neighbour relation leaves every Edge point an Edge point.", "quantifier": "every block, curvature, thresholds, padding, symmetric neighbour relation, sort orders of both passes", "why_tests_cant": "The two passes interact through overwritten neighbour labels; only an invariant over all interleavings of fills decides it.", "anchors": ["extraction/include/lidar_feature_extraction/label.hpp:AssignLabel", "extraction/include/lidar_feature_extraction/label.hpp:SurfaceLabel::Assign"]}
{"id": "C05", "title": "Edge separation on a whole ring", "statement": "On a whole scan ring, any two published-candidate Edge points joined by an unbroken run of neighbours are more than `padding` positions apart (the block structure is an implementation detail).", "quantifier": "every ring, curvature and neighbour relation", "why_tests_cant": "The failing cases sit on the block boundaries, which no test exercises.", "anchors": ["extraction/include/lidar_feature_extraction/label.hpp:AssignLabel", "extraction/include/lidar_feature_extraction/index_range.hpp:PaddedIndexRange"]}
{"id": "C06", "title": "Features keep clear of the ends of a ring", "statement": "Edge and Surface labels (and so all published features) are only given at positions i with padding <= i < size - padding, where the curvature window is complete.", "quantifier": "every ring size, padding, number of blocks (with positive parameters), curvature, neighbour relation", "why_tests_cant": "Depends on floating-point block boundaries for every size/block-count combination.", "anchors": ["extraction/include/lidar_feature_extraction/index_range.hpp:PaddedIndexRange", "extraction/include/lidar_feature_extraction/label.hpp:AssignLabel", "extraction/src/curvature.cpp:CalcCurvature"]}
{"id": "C07", "title": "Blocks partition the padded index range", "statement": "The blocks [Begin(j), End(j)) computed in double arithmetic start at start_index, finish at end_index, are consecutive (End(j) = Begin(j+1)) and never run backwards, so every index belongs to exactly one block.", "quantifier": "every start/end index and block count accepted by the constructor within the supported size (|index| <= 2^30, i.e. any int ring size that fits memory)", "why_tests_cant": "Rounding of s*(1-j/n)+e*j/n must be bounded for all triples of integers; tests use a handful.", "anchors": ["extraction/src/index_range.cpp:IndexRange::Boundary"]}
{"id": "C08", "title": "Blocks have the nominal width", "statement": "When the padded size is a multiple of the number of blocks, all blocks have exactly that width.", "quantifier": "every start/end index and block count", "why_tests_cant": "The truncation of a double that is one ulp below an integer happens only for particular sizes.", "anchors": ["extraction/src/index_range.cpp:IndexRange::Boundary"]}
{"id": "C09", "title": "Block access reports bad indices", "statement": "Begin(j)/End(j) raise out_of_range exactly when j is not in [0, n_blocks), and the constructor raises invalid_argument exactly when end-start < n_blocks.", "quantifier": "all integers start, end, n_blocks, j", "why_tests_cant": "Infinite input space.", "anchors": ["extraction/src/index_range.cpp:IndexRange"]}
{"id": "C10", "title": "Filling labels touches exactly the connected run", "statement": "FillFromLeft/FillFromRight/FillNeighbors overwrite exactly the positions reachable from the start by an unbroken run of neighbours inside the given window, leave every other label unchanged, raise invalid_argument for windows outside the array, and never access the array out of bounds when the window is non-empty and inside.", "quantifier": "every label array, neighbour relation, window and label", "why_tests_cant": "All arrays/relations/windows.", "anchors": ["extraction/include/lidar_feature_extraction/fill.hpp:FillFromLeft", "extraction/include/lidar_feature_extraction/fill.hpp:FillFromRight", "extraction/include/lidar_feature_extraction/fill.hpp:FillNeighbors"]}
{"id": "C11", "title": "Occlusion labelling marks exactly the shadow of range jumps", "statement": "LabelOccludedPoints marks a point Occluded if and only if some pair of adjacent neighbouring points has a range increase above the threshold and the point lies on the far side within padding+1 points, connected to the jump through an unbroken run of neighbours (and the jump is at least padding+1 away from the respective end); all other labels are unchanged and nothing is accessed out of bounds.", "quantifier": "every ring of at least padding+1 points, all ranges, neighbour relations, thresholds", "why_tests_cant": "Unbounded rings and unsigned loop bounds.", "anchors": ["extraction/include/lidar_feature_extraction/occlusion.hpp:FromLeft", "extraction/include/lidar_feature_extraction/occlusion.hpp:FromRight", "extraction/include/lidar_feature_extraction/occlusion.hpp:LabelOccludedPoints"]}
{"id": "C12", "title": "Occlusion labelling is safe on short rings", "statement": "Calling LabelOccludedPoints with fewer than padding+1 points neither throws nor accesses points outside the ring.", "quantifier": "every ring size and padding", "why_tests_cant": "Depends on unsigned wrap-around for particular size/padding combinations.", "anchors": ["extraction/include/lidar_feature_extraction/occlusion.hpp:FromLeft"]}
{"id": "C13", "title": "Published features are clean", "statement": "Every point in the published edge and surface clouds has a range inside [min_range, max_range], is not in the shadow of an occlusion jump, is not a parallel-beam point, and qualified by curvature (>= edge threshold, resp. <= surface threshold).", "quantifier": "every input cloud, positive parameters, every sort order and every iteration order of the ring map", "why_tests_cant": "Order of overwrite passes and exception paths over arbitrary clouds.", "anchors": ["extraction/app/feature_extraction.cpp:Callback", "extraction/include/lidar_feature_extraction/out_of_range.hpp:LabelOutOfRange", "extraction/include/lidar_feature_extraction/parallel_beam.hpp:LabelParallelBeamPoints"]}
{"id": "C14", "title": "Features are a duplicate-free subset of the scan", "statement": "Every published edge or surface point is one of the input points with unchanged coordinates; no input point is published twice and none is published both as an edge and as a surface.", "quantifier": "every input cloud, parameters, sort orders and ring-map iteration order", "why_tests_cant": "Whole-pipeline statement over all clouds.", "anchors": ["extraction/app/feature_extraction.cpp:Callback", "lib/include/lidar_feature_library/algorithm.hpp:GetIndicesByValue", "extraction/include/lidar_feature_extraction/ring.hpp:MakePointIndices"]}
{"id": "C15", "title": "One bad ring never damages the others", "statement": "If processing of a ring raises invalid_argument, that ring contributes nothing to any of the three outputs and the outputs are the concatenation of the contributions of the remaining rings; the publication always happens.", "quantifier": "every cloud in which every ring sort is well defined", "why_tests_cant": "Exception atomicity for every failing position.", "anchors": ["extraction/app/feature_extraction.cpp:Callback"]}
{"id": "C16", "title": "The extraction callback never escapes with an exception", "statement": "For parameters accepted at start-up and clouds whose rings can be sorted, the callback terminates normally: no out_of_range, no assertion failure and no undefined behaviour in any stage.", "quantifier": "every cloud and every positive parameter set", "why_tests_cant": "All code paths with index arithmetic over arbitrary ring sizes.", "anchors": ["extraction/app/feature_extraction.cpp:Callback"]}
{"id": "C17", "title": "Every sufficiently long ring contributes", "statement": "A ring whose size is at least 2*padding + 2*n_blocks (so that every nominal block has two points) and without two adjacent points at the origin is never discarded.", "quantifier": "every ring size, padding, n_blocks", "why_tests_cant": "The discarding depends on the double-precision block boundaries.", "anchors": ["extraction/app/feature_extraction.cpp:Callback", "extraction/include/lidar_feature_extraction/neighbor.hpp:NeighborCheckXY", "extraction/src/index_range.cpp:IndexRange::Boundary"]}
{"id": "C18", "title": "Output does not depend on the ring map order", "statement": "The published clouds are, as multisets of points, the same for every iteration order of the unordered ring map.", "quantifier": "every permutation of the rings", "why_tests_cant": "Hash-map order is not under test control.", "anchors": ["extraction/app/feature_extraction.cpp:Callback"]}
{"id": "C19", "title": "The polar-angle comparator orders by atan2", "statement": "For all pairs of points AHasSmallerPolarAngleThanB(a,b) equals atan2(a.y,a.x) < atan2(b.y,b.x) (exact arithmetic).", "quantifier": "all pairs of real points", "why_tests_cant": "Uncountably many pairs; random tests never hit an axis.", "anchors": ["extraction/include/lidar_feature_extraction/ring.hpp:AHasSmallerPolarAngleThanB"]}
{"id": "C20", "title": "The polar-angle comparator is a strict weak ordering", "statement": "The comparator used by SortByAtan2 is a strict weak ordering on all finite single-precision points, as std::sort requires.", "quantifier": "all triples of finite float points", "why_tests_cant": "Transitivity quantifies over triples; violations need specially chosen values.", "anchors": ["extraction/include/lidar_feature_extraction/ring.hpp:AHasSmallerPolarAngleThanB", "extraction/include/lidar_feature_extraction/ring.hpp:SortByAtan2"]}
{"id": "C21", "title": "Rings are angle-sorted partitions of the cloud", "statement": "ExtractAngleSortedRings puts every point index into exactly one ring, the one named by its ring field, and lists each ring in order of non-decreasing polar angle; RemoveSparseRings keeps exactly the rings with at least the minimum number of points, unchanged.", "quantifier": "every cloud whose rings the comparator orders, every sort implementation", "why_tests_cant": "All clouds and all conforming sorts.", "anchors": ["extraction/include/lidar_feature_extraction/ring.hpp:ExtractAngleSortedRings", "extraction/include/lidar_feature_extraction/ring.hpp:MakePointIndices", "extraction/src/ring.cpp:RemoveSparseRings"]}
{"id": "C22", "title": "A point is a neighbour of a copy of itself", "statement": "Two points in the same direction from the sensor (in particular two equal points away from the origin) are neighbours for every positive angle threshold.", "quantifier": "all finite points, IEEE double arithmetic", "why_tests_cant": "Depends on the rounding of dot/(norm*norm) above 1, for which acos is NaN; tests use (1,1).", "anchors": ["extraction/src/math.cpp:CalcRadian", "extraction/include/lidar_feature_extraction/neighbor.hpp:IsNeighborXY"]}
{"id": "C23", "title": "The neighbour relation is symmetric", "statement": "NeighborCheckXY(i,j) and NeighborCheckXY(j,i) have the same outcome (same truth value or same exception) in double arithmetic.", "quantifier": "all points, thresholds and indices", "why_tests_cant": "All inputs; relies on commutativity of rounded products and sums.", "anchors": ["extraction/src/math.cpp:CalcRadian", "extraction/include/lidar_feature_extraction/neighbor.hpp:NeighborCheckXY"]}
{"id": "C24", "title": "Convolution is the sliding window sum", "statement": "Convolution1D returns an array of the input length whose entry padding+i is the sum of input[i+k]*weight[k] over the window and whose first and last `padding` entries are 0; it raises invalid_argument exactly when the input is shorter than the (odd) weight.", "quantifier": "every input and odd-length weight", "why_tests_cant": "All arrays.", "anchors": ["extraction/src/convolution.cpp:Convolution1D", "extraction/include/lidar_feature_extraction/math.hpp:InnerProduct"]}
{"id": "C25", "title": "Curvature is non-negative and blind to straight range profiles", "statement": "Curvature is never negative, does not change when a constant is added to all ranges, is zero in the interior when ranges form an arithmetic progression, scales with the square of the range unit, and reversing the ring reverses the curvature.", "quantifier": "every range sequence and padding (exact arithmetic)", "why_tests_cant": "Algebraic identities over all sequences.", "anchors": ["extraction/src/curvature.cpp:CalcCurvature", "extraction/src/curvature.cpp:MakeWeight"]}
{"id": "C26", "title": "Range over an interval returns the ranges of that interval", "statement": "Range(begin,end) returns element by element the ranges of points begin..end-1.", "quantifier": "all begin <= end <= size", "why_tests_cant": "Only begin = 0 is tested.", "anchors": ["extraction/include/lidar_feature_extraction/range.hpp:Range::operator()"]}
{"id": "C27", "title": "Visualisation colours identify labels", "statement": "Different labels are drawn in different colours.", "quantifier": "all pairs of labels", "why_tests_cant": "Tests fix single labels.", "anchors": ["extraction/src/color_points.cpp:LabelToColor"]}
{"id": "C28", "title": "Value colouring maps [min,max] onto [0,255]", "statement": "ValueToColor(v,min,max) is 0 at min, 255 at max, monotone in v and always a defined byte.", "quantifier": "all finite v, min < max", "why_tests_cant": "Only min = 0 is tested.", "anchors": ["extraction/src/color_points.cpp:ValueToColor"]}
{"id": "C29", "title": "Median is the median", "statement": "Median returns a value m such that at most half of the data is below m and at most half above m (middle element for odd, mean of the two middle elements for even length), independent of the order of the data and of the nth_element implementation; it raises invalid_argument exactly on empty input.", "quantifier": "every finite data vector, every conforming nth_element", "why_tests_cant": "All vectors and all partial orders nth_element may leave.", "anchors": ["lib/src/stats.cpp:Median_"]}
{"id": "C30", "title": "Selecting by index and by value are inverse views", "statement": "GetIndicesByValue returns exactly the positions holding the value, increasing; GetByIndices on them returns only that value; out-of-bounds indices raise out_of_range.", "quantifier": "every sequence and value", "why_tests_cant": "All sequences.", "anchors": ["lib/include/lidar_feature_library/algorithm.hpp"]}
{"id": "C31", "title": "Three-value sort sorts", "statement": "SortThreeValues returns an ordered permutation of its arguments.", "quantifier": "all triples", "why_tests_cant": "All values incl. ties.", "anchors": ["lib/src/algorithm.cpp:SortThreeValues"]}
{"id": "C32", "title": "Covariance message round trip", "statement": "GetEigenCovariance(FromEigenCovariance(M)) = M and FromEigenCovariance(GetEigenCovariance(a)) = a.", "quantifier": "all 6x6 matrices / 36-arrays", "why_tests_cant": "All values, all index pairs.", "anchors": ["lib/src/eigen.cpp:GetEigenCovariance"]}
{"id": "C33", "title": "Random index selection is a permutation", "statement": "RandomizedUniqueIndices(n) contains each of 0..n-1 exactly once.", "quantifier": "every n and every shuffle outcome", "why_tests_cant": "All random outcomes.", "anchors": ["lib/src/random.cpp:RandomizedUniqueIndices"]}
{"id": "C34", "title": "Closest prior", "statement": "GetClosest(t) on a non-empty store returns a stored (stamp, object) pair whose stamp is at minimal distance from t (distance as computed in double arithmetic, which is the exact distance when the stamps are within a factor two of t, as epoch stamps are), the later one when the exact distances tie, and the object is the last one inserted under that stamp.", "quantifier": "every history of insertions and every query time", "why_tests_cant": "All histories.", "anchors": ["localization/include/lidar_feature_localization/stamp_sorted_objects.hpp:StampSortedObjects::GetClosest"]}
{"id": "C35", "title": "RemoveOlderThan removes exactly the older entries", "statement": "After RemoveOlderThan(t) every entry with stamp < t is gone and every entry with stamp >= t is still there; the call is defined for every store and t.", "quantifier": "every store content and t", "why_tests_cant": "The unit test itself encodes the wrong behaviour; only the quantified statement exposes it.", "anchors": ["localization/include/lidar_feature_localization/stamp_sorted_objects.hpp:StampSortedObjects::RemoveOlderThan"]}
{"id": "C36", "title": "Memory of prior poses stays bounded", "statement": "While scans arrive, the store of prior poses does not keep entries older than the processed scans for ever.", "quantifier": "every history of prior-pose and scan messages", "why_tests_cant": "Unbounded histories.", "anchors": ["localization/include/lidar_feature_localization/subscriber.hpp:LocalizationSubscriber::PoseUpdateCallback"]}
{"id": "C37", "title": "Pose publication protocol", "statement": "The localization node publishes exactly one pose and one transform, stamped with the scan stamp, for each synchronised scan pair that arrives when at least one prior has been received, and nothing otherwise; the optimisation starts from the prior closest in time; no message sequence leads to undefined behaviour.", "quantifier": "every interleaving of prior-pose and scan-pair messages with arbitrary stamps", "why_tests_cant": "All message histories.", "anchors": ["localization/include/lidar_feature_localization/subscriber.hpp:LocalizationSubscriber"]}
{"id": "C38", "title": "Prior stamps are distinguished", "statement": "Two priors with different nanosecond stamps are stored as two entries.", "quantifier": "all int64 nanosecond stamps", "why_tests_cant": "Precision loss only at realistic epoch magnitudes and small differences.", "anchors": ["localization/include/lidar_feature_localization/subscriber.hpp:Nanoseconds"]}
{"id": "C39", "title": "Optimiser terminates with a consistent verdict", "statement": "Run performs at most max_iter iterations; the reported status, iteration, error and scale agree with what happened: EmptyInput iff the residual list was empty, ReachedMaximumIteration iff no stop criterion fired, success is false exactly in these two cases; the errors of consecutive accepted iterations never increase.", "quantifier": "every optimisation problem (any residual/Jacobian oracle), every starting pose, every max_iter", "why_tests_cant": "All problems and traces.", "anchors": ["localization/include/lidar_feature_localization/optimizer.hpp:Optimizer::Run", "localization/include/lidar_feature_localization/optimization_result.hpp"]}
{"id": "C40", "title": "A successful optimisation never makes the error worse", "statement": "If Run reports success, the total error at the returned pose is not larger than at the initial pose.", "quantifier": "every problem and starting pose", "why_tests_cant": "Needs a problem whose step overshoots.", "anchors": ["localization/include/lidar_feature_localization/optimizer.hpp:Optimizer::Run"]}
{"id": "C41", "title": "A degenerate problem is not reported as converged", "statement": "If the normal matrix is degenerate the optimiser does not report success for the unchanged pose.", "quantifier": "every problem with degenerate normal matrix", "why_tests_cant": "Interaction of three functions.", "anchors": ["localization/src/optimizer.cpp:WeightedUpdate", "localization/src/optimizer.cpp:CheckConvergence", "localization/include/lidar_feature_localization/optimizer.hpp:Optimizer::Run"]}
{"id": "C42", "title": "Huber loss and weight agree", "statement": "Huber is continuous, non-negative, non-decreasing and bounded by the squared error; HuberDerivative is its derivative at every positive error (including the switching point), lies in (0,1] and is non-increasing.", "quantifier": "all errors e > 0 and k > 0 (real arithmetic)", "why_tests_cant": "Tests check three finite differences.", "anchors": ["localization/src/robust.cpp:Huber", "localization/src/robust.cpp:HuberDerivative"]}
{"id": "C43", "title": "Reweighting majorises the robust cost", "statement": "For all e0,e > 0: Huber(e) <= Huber(e0) + HuberDerivative(e0)*(e-e0), hence any step that does not increase the weighted sum of squared errors does not increase the robust cost.", "quantifier": "all error vectors", "why_tests_cant": "Inequality over all reals / all vectors.", "anchors": ["localization/src/robust.cpp:HuberDerivative", "localization/src/optimizer.cpp:ComputeWeights"]}
{"id": "C44", "title": "Robust scale is location-invariant and scale-equivariant", "statement": "MedianAbsoluteDeviation and Scale do not change when a constant is added to all data and are multiplied by |c| when all data are multiplied by c; they are non-negative.", "quantifier": "all non-empty data vectors and constants (exact arithmetic)", "why_tests_cant": "All vectors.", "anchors": ["localization/src/robust.cpp:MedianAbsoluteDeviation", "localization/src/robust.cpp:Scale"]}
{"id": "C45", "title": "Rotation Jacobian is the derivative of quaternion rotation", "statement": "DRpDq(q,p) is the Frechet derivative with respect to the quaternion components of the sandwich q p q*, with an exact quadratic remainder.", "quantifier": "all quaternions and points", "why_tests_cant": "Finite differences at samples only approximate.", "anchors": ["rotationlib/src/jacobian/quaternion.cpp:DRpDq"]}
{"id": "C46", "title": "Quaternion matrices represent multiplication", "statement": "LeftMultiplicationMatrix(p)*q = p*q = RightMultiplicationMatrix(q)*p, Hat(a)*b = a x b, ToWXYZ/FromWXYZ are inverse, RPYToQuaternionXYZ is the unit quaternion of Rz(yaw)Ry(pitch)Rx(roll).", "quantifier": "all quaternions/vectors/angles", "why_tests_cant": "All reals.", "anchors": ["rotationlib/src/quaternion.cpp", "rotationlib/src/hat.cpp"]}
{"id": "C47", "title": "Pose increments stay rotations", "statement": "AngleAxisToQuaternion returns a unit quaternion for every vector, so after any number of iterations the estimated orientation still is a unit quaternion (exact arithmetic).", "quantifier": "all increments and iteration counts", "why_tests_cant": "Unbounded sequences.", "anchors": ["localization/src/posevec.cpp:AngleAxisToQuaternion", "localization/include/lidar_feature_localization/optimizer.hpp:Optimizer::Run"]}
{"id": "C48", "title": "Feature residuals vanish exactly on the feature", "statement": "The edge residual is zero iff the transformed point lies on the line through the two map points (which must differ); the surface residual is zero iff the transformed point lies on the plane; the Jacobian rows handed to the optimiser are the derivatives of these residuals with respect to quaternion and translation.", "quantifier": "all points, lines, planes, poses", "why_tests_cant": "All reals.", "anchors": ["localization/src/edge.cpp:MakeEdgeResidual", "localization/src/edge.cpp:MakeEdgeJacobianRow", "localization/include/lidar_feature_localization/surface.hpp"]}
{"id": "C49", "title": "Residuals and Jacobians stay aligned", "statement": "The combined problem returns as many Jacobians as residuals, edges first, and the i-th Jacobian belongs to the i-th residual, for every scan; an empty scan gives an empty problem.", "quantifier": "every scan and map", "why_tests_cant": "All scans.", "anchors": ["localization/include/lidar_feature_localization/loam_optimization_problem.hpp", "localization/include/lidar_feature_localization/edge.hpp:Edge::Make", "localization/include/lidar_feature_localization/surface.hpp:Surface::Make"]}
{"id": "C50", "title": "Nearest-neighbour search returns distinct map points", "statement": "NearestKSearch returns n different map points.", "quantifier": "every map size and n", "why_tests_cant": "Small maps are not tested.", "anchors": ["localization/src/kdtree.cpp:NearestKSearch"]}
{"id": "C51", "title": "Recent scans are the most recent ones", "statement": "GetRecent(n) is the concatenation, in insertion order, of the last min(n, number of scans) transformed scans; GetAll is the concatenation of all of them; nothing already added is ever changed; the whole is marked dense exactly if all scans were.", "quantifier": "every history of Add calls and every n >= 0", "why_tests_cant": "All histories.", "anchors": ["localization/include/lidar_feature_localization/recent_scans.hpp:RecentScans"]}
{"id": "C52", "title": "Odometry adds each scan once at the estimated pose", "statement": "After k updates the odometry map received exactly k scans in order, the first at the identity and each later one at the pose estimated for it, and CurrentPose is the pose of the last one.", "quantifier": "every sequence of scans and every pose updater", "why_tests_cant": "All histories.", "anchors": ["localization/include/lidar_feature_localization/odometry.hpp:Odometry"]}
{"id": "C53", "title": "A failed update does not move the localizer", "statement": "If Localizer::Update returns false the pose reported by Get is the one before the call.", "quantifier": "every optimisation problem", "why_tests_cant": "Needs a failing problem that still moves.", "anchors": ["localization/include/lidar_feature_localization/localizer.hpp:Localizer::Update"]}
{"id": "C54", "title": "Map is built from key frames", "statement": "The map is the concatenation, in arrival order, of the transformed accepted clouds; a non-empty cloud is accepted iff the map was empty or its pose differs from the last accepted pose by at least the translation or rotation threshold; empty clouds never change anything; consecutive key frames differ by the threshold.", "quantifier": "every sequence of (cloud, pose) messages", "why_tests_cant": "All histories.", "anchors": ["mapping/include/lidar_feature_mapping/map.hpp:MapBuilder::Callback", "mapping/include/lidar_feature_mapping/map.hpp:PoseDiffIsSufficientlySmall"]}
{"id": "C55", "title": "The map file is written iff there is something to save", "statement": "SaveMap writes the file exactly when at least one non-empty cloud was received, and writes all accumulated points.", "quantifier": "every history", "why_tests_cant": "All histories.", "anchors": ["mapping/include/lidar_feature_mapping/map.hpp:MapBuilder::SaveMap"]}
{"id": "C56", "title": "Covariance stays symmetric positive semidefinite", "statement": "Starting from a symmetric positive semidefinite covariance, every sequence of predictions (with PSD process noise) and updates (with positive definite measurement noise) keeps the covariance symmetric positive semidefinite, and an update never increases the uncertainty in any direction (exact arithmetic).", "quantifier": "all dimensions, all matrices, all histories", "why_tests_cant": "All matrices and histories.", "anchors": ["kalman_filter/include/kalman_filter/kalman_filter.hpp", "kalman_filter/src/kalman_filter.cpp"]}
{"id": "C57", "title": "The time-delay filter is the Kalman filter of the augmented system", "statement": "predict/update of TimeDelayKalmanFilter are exactly the prediction and measurement update of a standard Kalman filter on the stacked state (shift register transition, measurement matrix selecting the delayed block).", "quantifier": "all dimensions, delay lengths, matrices", "why_tests_cant": "All matrices.", "anchors": ["kalman_filter/src/time_delay_kalman_filter.cpp"]}
{"id": "C58", "title": "Delayed states are remembered", "statement": "After any number of predictions getX(d) is the state predicted d steps before the latest one (the initial state before that), for every d below the buffer length.", "quantifier": "all prediction histories and delays", "why_tests_cant": "All histories.", "anchors": ["kalman_filter/src/time_delay_kalman_filter.cpp:updateX", "kalman_filter/src/time_delay_kalman_filter.cpp:getX"]}
{"id": "C59", "title": "A rejected measurement leaves the filter unchanged", "statement": "If update raises invalid_argument (delay out of range, NaN/Inf gain) state and covariance are exactly as before.", "quantifier": "all filters and measurements", "why_tests_cant": "All failing inputs.", "anchors": ["kalman_filter/src/time_delay_kalman_filter.cpp:UpdateWithDelay", "kalman_filter/src/kalman_filter.cpp"]}
{"id": "C60", "title": "Aged queue: each message is delivered max_age times", "statement": "A message pushed into AgedMessageQueue is popped exactly max_age times (for max_age >= 1) if popping continues until the queue is empty, in round-robin order; the queue never holds a message of age >= max_age.", "quantifier": "every interleaving of push and pop", "why_tests_cant": "All interleavings.", "anchors": ["ekf_localizer/include/ekf_localizer/aged_message_queue.hpp"]}
{"id": "C61", "title": "Every queued measurement is considered in each cycle", "statement": "One Update call of the pose/twist measurement processes every message in the queue at the time of the call.", "quantifier": "every queue content and smoothing setting", "why_tests_cant": "The loop bound changes while the loop runs.", "anchors": ["ekf_localizer/src/pose_measurement.cpp:PoseMeasurement::Update", "ekf_localizer/src/twist_measurement.cpp:TwistMeasurement::Update"]}
{"id": "C62", "title": "Each measurement is fused smoothing_steps times in total", "statement": "Over the following cycles every received measurement is handed to the filter exactly smoothing_steps times before it disappears from the queue, whatever else arrives.", "quantifier": "every arrival history", "why_tests_cant": "All histories.", "anchors": ["ekf_localizer/include/ekf_localizer/aged_message_queue.hpp", "ekf_localizer/src/pose_measurement.cpp:PoseMeasurement::Update"]}
{"id": "C63", "title": "Smoothing does not change the total information", "statement": "Fusing one measurement smoothing_steps times with covariance R*smoothing_steps gives the same estimate and covariance as fusing it once with R (static state, exact arithmetic).", "quantifier": "all n >= 1, all priors and measurements (scalar and full matrix case)", "why_tests_cant": "Identity over all n.", "anchors": ["ekf_localizer/src/pose_measurement.cpp:PoseMeasurementCovariance", "ekf_localizer/src/twist_measurement.cpp:TwistMeasurementCovariance"]}
{"id": "C64", "title": "Measurements in the wrong frame are ignored", "statement": "A pose whose frame id differs from the expected frame does not influence the state.", "quantifier": "every message", "why_tests_cant": "Check results are discarded; tests only test the check.", "anchors": ["ekf_localizer/src/pose_measurement.cpp:PoseMeasurement::Update", "ekf_localizer/src/check.cpp:CheckFrameId"]}
{"id": "C65", "title": "Update interval is positive and bounded", "statement": "UpdateInterval::Compute returns a value dt with 0 < dt <= 10 or raises invalid_argument (time went backwards), in which case its state is unchanged.", "quantifier": "every sequence of times (IEEE double)", "why_tests_cant": "Equal consecutive times, infinities.", "anchors": ["ekf_localizer/include/ekf_localizer/update_interval.hpp", "ekf_localizer/src/update_interval.cpp"]}
{"id": "C66", "title": "Delay step addresses the delay buffer", "statement": "For a positive interval the delay step is a non-negative integer, nearest to delay/dt, monotone in the delay, and measurements are only fused with 0 <= step < extend_state_step.", "quantifier": "all delays and intervals", "why_tests_cant": "All reals incl. negative delays.", "anchors": ["ekf_localizer/include/ekf_localizer/delay.hpp:ComputeDelayStep", "ekf_localizer/src/check.cpp:CheckDelayStep"]}
{"id": "C67", "title": "Yaw normalisation", "statement": "normalizeYaw returns the unique angle in (-pi, pi] congruent to its argument modulo 2 pi.", "quantifier": "all real yaw values", "why_tests_cant": "Four samples tested.", "anchors": ["ekf_localizer/src/state_transition.cpp:normalizeYaw"]}
{"id": "C68", "title": "State transition matrix is the Jacobian of the motion model", "statement": "createStateTransitionMatrix is the matrix of partial derivatives of predictNextState (yaw before normalisation) at every state and interval.", "quantifier": "all states and dt", "why_tests_cant": "Finite differences only.", "anchors": ["ekf_localizer/src/state_transition.cpp:createStateTransitionMatrix", "ekf_localizer/src/state_transition.cpp:predictNextState"]}
{"id": "C69", "title": "Covariance blocks round trip through messages", "statement": "Writing the filter covariance into pose/twist message covariances and reading it back as measurement covariance returns the same blocks, and every other message entry is zero.", "quantifier": "all 6x6 matrices", "why_tests_cant": "All index pairs and values.", "anchors": ["ekf_localizer/src/covariance.cpp", "ekf_localizer/src/pose_measurement.cpp:PoseMeasurementCovariance", "ekf_localizer/src/twist_measurement.cpp:TwistMeasurementCovariance"]}
{"id": "C70", "title": "One-dimensional filters average", "statement": "Simple1DFilter is uninitialised until the first observation, then its estimate stays between the smallest and largest observation, and its variance is positive and never exceeds prior-plus-process variance nor the observation variance (positive variances).", "quantifier": "every observation history", "why_tests_cant": "All histories.", "anchors": ["ekf_localizer/include/ekf_localizer/ekf_localizer.hpp:Simple1DFilter"]}
{"id": "C71", "title": "EKF publication protocol", "statement": "Before an initial pose nothing is published; afterwards each timer tick publishes exactly one transform and one odometry message except when time jumped backwards, in which case nothing is published and nothing changes; an initial pose clears the queued measurements and publishes nothing.", "quantifier": "every interleaving of timer, initial pose, pose and twist messages and TF availability", "why_tests_cant": "All interleavings.", "anchors": ["ekf_localizer/src/ekf_localizer.cpp:EKFLocalizer::timerCallback", "ekf_localizer/src/ekf_localizer.cpp:EKFLocalizer::callbackInitialPose"]}
{"id": "C72", "title": "Leading slash removal is total and idempotent", "statement": "EraseBeginSlash removes at most one leading slash from any string, including the empty one, without undefined behaviour.", "quantifier": "all strings", "why_tests_cant": "The empty string 'passes' only because of an unchecked front().", "anchors": ["ekf_localizer/src/string.cpp:EraseBeginSlash"]}
{"id": "C73", "title": "Mahalanobis gate", "statement": "The gate accepts exactly the measurements whose squared Mahalanobis distance is at most the squared threshold; the distance is non-negative and zero only for equal vectors when the covariance is positive definite; enlarging the threshold never rejects an accepted measurement (thresholds >= 0).", "quantifier": "all vectors, positive definite covariances, thresholds", "why_tests_cant": "All reals.", "anchors": ["ekf_localizer/src/mahalanobis.cpp"]}
{"id": "C74", "title": "The published path is append-only", "statement": "The n-th published path contains exactly the first n received poses, unchanged and in order, and carries the latest header.", "quantifier": "every pose history", "why_tests_cant": "Unbounded histories.", "anchors": ["path_generator/include/path_generator/path_generator.hpp"]}
{"id": "C75", "title": "Point conversion drops exactly the origin points", "statement": "The converter outputs, in order, exactly the input points whose x,y,z are not all zero, with x,y,z,intensity,ring unchanged, in the 32-byte layout announced in the output fields, with row_step = 32*width = data length.", "quantifier": "every well-formed input cloud", "why_tests_cant": "All byte strings.", "anchors": ["point_type_converter/point_type_converter/convert.py:PointTypeConverter.callback"]}
{"id": "C76", "title": "Binary point layout round trip", "statement": "Unpacking the packed output data with the announced layout returns the packed values (little endian, with padding bytes), and the generated format consumes exactly point_step bytes per point for every list of non-overlapping fields inside point_step, in increasing offset order (the order the node sorts them into); unpacking reads every field at its offset in the announced byte order.", "quantifier": "all field lists and values", "why_tests_cant": "All layouts.", "anchors": ["point_type_converter/point_type_converter/convert.py:create_point_format", "point_type_converter/point_type_converter/convert.py:pack_point_data", "point_type_converter/point_type_converter/convert.py:unpack_point_bytes"]}
{"id": "C77", "title": "Map frame transform is the centroid", "statement": "The published map transform translates to the centroid of the map cloud (moving the cloud moves the transform by the same vector), with identity rotation, for every map.", "quantifier": "all clouds", "why_tests_cant": "Empty cloud, all values.", "anchors": ["map_tf_generator/src/map_tf_generator_node.cpp"]}
{"id": "C78", "title": "Map loader publishes the loaded file once", "statement": "An empty file name is rejected with invalid_argument; otherwise exactly one map message with frame 'map' and the content of the file is published, and a file that cannot be read is reported instead of published.", "quantifier": "all file names", "why_tests_cant": "All strings.", "anchors": ["map_loader/src/map_loader.cpp"]}
{"id": "C79", "title": "Solved increments are derivatives of the residuals along the applied motions", "statement": "The optimiser's Jacobian rows times its 7x6 chart matrix are the derivatives of the edge, surface and point-to-point residuals when the pose is moved by rotating it on the right about theta and translating by d, provided that both are computed from the same one of the two quaternions of the orientation (C118 is about whether they are), and the quaternion it multiplies with is the end point of that motion (the start point below 1e-8).", "quantifier": "all unit quaternions, translations, points, lines, planes and increments", "why_tests_cant": "Derivatives at every pose, a continuum of directions.", "anchors": ["localization/src/optimizer.cpp:MakeM", "localization/src/optimizer.cpp:CalcUpdate", "localization/src/posevec.cpp:AngleAxisToQuaternion", "localization/src/edge.cpp:MakeEdgeJacobianRow"]}
{"id": "C80", "title": "Late fusion of a delayed measurement", "statement": "For a linear motion model with any process noise, fusing a delayed measurement after a further prediction with a delay one step larger gives exactly the same estimates and covariance as fusing it before that prediction; and fusing it once per tick over n ticks with n times its covariance (as the smoothing steps do) gives the same as fusing it once at the start.", "quantifier": "every motion model matrix, measurement and number of ticks within the buffer", "why_tests_cant": "Equality of two recursions over all matrices.", "anchors": ["kalman_filter/src/time_delay_kalman_filter.cpp:TimeDelayKalmanFilter::update"]}
{"id": "C81", "title": "EKF localizer never crashes on messages", "statement": "No sequence of timer ticks, initial poses (whether or not TF is available), poses and twists makes a callback undefined or ends the node with an exception.", "quantifier": "every interleaving of timer, initial pose, pose and twist messages, stamps, frame names and TF availability", "why_tests_cant": "All interleavings and stamps.", "anchors": ["ekf_localizer/src/ekf_localizer.cpp:EKFLocalizer::callbackInitialPose", "ekf_localizer/src/ekf_localizer.cpp:EKFLocalizer::timerCallback", "ekf_localizer/src/ekf_localizer.cpp:EKFLocalizer::callbackPoseWithCovariance"]}
{"id": "C82", "title": "Heading corrections take the shorter way", "statement": "Fusing a pose measurement corrects the estimated heading along the shorter arc towards the measured heading, also across the cut at +-180 degrees; headings that almost agree never give an opposite one.", "quantifier": "every filter state and pose message", "why_tests_cant": "All angles on both sides of the cut, all covariances.", "anchors": ["ekf_localizer/src/pose_measurement.cpp:PoseMeasurement::Update", "ekf_localizer/src/pose_measurement.cpp:PoseMeasurementVector", "kalman_filter/include/kalman_filter/kalman_filter.hpp:updateState"]}
{"id": "C83", "title": "The initial pose is transformed into the filter's frame", "statement": "After an initial pose given in another frame the filter starts at that pose mapped by the transform between the frames: position rotated and translated, heading turned, height shifted.", "quantifier": "every initial pose and transform", "why_tests_cant": "All rotations.", "anchors": ["ekf_localizer/src/ekf_localizer.cpp:EKFLocalizer::callbackInitialPose"]}
{"id": "C84", "title": "Delayed measurements are gated with the covariance of their time", "statement": "A delayed pose measurement is fused only if it lies within the gate distance of the estimate at its time, measured with the covariance of the estimate at its time.", "quantifier": "every filter state, delay and message", "why_tests_cant": "All covariances and delays.", "anchors": ["ekf_localizer/src/pose_measurement.cpp:PoseMeasurement::Update", "ekf_localizer/src/check.cpp:CheckMahalanobisGate"]}
{"id": "C85", "title": "Strong features are not lost", "statement": "An interior point of a ring whose curvature reaches the edge threshold and that passes all validity checks (not in the shadow of a range jump, range within limits, beam not parallel to the surface) is published as an edge or lies within the padding of a published edge.", "quantifier": "every ring, parameters and IEEE coordinates", "why_tests_cant": "The order of the passes matters for all geometric configurations.", "anchors": ["extraction/include/lidar_feature_extraction/label.hpp:AssignLabel", "extraction/app/feature_extraction.cpp:FeatureExtraction::Callback"]}
{"id": "C86", "title": "Unusable messages request a shutdown", "statement": "The extraction node requests a shutdown exactly if the message is not dense or has no ring field; the features published do not depend on these two checks.", "quantifier": "every message: density flag, field names and points", "why_tests_cant": "All field lists.", "anchors": ["extraction/app/feature_extraction.cpp:FeatureExtraction::Callback", "extraction/src/ring.cpp:RingIsAvailable"]}
{"id": "C87", "title": "Each optimiser step is the weighted least squares step", "statement": "For a problem that is not degenerate, the increment of each iteration minimises the weighted squared length of the linearised residuals over all directions in which a pose can move, with the slopes of the robust loss at the scaled errors as weights.", "quantifier": "every pose, Jacobians, residuals and scale", "why_tests_cant": "A statement about all problems and a minimum over all directions.", "anchors": ["localization/src/optimizer.cpp:CalcUpdate", "localization/src/optimizer.cpp:WeightedUpdate"]}
{"id": "C88", "title": "Without measurements the estimate follows the motion", "statement": "If no measurement arrives for a while, the published position follows the exact motion at constant speed and turn rate from the last estimate: heading exactly, position up to half of speed times turn rate times the largest tick interval times the elapsed time in each coordinate. After an initial pose the robot stays where it was put until the first measurement.", "quantifier": "every history of events, every number of ticks and all their clock readings", "why_tests_cant": "The error accumulates over any number of ticks of any lengths.", "anchors": ["ekf_localizer/src/ekf_localizer.cpp:EKFLocalizer::timerCallback", "ekf_localizer/src/state_transition.cpp:PredictNextState", "ekf_localizer/src/update_interval.cpp:UpdateInterval"]}
{"id": "C89", "title": "A measurement is fused at its time or dropped", "statement": "A pose or twist measurement is fused, as in the textbook, with the estimate of its time (now minus stamp, rounded to ticks) if that estimate is still in the buffer and lies within the gate distance (with respect to the newest covariance); otherwise it changes nothing. Values that are not finite never reach the filter.", "quantifier": "every filter state, message, current time and interval", "why_tests_cant": "All covariances and delays; a test fixes a few numbers.", "anchors": ["ekf_localizer/src/pose_measurement.cpp:PoseMeasurement::Update", "ekf_localizer/src/twist_measurement.cpp", "ekf_localizer/include/ekf_localizer/delay.hpp", "ekf_localizer/src/check.cpp"]}
{"id": "C90", "title": "What a tick of the localizer does", "statement": "A timer tick predicts over the time since the last one (the configured period at the first, at most ten seconds), then fuses the waiting poses, then the waiting twists, oldest first and at least half of each queue, then publishes the transform and the odometry of the resulting estimate. Messages that arrive in between only wait.", "quantifier": "every history of events and every tick", "why_tests_cant": "All interleavings of messages and ticks.", "anchors": ["ekf_localizer/src/ekf_localizer.cpp:EKFLocalizer::timerCallback", "ekf_localizer/include/ekf_localizer/aged_message_queue.hpp", "ekf_localizer/src/update_interval.cpp:UpdateInterval"]}
{"id": "C91", "title": "Published covariances are covariances", "statement": "If all messages carry regular covariances and the clock advances between ticks, the covariance of the filter and the two covariances of every published odometry message are symmetric positive semidefinite.", "quantifier": "every history of events", "why_tests_cant": "An invariant of unbounded executions.", "anchors": ["ekf_localizer/src/ekf_localizer.cpp:EKFLocalizer::publishEstimateResult", "ekf_localizer/src/covariance.cpp", "kalman_filter/include/kalman_filter/time_delay_kalman_filter.hpp"]}
{"id": "C92", "title": "The line fitted to the neighbours is the best line", "statement": "The line used for an edge point, through the mean of its nearest neighbours in the map along the direction of largest variance, minimises the sum of squared distances of the neighbours among all lines; neighbours on a common line give that line; the squared residual of the edge point is four times its squared distance from the line.", "quantifier": "every list of neighbours, every other line, every pose and point", "why_tests_cant": "A minimum over all lines for all point sets.", "anchors": ["localization/src/edge.cpp:CalcMeanAndCovariance", "localization/src/edge.cpp:MakeEdgeResidual", "localization/include/lidar_feature_localization/edge.hpp:Edge::Make"]}
{"id": "C93", "title": "The plane fitted to the neighbours is their plane", "statement": "If the neighbours of a surface point lie in one plane and determine it, the fitted plane is that plane and the residual is the distance of the point from it.", "quantifier": "every list of neighbours, every plane, every pose and point", "why_tests_cant": "The failing planes, those through the origin of the map, have measure zero but include the ground of a map that starts at height 0.", "anchors": ["localization/include/lidar_feature_localization/surface.hpp:EstimatePlaneCoefficients", "localization/include/lidar_feature_localization/surface.hpp:SignedPointPlaneDistance"]}
{"id": "C94", "title": "A prior that fits the map exactly is confirmed", "statement": "If at the prior pose every edge point of the scan lies on the line of its neighbours in the map and every surface point in the plane of its neighbours (not through the origin), the localizer reports success in its first iteration, with error zero, and the pose is the prior. The same holds for the alignment of point lists at a pose that maps one to the other.", "quantifier": "every map, scan, rotation and translation that fit, any positive iteration limit", "why_tests_cant": "Combines search, fits, scale, weights and solver, for all fitting scans, degenerate or not.", "anchors": ["localization/include/lidar_feature_localization/localizer.hpp:Localizer::Update", "localization/include/lidar_feature_localization/loam_optimization_problem.hpp:LOAMOptimizationProblem::Make", "localization/include/lidar_feature_localization/optimizer.hpp:Optimizer::Run"]}
{"id": "C95", "title": "The Jacobian for given coefficients is a derivative", "statement": "The matrix has one row for each point, the derivative of coefficient . (rotated point + translation) with respect to quaternion and translation; different numbers of points and coefficients are rejected.", "quantifier": "every list of points and coefficients, every quaternion", "why_tests_cant": "A derivative at every point.", "anchors": ["localization/src/jacobian.cpp:MakeJacobian", "localization/src/jacobian.cpp:FillJacobianRow"]}
{"id": "C96", "title": "Decisions about fits", "statement": "A principal direction counts as reliable exactly if the largest eigenvalue exceeds three times the middle one, in whatever order they are given; points count as lying along a plane exactly if none is farther than 0.2 from it; filtering keeps exactly the flagged values in their order and rejects lists of different lengths.", "quantifier": "every triple of eigenvalues, list of points, plane, flags and values", "why_tests_cant": "All orders and boundary cases.", "anchors": ["localization/src/edge.cpp:PrincipalIsReliable", "localization/include/lidar_feature_localization/surface.hpp:CheckPointsDistributeAlongPlane", "localization/include/lidar_feature_localization/filter.hpp:Filter"]}
{"id": "C97", "title": "A bad pose does not spoil the height for ever", "statement": "Every published height, roll and pitch is a number. After a message that is not usable the published values recover with the next good message, or at the latest with a new initial pose.", "quantifier": "every history of messages and ticks, every message content in IEEE doubles", "why_tests_cant": "The failing messages (not-a-number, a negative variance, two messages of one stamp with variance zero) do not occur in tests, and 'for ever' ranges over all continuations.", "anchors": ["ekf_localizer/include/ekf_localizer/ekf_localizer.hpp:Simple1DFilter", "ekf_localizer/src/ekf_localizer.cpp:updateSimple1DFilters"]}
{"id": "C98", "title": "Height, roll and pitch are tracked by the textbook filter", "statement": "A tick publishes as height, roll and pitch the estimate of a one-dimensional Kalman filter (variance growing with the square of the time passed, deviation 1 m/s or 0.1 rad/s) over all poses received so far; the value always lies between the smallest and the largest one received.", "quantifier": "every history with positive variances, whatever the main filter does", "why_tests_cant": "An equality with the textbook recursion after every history.", "anchors": ["ekf_localizer/include/ekf_localizer/ekf_localizer.hpp:Simple1DFilter", "ekf_localizer/src/ekf_localizer.cpp:timerCallback", "ekf_localizer/src/ekf_localizer.cpp:updateSimple1DFilters"]}
{"id": "C99", "title": "A rejected pose has no influence on the output", "statement": "A pose that the localizer rejects, for example because it is older than the time the filter remembers, changes nothing that is published.", "quantifier": "every history, every rejected pose", "why_tests_cant": "Compares two runs, with and without the rejected pose, for all histories.", "anchors": ["ekf_localizer/src/ekf_localizer.cpp:callbackPoseWithCovariance", "ekf_localizer/src/pose_measurement.cpp:PoseMeasurement::Update"]}
{"id": "C100", "title": "A new initial pose restarts the estimate", "statement": "After an initial pose the published pose is the given one until other measurements arrive, whatever the localizer estimated before.", "quantifier": "every history before the initial pose", "why_tests_cant": "Needs two initial poses and all histories between them.", "anchors": ["ekf_localizer/src/ekf_localizer.cpp:callbackInitialPose", "ekf_localizer/include/ekf_localizer/ekf_localizer.hpp:Simple1DFilter"]}
{"id": "C101", "title": "Without bias estimation the heading bias stays zero", "statement": "With enable_yaw_bias_estimation set to false the estimated heading bias, which is added to the published heading, is zero.", "quantifier": "every history of messages and ticks", "why_tests_cant": "The bias leaves zero only after a cycle whose prediction correlates it with the position, so a test of one update sees zero.", "anchors": ["ekf_localizer/src/ekf_localizer.cpp:InitYawBias", "ekf_localizer/src/ekf_localizer.cpp:InitCovariance", "ekf_localizer/README.md:enable_yaw_bias_estimation"]}
{"id": "C102", "title": "Measurements never make the published estimate less certain", "statement": "If nothing waits and measurements arrive before a tick, the covariances published by the tick are, in every direction, at most those that the same tick would have published without the measurements.", "quantifier": "every history, every list of arriving poses and twists with regular covariances, whether accepted or rejected, late or not; every combination of components", "why_tests_cant": "Compares two runs in all directions of a six-dimensional ellipsoid.", "anchors": ["ekf_localizer/src/ekf_localizer.cpp:timerCallback", "ekf_localizer/src/pose_measurement.cpp:PoseMeasurement::Update", "ekf_localizer/src/twist_measurement.cpp:TwistMeasurement::Update", "kalman_filter/src/time_delay_kalman_filter.cpp:TimeDelayKalmanFilter::update"]}
{"id": "C103", "title": "The features do not depend on the order of the points in the message", "statement": "Two messages with the same points in a different order give the same edge, surface and coloured points, up to order.", "quantifier": "every message and every rearrangement of its points, every parameter set", "why_tests_cant": "Compares two runs over all permutations of the input, and any sort the standard allows.", "anchors": ["extraction/include/lidar_feature_extraction/ring.hpp:SortByAtan2", "extraction/include/lidar_feature_extraction/ring.hpp:ExtractAngleSortedRings", "extraction/app/feature_extraction.cpp:Callback"]}
{"id": "C104", "title": "The choice of the map's origin does not matter to the EKF localizer", "statement": "If all poses given to the EKF localizer are told in coordinates whose origin is moved by a vector, everything published is the same with the positions moved by this vector; covariances, velocities and angles stay.", "quantifier": "every history of messages and ticks, every parameter set, every displacement", "why_tests_cant": "Compares two runs over all histories and all displacements.", "anchors": ["ekf_localizer/src/ekf_localizer.cpp:timerCallback", "ekf_localizer/src/ekf_localizer.cpp:callbackInitialPose", "ekf_localizer/src/pose_measurement.cpp:PoseMeasurement::Update", "ekf_localizer/src/state_transition.cpp:predictNextState", "ekf_localizer/include/ekf_localizer/ekf_localizer.hpp:Simple1DFilter"]}
{"id": "C105", "title": "The choice of the origin of time does not matter to the EKF localizer", "statement": "If the clock and all stamps are later by the same amount, everything published is the same with stamps later by this amount.", "quantifier": "every history of messages and ticks with non-negative stamps, every parameter set, every time difference", "why_tests_cant": "Compares two runs over all histories and all time differences.", "anchors": ["ekf_localizer/src/update_interval.cpp:UpdateInterval::Compute", "ekf_localizer/include/ekf_localizer/delay.hpp:ComputeDelayTime", "ekf_localizer/src/ekf_localizer.cpp:timerCallback", "ekf_localizer/include/ekf_localizer/ekf_localizer.hpp:Simple1DFilter"]}
{"id": "C106", "title": "The direction of the map's axes does not matter to the EKF localizer", "statement": "If all poses and their covariances are told in axes turned about the vertical, everything published is the same with positions, headings and covariances turned.", "quantifier": "every history of messages and ticks, every parameter set, every angle", "why_tests_cant": "Compares two runs over all histories and all angles; the failure needs a heading next to the cut at pi.", "anchors": ["ekf_localizer/src/pose_measurement.cpp:PoseMeasurement::Update", "ekf_localizer/include/ekf_localizer/normalize_yaw.hpp:normalizeYaw", "ekf_localizer/src/state_transition.cpp:predictNextState"]}
{"id": "C107", "title": "The uncertainty of the initial pose is taken over", "statement": "After an initial pose the covariance of position and heading given in the message, variances and correlations, is the uncertainty of the estimate: the next tick publishes it, grown by the motion since.", "quantifier": "every initial pose and every covariance in it, every history before and after", "why_tests_cant": "Ranges over all covariances and all later histories; tests give diagonal covariances, for which the loss of correlations cannot be seen.", "anchors": ["ekf_localizer/src/ekf_localizer.cpp:InitCovariance", "ekf_localizer/src/ekf_localizer.cpp:callbackInitialPose"]}
{"id": "C108", "title": "Poses survive the message format", "statement": "A rigid pose written into a pose, pose-with-covariance or transform message and read back is the same pose; stamp, frames and covariance entries are those given. A message with a unit quaternion that is read and written again has the same position and the same quaternion up to sign.", "quantifier": "every rigid pose, every header and covariance, every message with a unit quaternion", "why_tests_cant": "Conversion of a rotation matrix to a quaternion has four branches, chosen by the matrix; tests see a few rotations.", "anchors": ["lib/src/ros_msg.cpp:GetIsometry3d", "lib/src/ros_msg.cpp:MakePose", "lib/src/ros_msg.cpp:MakePoseWithCovarianceStamped", "lib/src/ros_msg.cpp:MakeTransformStamped"]}
{"id": "C109", "title": "Scans keep their shape in the map", "statement": "Each scan in the built map has the shape it was measured with: the distances between its points are the measured ones.", "quantifier": "every sequence of clouds and pose messages", "why_tests_cant": "Ranges over all quaternions a message can hold; tests give normalised ones.", "anchors": ["mapping/include/lidar_feature_mapping/map.hpp:Callback", "lib/src/ros_msg.cpp:GetIsometry3d"]}
{"id": "C110", "title": "The sample standard deviation is the sample standard deviation", "statement": "The result is a number, and its square is the mean squared difference of two of the values, halved.", "quantifier": "every non-empty vector of values", "why_tests_cant": "An identity in all values and all lengths.", "anchors": ["lib/src/random.cpp:SampleStandardDeviation"]}
{"id": "C111", "title": "The origin of the map does not matter to lidar localization", "statement": "If both feature maps and all prior poses are told in coordinates with another origin, the node publishes the same poses told in those coordinates, with the same errors, iterations and verdicts.", "quantifier": "every shift of the origin, every pair of maps, every history of priors and scans", "why_tests_cant": "Ranges over all maps and all shifts; tests use one map in one coordinate system.", "anchors": ["localization/include/lidar_feature_localization/surface.hpp:EstimatePlaneCoefficients", "localization/include/lidar_feature_localization/edge.hpp:Make", "localization/include/lidar_feature_localization/localizer.hpp:Update", "localization/include/lidar_feature_localization/subscriber.hpp:PoseUpdateCallback"]}
{"id": "C112", "title": "The features do not depend on the direction in which the sensor is mounted", "statement": "If the sensor is turned about its vertical axis, so that every return is turned by the same angle, the published edge, surface and coloured clouds are the turned clouds.", "quantifier": "every scan, every angle, every conforming sort", "why_tests_cant": "A relation between two runs for all scans and all angles; tests compare single scans with expected labels.", "anchors": ["extraction/include/lidar_feature_extraction/ring.hpp:AHasSmallerPolarAngleThanB", "extraction/include/lidar_feature_extraction/ring.hpp:SortByAtan2", "extraction/include/lidar_feature_extraction/index_range.hpp:PaddedIndexRange", "extraction/app/feature_extraction.cpp:Callback"]}
{"id": "C113", "title": "The features are selected by horizontal coordinates alone", "statement": "Two scans whose points have, place by place, the same ring and the same x and y give the same features: heights and intensities have no influence on which points are published, in which order and in which colour, nor on how the callback ends.", "quantifier": "every pair of scans that differ in heights and intensities only, every arithmetic and every sort", "why_tests_cant": "Absence of influence over all values of the other fields, including NaN and infinite heights.", "anchors": ["extraction/app/feature_extraction.cpp:Callback", "extraction/include/lidar_feature_extraction/neighbor.hpp:IsNeighborXY", "extraction/include/lidar_feature_extraction/range.hpp:Range"]}
{"id": "C114", "title": "The order in which pose and twist messages arrive between two ticks does not matter to the EKF localizer", "statement": "If two histories of callbacks contain the same pose messages and the same twist messages, each kind in the same order, and differ only in how poses and twists that arrive between two ticks or initial poses interleave, the EKF localizer publishes the same messages and ends in the same state.", "quantifier": "every pair of histories, every arithmetic, every parameter set", "why_tests_cant": "The interleaving of two topics is chosen by the middleware; tests feed one interleaving.", "anchors": ["ekf_localizer/src/ekf_localizer.cpp:callbackPoseWithCovariance", "ekf_localizer/src/ekf_localizer.cpp:callbackTwistWithCovariance", "ekf_localizer/src/ekf_localizer.cpp:timerCallback"]}
{"id": "C115", "title": "The order of the features of a scan does not matter to the lidar localizer", "statement": "If the edge and surface features of scans are listed in another order, the localization node publishes the same poses, after the same numbers of iterations with the same errors.", "quantifier": "every history of priors and scans, every rearrangement of the features of each scan, all maps", "why_tests_cant": "All rearrangements of all scans; sums, medians and the linear system have to be symmetric in the features.", "anchors": ["localization/include/lidar_feature_localization/optimizer.hpp:Run", "localization/src/optimizer.cpp:WeightedUpdate", "localization/src/robust.cpp:Scale", "localization/include/lidar_feature_localization/loam_optimization_problem.hpp:Make"]}
{"id": "C116", "title": "The order of the points in the maps does not matter to the lidar localizer", "statement": "If the edge map and the surface map contain the same points in another order, the localization node publishes the same poses.", "quantifier": "every history of priors and scans, every rearrangement of the two maps", "why_tests_cant": "All rearrangements of all maps, whatever search structure is built from them.", "anchors": ["localization/src/kdtree.cpp:NearestKSearch", "localization/include/lidar_feature_localization/edge.hpp:Make", "localization/include/lidar_feature_localization/surface.hpp:MakeFromDownsampled"]}
{"id": "C117", "title": "The point type converter raises on clouds that do not match their announced layout", "statement": "If a cloud has a point step of zero, data that are not a whole number of points, a field reaching beyond the point step, or a field with a type that the message definition does not know, the converter raises and publishes nothing.", "quantifier": "every cloud with at least one of these defects, whatever the rest of it contains", "why_tests_cant": "Ranges over all malformed clouds; each defect has to be detected whatever the other fields are.", "anchors": ["point_type_converter/point_type_converter/convert.py:unpack_point_bytes", "point_type_converter/point_type_converter/convert.py:create_point_format"]}
{"id": "C118", "title": "Every optimiser step follows the slopes of the residuals at the current estimate", "statement": "In every iteration, the change of each residual that the optimiser expects of its step is the slope of that residual when the current estimate is turned and moved by that step.", "quantifier": "every orientation that a run can reach, every translation, step, point, line and plane", "why_tests_cant": "A statement about every orientation; the unit tests start and end within one branch of the matrix-to-quaternion conversion.", "anchors": ["localization/include/lidar_feature_localization/optimizer.hpp:Run", "localization/include/lidar_feature_localization/edge.hpp:Make", "localization/include/lidar_feature_localization/surface.hpp:MakeFromDownsampled", "localization/src/alignment.cpp:Make"]}
{"id": "C119", "title": "The directions of the axes of the map do not matter to the lidar localizer", "statement": "If the map points and the initial estimate are told in axes of other directions (all turned by one rotation), the optimiser returns the same pose told in those axes, after the same number of iterations with the same errors.", "quantifier": "every rotation of the axes, every initial estimate, set of points or pair of maps, and scan", "why_tests_cant": "Ranges over all rotations and all inputs; tests use a few poses in one system of axes.", "anchors": ["localization/include/lidar_feature_localization/optimizer.hpp:Run", "localization/src/alignment.cpp:Make", "localization/include/lidar_feature_localization/loam_optimization_problem.hpp:Make", "localization/src/optimizer.cpp:WeightedUpdate"]}
{"id": "C120", "title": "The EKF localizer treats left and right alike", "statement": "If a drive is replaced by its mirror image (lateral positions, roll, yaw and yaw rate of all messages with the opposite sign, covariances accordingly), the EKF localizer publishes the mirror image of what it published for the drive, and fails exactly when it failed before.", "quantifier": "every history of initial poses, poses, twists and ticks, every parameter setting", "why_tests_cant": "Ranges over all histories; a sign error in one entry of a matrix shows only in drives with the right combination of turn and offset.", "anchors": ["ekf_localizer/src/state_transition.cpp:createStateTransitionMatrix", "ekf_localizer/src/pose_measurement.cpp:Update", "ekf_localizer/src/twist_measurement.cpp:Update", "ekf_localizer/src/covariance.cpp:EKFCovarianceToPoseMessageCovariance", "ekf_localizer/src/ekf_localizer.cpp:timerCallback"]}
{"id": "C121", "title": "The lidar localizer treats left and right alike", "statement": "If the map, the scan and the initial estimate are replaced by their mirror images (left and right exchanged), the optimiser returns the mirror image of the pose, after the same number of iterations with the same errors.", "quantifier": "every initial estimate, set of points or pair of maps, and scan", "why_tests_cant": "Ranges over all inputs; tests align a few scenes and never compare a scene with its mirror image.", "anchors": ["localization/include/lidar_feature_localization/optimizer.hpp:Run", "localization/src/alignment.cpp:Make", "localization/include/lidar_feature_localization/loam_optimization_problem.hpp:Make", "localization/src/optimizer.cpp:WeightedUpdate"]}
{"id": "C122", "title": "Height, roll and pitch settle on what the poses report", "statement": "If from some pose on all poses report a height (roll, pitch) within a tolerance of a value, then every published height (roll, pitch) lies within that tolerance of the value plus the deviation of the earlier poses times their share in the total weight (inverse variances); the share goes to zero with the number of poses, and by a fixed factor per pose if time passes between them, however wrong the earlier poses were.", "quantifier": "every history of initial poses, poses, twists and ticks with positive variances, every value, tolerance and sequence of stamps", "why_tests_cant": "A limit over unbounded sequences of poses and all sequences of stamps and variances.", "anchors": ["ekf_localizer/include/ekf_localizer/ekf_localizer.hpp:Simple1DFilter", "ekf_localizer/src/ekf_localizer.cpp:updateSimple1DFilters"]}
{"id": "C123", "title": "The feature extraction treats left and right alike", "statement": "If a scan is replaced by its mirror image (lateral coordinates with the opposite sign), the extraction node publishes the mirror images of the edges, surfaces and coloured points that it published for the scan.", "quantifier": "every scan, every parameter setting with positive padding and number of blocks, every conforming sort and order of the rings", "why_tests_cant": "Ranges over all scans; rings are cut into blocks and processed in one direction, and tests contain no pair of mirrored scans.", "anchors": ["extraction/src/index_range.cpp:Boundary", "extraction/include/lidar_feature_extraction/label.hpp:EdgeLabel", "extraction/src/ring.cpp:SortByAtan2", "extraction/app/feature_extraction.cpp:Callback"]}
{"id": "C124", "title": "A wrong position with the right orientation is corrected in one step", "statement": "If the pose given to the localizer has the right orientation but a wrong position, and the scan fits the map exactly at the true pose, with the same lines and planes found from the wrong position, then the localizer reports success after at most two iterations and the reported pose is the true pose. The same holds for the alignment of a list of points with its moved copy.", "quantifier": "every scan, map, true pose, and displacement for which the linear problem is not degenerate, every iteration limit of at least two, every solver meeting its specification", "why_tests_cant": "Ranges over all maps, scans and displacements; tests align a few fixed lists of points and compare approximately.", "anchors": ["localization/include/lidar_feature_localization/optimizer.hpp:Run", "localization/include/lidar_feature_localization/localizer.hpp:Update", "localization/src/edge.cpp:MakeEdgeJacobianRow", "localization/include/lidar_feature_localization/surface.hpp:MakeJacobianRow"]}
{"id": "C125", "title": "A measurement is used in the best possible way", "statement": "After the update of a Kalman filter with a measurement, every linear combination of the estimated values is the combination before plus a weighted sum of the differences between the measured and the expected values; the covariance the filter reports for it is the variance of its error; and no other weights for the differences give a smaller variance. The same holds for the filter with delayed copies and a delayed measurement.", "quantifier": "every estimate, covariance, measurement matrix, positive definite measurement noise, measured value, every combination and every other choice of weights", "why_tests_cant": "An optimality statement over all competing linear estimators; tests compare one update with stored numbers.", "anchors": ["kalman_filter/src/kalman_filter.cpp:KalmanFilter::update", "kalman_filter/src/time_delay_kalman_filter.cpp:TimeDelayKalmanFilter::update"]}
{"id": "C126", "title": "A measurement draws the estimate towards it and not beyond", "statement": "After a Kalman filter has fused a measurement, the difference between the measured values and the estimate of them, seen with the precision of the measurement, is not larger than before and does not point the other way; it is smaller if there was a difference and the measured quantities were uncertain. In the EKF localizer this holds for every pose and twist message and the copy of the state that belongs to its time stamp, whether the message is accepted or rejected.", "quantifier": "every filter state with positive semidefinite covariance, every measurement with positive definite covariance, every delay", "why_tests_cant": "Ranges over all covariances, correlations and dimensions; with correlated components single components may well move away, so tests of single components say nothing about it.", "anchors": ["kalman_filter/src/kalman_filter.cpp:KalmanFilter::update", "kalman_filter/src/time_delay_kalman_filter.cpp:TimeDelayKalmanFilter::update", "ekf_localizer/src/pose_measurement.cpp:PoseMeasurement::Update", "ekf_localizer/src/twist_measurement.cpp:TwistMeasurement::Update"]}
{"id": "C127", "title": "The order of measurements does not matter to the Kalman filters", "statement": "If several measurements are fused with a Kalman filter, plain or with delayed copies and each with its own delay, without a prediction in between, the estimate and its covariance do not depend on their order; and fusing two measurements one after the other gives the same as fusing them at once as one measurement with independent noises.", "quantifier": "every filter state with positive semidefinite covariance, every list of measurements of any dimensions with positive definite noise, every delay and every reordering", "why_tests_cant": "Ranges over all lists and permutations of measurements and all dimensions; a test can only compare a few orders of a few measurements.", "anchors": ["kalman_filter/src/kalman_filter.cpp:KalmanFilter::update", "kalman_filter/src/time_delay_kalman_filter.cpp:TimeDelayKalmanFilter::update"]}
{"id": "C128", "title": "The order of waiting messages does not matter to the EKF localizer", "statement": "If the same poses (or the same twists) with the same time stamps are waiting when the EKF localizer runs its update, the estimate afterwards does not depend on the order in which they arrived.", "quantifier": "every filter state, every list of messages and every reordering", "why_tests_cant": "Whether a message passes the gate depends on what was fused before it; tests do not compare orders.", "anchors": ["ekf_localizer/src/pose_measurement.cpp:PoseMeasurement::Update", "ekf_localizer/src/twist_measurement.cpp:TwistMeasurement::Update", "ekf_localizer/src/mahalanobis.cpp"]}
{"id": "C129", "title": "Scans whose directions single precision can tell apart are always processed", "statement": "If the coordinates of a scan are of ordinary size and, within each ring, directions are equal, opposite or differ by more than about 0.0000034 degrees and no two different points lie straight ahead, the extraction node takes the scan apart into rings listed in the order of the directions, and publishes; nothing is thrown, asserted or undefined.", "quantifier": "every scan of single-precision points with these properties, of any size below the limits of int, every parameter set accepted at start-up, every conforming sort and order of the rings", "why_tests_cant": "The comparator of the sort works with rounded products, and whether std::sort is defined depends on all triples of points at once; tests sort a handful of points.", "anchors": ["extraction/include/lidar_feature_extraction/ring.hpp:AHasSmallerPolarAngleThanB", "extraction/include/lidar_feature_extraction/ring.hpp:SortByAtan2", "extraction/include/lidar_feature_extraction/ring.hpp:ExtractAngleSortedRings", "extraction/app/feature_extraction.cpp:Callback"]}
{"id": "C130", "title": "The curvature is the bend of the ring within a known tolerance", "statement": "The curvature computed for a point in the interior of a ring is the double next to the square of a number that differs from the true sum of second differences of the horizontal distances by at most 2^(m+2b-47), if all points are within 2^m metres and the padding is at most 2^b (e.g. 2^-33 m for 256 m and padding 8). Hence every published edge point has a true bend of at least the root of the edge threshold and every published surface point one of at most the root of the surface threshold, up to that tolerance and a relative 2^-52; points clearly above or below a threshold do qualify; and evenly changing distances give next to no curvature.", "quantifier": "every scan of single-precision points with finite coordinates, every padding up to 2^30, every parameter set accepted at start-up, every conforming sort and order of the rings", "why_tests_cant": "Accumulated rounding errors of a sum of any length over all inputs; tests compare a few sums of small integers, which are exact.", "anchors": ["extraction/src/curvature.cpp:CalcCurvature", "extraction/src/curvature.cpp:MakeWeight", "extraction/src/convolution.cpp:Convolution1D", "extraction/include/lidar_feature_extraction/math.hpp:InnerProduct", "extraction/include/lidar_feature_extraction/range.hpp:Range", "extraction/app/feature_extraction.cpp:Callback"]}
{"id": "C131", "title": "Orientations mean the same to all nodes", "statement": "Roll, pitch and heading estimated by the EKF localizer are what a receiver reads from the published quaternion (the heading up to whole turns), and the position is the estimated one. The heading the EKF localizer reads from the message of a rigid pose, as the lidar localizer sends it, is the direction of the forward axis of that pose seen from above, and the measurement is the position with this heading. Consequently, if the pose published by a tick is sent back as the initial pose in the same frame, then, as long as no measurements arrive, every further tick publishes the same position, roll, pitch and heading with no speed.", "quantifier": "every estimate and every rigid pose whose forward axis is not within 0.26 degrees of the vertical, every sign of the quaternion in the message, every history of callbacks before the restart, any number of ticks after it", "why_tests_cant": "The conversion of angles to a quaternion, to a matrix, back to a quaternion (four branches) and back to angles crosses several packages; tests of one conversion on a few angles do not see a mismatch of conventions.", "anchors": ["ekf_localizer/src/ekf_localizer.cpp:MakePoseFromXYZRPY", "ekf_localizer/src/ekf_localizer.cpp:createRPYfromQuaternion", "ekf_localizer/src/ekf_localizer.cpp:callbackInitialPose", "ekf_localizer/src/ekf_localizer.cpp:publishEstimateResult", "rotationlib/src/quaternion.cpp:RPYToQuaternionXYZ", "lib/src/ros_msg.cpp:MakePose", "ekf_localizer/src/pose_measurement.cpp:PoseMeasurementVector"]}
{"id": "C132", "title": "Which way up the vehicle is, is kept", "statement": "If every pose reports the vehicle standing on its wheels, every published pose shows it standing on its wheels; and if no pose reports the vehicle inclined forwards, backwards or sideways beyond given angles, no published pose does. Likewise, if every pose reports the vehicle upside down, every published pose shows it upside down.", "quantifier": "every history of callbacks of the EKF localizer with positive variances, every orientation whose forward axis is not within 0.26 degrees of the vertical, every sign of the quaternions, every angle", "why_tests_cant": "The failing inputs are pairs of almost equal orientations on either side of a cut that a test with one upright pose never reaches; the positive part is a statement about all histories.", "anchors": ["ekf_localizer/include/ekf_localizer/ekf_localizer.hpp:Simple1DFilter", "ekf_localizer/src/ekf_localizer.cpp:updateSimple1DFilters", "ekf_localizer/src/ekf_localizer.cpp:createRPYfromQuaternion", "ekf_localizer/src/ekf_localizer.cpp:MakePoseFromXYZRPY"]}
{"id": "C133", "title": "Rounding errors of the orientation do not build up", "statement": "However many scans without information about the pose are processed (no features found, or a degenerate geometry), the reported pose keeps the distances between the points of a scan as well as the pose the localizer was initialised with, and keeps facing the same way, up to rounding.", "quantifier": "every initial pose, every number of scans without features or with a degenerate normal matrix; the localizer in IEEE doubles", "why_tests_cant": "The error grows by a factor of less than 1.5 for each scan from the size of one rounding; a test with a few scans sees nothing, and only headings between 90 and 120 degrees are affected.", "anchors": ["localization/include/lidar_feature_localization/localizer.hpp:Localizer::Update", "localization/include/lidar_feature_localization/optimizer.hpp:Optimizer::Run", "localization/src/posevec.cpp:MakePose"]}
{"id": "C134", "title": "Points of the map are stored where the poses put them", "statement": "Every point of a scan that enters the map, or the scans accumulated by the localizer, is stored within a millimetre of where the pose of its scan puts it, wherever the vehicle is.", "quantifier": "every sequence of pose and cloud messages, every position of the vehicle, every decision about key frames; poses in IEEE doubles, points in IEEE floats", "why_tests_cant": "Tests use poses of a few metres, where single precision looks exact; the error depends on the distance of the vehicle from the origin of the map.", "anchors": ["lib/include/lidar_feature_library/pcl_utils.hpp:TransformPointCloud", "mapping/include/lidar_feature_mapping/map.hpp:MapBuilder::Callback", "localization/include/lidar_feature_localization/recent_scans.hpp:RecentScans::Add"]}
{"id": "C135", "title": "Scans without information do not make the localization more certain", "statement": "While the vehicle is parked and its scans tell the lidar localizer nothing, the launched localization keeps publishing the initial pose, and its published covariance is that of the filter without the scans.", "quantifier": "every initial pose, every order of ticks, scans, standstill twists and messages between the EKF localizer and the lidar localizer, including late, lost and repeated ones; exact arithmetic", "why_tests_cant": "The two nodes are tested apart; that each is fed what the other publishes is only in the launch file, and the loop of the two is in no test.", "anchors": ["lidar_feature_launch/launch/localization.launch.py:ekf_localizer", "localization/include/lidar_feature_localization/subscriber.hpp:PoseUpdateCallback", "ekf_localizer/src/ekf_localizer.cpp:callbackPoseWithCovariance"]}
{"id": "C136", "title": "The launched nodes are connected as intended", "statement": "Started by the launch files, each node gets its input from the intended node and from no other of the system, with a matching message type and quality of service, and the remaining inputs come from the topics given as launch arguments; also if the launch file is included below a namespace.", "quantifier": "every choice of launch arguments that are absolute names different from each other and from the fixed ones; every namespace; the three launch files", "why_tests_cant": "The wiring exists only at run time: names in C++ and Python, remappings in the launch files and the rules of ROS for expanding them. No test starts the launch files.", "anchors": ["lidar_feature_launch/launch/localization.launch.py:generate_launch_description", "lidar_feature_launch/launch/mapping.launch.py:generate_launch_description", "lidar_feature_launch/launch/odometry.launch.py:generate_launch_description", "extraction/app/feature_extraction.cpp:FeatureExtraction", "localization/include/lidar_feature_localization/subscriber.hpp:LocalizationSubscriber", "point_type_converter/point_type_converter/convert.py:PointTypeConverter"]}
{"id": "C137", "title": "What the mapping writes is what the localization reads", "statement": "After a mapping run in which some scan had features, the localization started in the same directory starts and uses the maps that were built.", "quantifier": "every sequence of scans and poses, every contents of the directory before", "why_tests_cant": "The two programs are tested apart; that the files one writes are those the other wants is in the main functions of both, which no test runs.", "anchors": ["mapping/src/mapping.cpp:main", "mapping/include/lidar_feature_mapping/map.hpp:SaveMap", "localization/app/localization.cpp:main"]}
{"id": "C138", "title": "The two messages of a scan are used together and once", "statement": "The lidar localizer combines the edge and the surface cloud of the same scan only, and the map builder a cloud and the pose of the same time only; no message is used twice; if stamps grow, all complete scans are used, in order, however the two streams are interleaved and whatever is missing, unless more messages wait for their partner than the queue holds (10 and 1000); if one stream runs ahead further, exactly the newest scans are used.", "quantifier": "all sequences of messages on the two topics, all queue sizes", "why_tests_cant": "The interleaving of two topics depends on the scheduling of processes and threads; the tests call the callbacks directly with both messages.", "anchors": ["localization/include/lidar_feature_localization/subscriber.hpp:LocalizationSubscriber", "mapping/src/mapping.cpp:MapSubscriber"]}
{"id": "C139", "title": "Each published pose belongs to one scan and is computed from that scan", "statement": "From the scans of the lidar to the poses of the lidar localizer: if the stamps of the scans grow, then whatever messages between the two processes are lost and however they are interleaved, the published poses carry the stamps of scans, in growing order, at most one for each scan, and each is the result of aligning the edge points and the surface points the extraction found in that very scan, starting from a prior that was received; if no message is lost, neither topic gets ahead of the other by more than ten messages and a prior not newer than the scans came first, there is exactly one pose for each scan.", "quantifier": "all sequences of scans with growing stamps, all losses and interleavings of the messages and priors, all point clouds and parameters", "why_tests_cant": "The property spans two processes and the network between them; unit tests run neither node, and losses and interleavings cannot be enumerated.", "anchors": ["extraction/app/feature_extraction.cpp:FeatureExtraction::Callback", "localization/include/lidar_feature_localization/subscriber.hpp:LocalizationSubscriber"]}
{"id": "C140", "title": "The map is made of clouds placed by the pose of their own time", "statement": "From the messages the mapping receives to the map it saves: every point of the map is a point of a received cloud, placed by the pose received with the same stamp, whatever arrives in whatever order; if stamps grow, orientations are unit quaternions and never more than a thousand messages wait for their partner, the map consists exactly of the key frames among the clouds whose pose was received, in order; every cloud with points whose pose was received is covered by a cloud of the map, not later, whose pose is less than a metre and about 11.5 degrees away; and a file is written exactly if there is such a cloud.", "quantifier": "all sequences of clouds and poses on the two topics, all losses and interleavings, all values of the uninitialised previous pose", "why_tests_cant": "The property spans the interleaving of two topics and the whole drive; the tests call the map class directly.", "anchors": ["mapping/src/mapping.cpp:MapSubscriber", "mapping/include/lidar_feature_mapping/map.hpp:MapBuilder"]}
{"id": "C141", "title": "A measurement that is not used is reported, with the reason", "statement": "Whenever the EKF localizer drops a pose or a velocity, the reason can be read in its log: a line that says so is written at that time or was written within the two seconds before; and every line is true of some measurement.", "quantifier": "every sequence of measurements and of estimates, every reading of the clock at the warnings", "why_tests_cant": "The warnings are throttled by a variable hidden in a macro and shared by all of them; whether a line appears depends on every warning of the last seconds. The tests look at no log.", "anchors": ["ekf_localizer/include/ekf_localizer/warning.hpp:Warning", "ekf_localizer/src/check.cpp:CheckMahalanobisGate", "ekf_localizer/src/check.cpp:CheckDelayTime", "ekf_localizer/src/pose_measurement.cpp:PoseMeasurement::Update", "ekf_localizer/src/twist_measurement.cpp:TwistMeasurement::Update"]}
{"id": "C142", "title": "The map consists of measured edge points, each at most once", "statement": "From the scans the extraction receives to the map the mapping saves: every point of the map is a point of a scan whose distance lies within the configured limits and where the curvature of its ring reaches the edge threshold, placed by a pose received with the stamp of this scan, whatever is lost and in whatever order it arrives; if the stamps of scans and poses grow and never more than a thousand messages wait for their partner, the map is put together from some of the scans in their order, of each scan some points, each of them once; and every scan with edge points whose edge message and pose arrived is represented by a scan not later, less than a metre and about 11.5 degrees away, with all its edge points.", "quantifier": "all sequences of scans, all parameters, all losses and interleavings of the edge messages and the poses, all sort orders of equal curvatures and all orders of the rings", "why_tests_cant": "The property spans two processes, the network between them and the whole drive; the tests call the extraction functions and the map class separately.", "anchors": ["extraction/app/feature_extraction.cpp:FeatureExtraction::Callback", "mapping/src/mapping.cpp:MapSubscriber", "mapping/include/lidar_feature_mapping/map.hpp:MapBuilder"]}
{"id": "C143", "title": "From the sensor's cloud to the features, through the converter, invalid returns do no harm", "statement": "Started behind the point type converter, as the launch files do, the extraction computes its features from exactly the returns of the sensor's cloud that are not at the origin, with their coordinates, intensities and rings; and a cloud with invalid returns, which the sensor declares as not dense, is refused with the request to shut down instead of being computed with.", "quantifier": "every message with the fields of C75, both byte orders, every number of points, every pattern of bits in the coordinates, every sort, all parameters", "why_tests_cant": "It is about two programs in two languages, one behind the other: each treats its input as its own tests expect. Neither package's tests start the other one, and none has a NaN in a cloud.", "anchors": ["lidar_feature_launch/launch/localization.launch.py:generate_launch_description", "point_type_converter/point_type_converter/convert.py:PointTypeConverter.callback", "lib/include/lidar_feature_library/ros_msg.hpp:GetPointCloud", "extraction/app/feature_extraction.cpp:FeatureExtraction::Callback", "extraction/include/lidar_feature_extraction/ring.hpp:SortByAtan2"]}
{"id": "C144", "title": "From the sensor's messages to the map file, through converter, extraction and mapping", "statement": "Started as for mapping: whatever messages are lost, every point of the map is a return in a message of the sensor, not at the origin and within the distance limits, at the place where a pose with the stamp of that message puts it; the map is put together from some of the messages, in order, no return twice; every message whose features and pose arrive is represented; and a message that does not match its announced layout costs only its own scan.", "quantifier": "every sequence of messages of the sensor, every loss between the processes, every order of arrival at the mapping, all stamps", "why_tests_cant": "It is about four programs in two languages connected by topics that lose messages. The tests of each package see one function at a time.", "anchors": ["lidar_feature_launch/launch/mapping.launch.py:generate_launch_description", "point_type_converter/point_type_converter/convert.py:PointTypeConverter.callback", "point_type_converter/point_type_converter/convert.py:main", "extraction/app/feature_extraction.cpp:FeatureExtraction::Callback", "mapping/include/lidar_feature_mapping/map.hpp:MapBuilder::Callback"]}
{"id": "C145", "title": "From the sensor's messages to the poses of the lidar localizer, through converter, extraction and localization", "statement": "Started for localization: whatever messages are lost, every published pose carries the stamp of a message of the sensor, at most one per message and in order, and is computed from the features of exactly the returns of that message that are not at the origin, starting from a received prior; with valid returns, nothing lost and a prior first, there is exactly one pose for each message; and a message that does not match its announced layout costs only its own pose.", "quantifier": "every sequence of messages of the sensor, every loss between the processes, every interleaving of the feature topics and of the priors", "why_tests_cant": "It is about three programs in two languages connected by topics that lose messages, with queues in between. The tests of each package see one function at a time.", "anchors": ["lidar_feature_launch/launch/localization.launch.py:generate_launch_description", "point_type_converter/point_type_converter/convert.py:PointTypeConverter.callback", "point_type_converter/point_type_converter/convert.py:main", "extraction/app/feature_extraction.cpp:FeatureExtraction::Callback", "localization/include/lidar_feature_localization/subscriber.hpp:LocalizationSubscriber"]}
{"id": "C146", "title": "The converter reads exactly the points that the message announces", "statement": "The points that the converter reads are the height times width points of the message, the one of row r and column c at byte r * row_step + c * point_step; bytes between the rows are no points.", "quantifier": "every message with the fields of C75, every height, width and row_step, every content", "why_tests_cant": "Ranges over all shapes of messages; the tests have clouds of one row, where the shape does not matter.", "anchors": ["point_type_converter/point_type_converter/convert.py:unpack_point_bytes", "point_type_converter/point_type_converter/convert.py:PointTypeConverter.callback"]}
{"id": "C147", "title": "Stacked vectors, matrices and points keep their rows", "statement": "VectorsToEigen and HorizontalStack give a matrix without indeterminate entries in which the rows of the given vectors or matrices lie on top of each other in their order; Get has, for each index, the coordinates of that point without rounding and throws std::out_of_range for an index that is none of a point; MakePointXYZ of GetXYZ is the point.", "quantifier": "all lists of vectors and matrices of every size, all clouds and index lists, all points", "why_tests_cant": "Ranges over all lists and all bit patterns of coordinates; the tests stack two small matrices, where the row index cannot overflow.", "anchors": ["lib/include/lidar_feature_library/eigen.hpp:VectorsToEigen", "lib/include/lidar_feature_library/eigen.hpp:HorizontalStack", "lib/src/pcl_utils.cpp:Get", "lib/src/pcl_utils.cpp:MakePointXYZ"]}
{"id": "C148", "title": "The neighbour search sees every map point, unrounded", "statement": "PointCloudToMatrix never throws or asserts and gives a matrix with exactly one row for each point of the cloud, in their order, with the point's x, y, z (and curvature for PointXYZCRToVector) as the same numbers, NaN, infinities and signed zeros included.", "quantifier": "all clouds of every size, all bit patterns of coordinates, all three classes that turn points into vectors", "why_tests_cant": "Ranges over all clouds and all floats; the tests convert a few points with small integer coordinates.", "anchors": ["localization/include/lidar_feature_localization/pointcloud_to_matrix.hpp:PointCloudToMatrix", "localization/include/lidar_feature_localization/point_to_vector.hpp:PointXYZCRToVector", "localization/include/lidar_feature_localization/point_to_vector.hpp:PointXYZCRToXYZVector", "localization/include/lidar_feature_localization/point_to_vector.hpp:PointXYZToVector"]}
{"id": "C149", "title": "Line markers show exactly the added lines", "statement": "After InitLines and any calls of SetWidth, SetColor and AddLine, the marker is a line list with the given stamp and frame whose points are the ends of the added lines, two for each line in their order; its width and colour are the last ones set (no width and transparent before that); a width or colour component that is not a number from 0 to 1 fails an assertion.", "quantifier": "all sequences of calls, all bit patterns of widths, colours and coordinates", "why_tests_cant": "Ranges over all sequences of calls and all floats, NaN included; tests make a few calls.", "anchors": ["lib/src/ros_msg.cpp:InitLines", "lib/src/ros_msg.cpp:SetWidth", "lib/src/ros_msg.cpp:SetColor", "lib/src/ros_msg.cpp:AddLine", "lib/src/ros_msg.cpp:MakePoint"]}
