{"claims": [
{"property": "C01", "status": "proved", "theorems": ["C01_edges_separated", "C01_surfaces_separated"], "note": "Any arithmetic (IEEE with NaN included), any order produced by the sort, any symmetric neighbour relation; proved for Surface points too."},
{"property": "C02", "status": "proved", "theorems": ["C02_edge_sound", "C02_surface_sound", "C02_passes_do_not_mix"], "note": "Any arithmetic and any sort order; symmetry not needed."},
{"property": "C03", "status": "proved", "theorems": ["C03_edge_maximal", "C03_surface_maximal", "C03_edge_pass_defined", "C03_surface_pass_defined"], "note": "std::sort modelled by the standard's postcondition (valid_sort); a NaN curvature makes the comparator no strict weak order, which the model reports as UB."},
{"property": "C04", "status": "proved", "theorems": ["C04_surface_keeps_edges"], "note": "The Example ex_C04_needs_symmetry shows the symmetry hypothesis is necessary."},
{"property": "C05", "status": "partial", "theorems": ["C05_ring_separation_refuted", "C05_block_separation_partial"], "note": "REFUTED: two adjacent Edge points on the two sides of a block boundary (witness: a 12-point ring, padding 1, 2 blocks). Proved: separation inside each block, blocks partition the ring interior."},
{"property": "C06", "status": "proved", "theorems": ["C06_features_clear_of_ends"], "note": "IEEE arithmetic; size+padding+2 < 2^31 and size*n_blocks <= 2^53."},
{"property": "C07", "status": "proved", "theorems": ["C07_blocks_partition", "C07_boundary_accuracy"], "note": "IEEE double arithmetic as in the code, for 0<=begin, end<2^31, end*n_blocks<=2^53 (true for every ring of fewer than 2^22 points and 2^31 blocks)."},
{"property": "C08", "status": "partial", "theorems": ["C08_nominal_width_refuted", "C08_width_within_one_partial", "C08_power_of_two_partial"], "note": "REFUTED: rounding of the boundary formula gives a block one point shorter than floor(w/n) (even an empty block, Example C08_empty_block). Proved instead: every block is within one of the nominal width, and exact for power-of-two block counts."},
{"property": "C09", "status": "proved", "theorems": ["C09_block_errors"], "note": ""},
{"property": "C10", "status": "proved", "theorems": ["C10_fill_from_left", "C10_fill_from_right", "C10_fill_neighbors", "C10_fill_errors", "C10_fill_neighbors_defined"], "note": ""},
{"property": "C100", "status": "partial", "theorems": ["C100_restart_refuted", "C100_first_partial"], "note": "REFUTED: height, roll and pitch after a later initial pose are a weighted mean with the old estimate and never the given values, unless they agreed before. Proved: the first pose is taken as it is. Position and heading do restart (C88_stays_put). Real arithmetic."},
{"property": "C101", "status": "partial", "theorems": ["C101_stays_zero_refuted", "C101_variance_partial"], "note": "REFUTED: only the process noise of the bias is switched off; its initial variance is 0.0001 in any case, and a history of two measurements and two ticks ends with a bias that is not zero, for every exact matrix inverse. Proved: the variance of the bias never exceeds its initial value. Real arithmetic."},
{"property": "C102", "status": "proved", "theorems": ["C102_measurements_help"], "note": "Real arithmetic; no measurement waits before the arrivals; distinct clock readings of ticks."},
{"property": "C103", "status": "partial", "theorems": ["C103_input_order_refuted", "C103_distinct_directions_partial", "C103_distinct_angles_partial", "C103_float_partial"], "note": "REFUTED: two returns of one beam, in the same direction at different distances, are ordered by their places in the message, and in one order the nearer one is an edge and in the other it is not, for every conforming sort (IEEE arithmetic). Proved: if no two points of a ring have the same direction the output is the same up to order, in any arithmetic; missing: rings with several returns in one direction."},
{"property": "C104", "status": "proved", "theorems": ["C104_map_origin"], "note": "Real arithmetic, for every matrix inverse and every sine, cosine and arctangent; also covers histories that end in an exception."},
{"property": "C105", "status": "proved", "theorems": ["C105_time_origin"], "note": "Real arithmetic; in doubles the time in seconds is rounded."},
{"property": "C106", "status": "partial", "theorems": ["C106_map_axes_refuted", "C106_initial_covariance_refuted", "C106_twists_partial"], "note": "REFUTED twice: headings are averaged without regard to the cut at pi, so a vehicle at rest with headings on both sides of the cut gets another heading when the axes are turned by half a turn; and the correlations of the initial pose are dropped, so turning the axes by 45 degrees changes the published covariance. Proved: for histories of initial poses with equal, uncorrelated position variances, twists and ticks everything published is turned. Missing: pose measurements away from the cut. Real arithmetic, every exact matrix inverse."},
{"property": "C107", "status": "partial", "theorems": ["C107_correlations_refuted", "C107_never_used_refuted", "C107_variances_partial"], "note": "REFUTED: only the variances of x, y and heading are used; with correlations in all messages erased everything published stays the same (for every history of complete initial poses), and a given covariance of 1/2 of x and y is published as 0. Proved: the variances of x, y and heading are taken over and grow by the motion. Real arithmetic."},
{"property": "C108", "status": "proved", "theorems": ["C108_pose_round_trip", "C108_message_round_trip"], "note": "Real arithmetic; tf2 may negate the quaternion."},
{"property": "C109", "status": "partial", "theorems": ["C109_distorted_refuted", "C109_distances", "C109_rigid_iff", "C109_undistorted_partial"], "note": "REFUTED: quaternions of messages are not normalised; with (1,0,0,1) two points a metre apart are more than two metres apart in the map. Proved: the exact change of all distances for every quaternion, that only unit quaternions (and those without vector part) keep distances, and that maps built from unit quaternions consist of undistorted scans. Real arithmetic."},
{"property": "C11", "status": "proved", "theorems": ["C11_occlusion_exact", "C11_occlusion_defined", "C11_out_of_range_exact", "C11_parallel_beam_exact"], "note": ""},
{"property": "C110", "status": "partial", "theorems": ["C110_standard_deviation", "C110_single_value_refuted", "C110_equal_values_refuted"], "note": "REFUTED for a single value: in doubles the result is not a number, for every finite value; three equal values (0.1) have a positive result. Proved for two or more values in real arithmetic."},
{"property": "C111", "status": "partial", "theorems": ["C111_origin_of_the_map_refuted", "C111_origin_of_the_map_partial", "C111_one_scan_partial"], "note": "REFUTED: planes are fitted as w.x = -1, whose least squares solution depends on where the origin is; for a map with two storeys a scan has error 0 with one origin and (56/319)^2 with the origin a metre lower, for every least squares solver. Proved: for whole histories of the node the shift of the origin shifts what is published and changes nothing else, for every edge map and for surface maps whose neighbourhoods lie in planes containing neither origin. Real arithmetic; the neighbour search is assumed not to depend on the origin."},
{"property": "C112", "status": "partial", "theorems": ["C112_mounting_direction_refuted", "C112_mounting_direction_partial"], "note": "REFUTED: rings are cut open behind the sensor and the margins at the cut carry no features, so an edge straight ahead disappears when the sensor looks backwards (half turn, exact in floats, any sort). Proved in real arithmetic: turning by any angle that takes no return past the cut turns everything published and changes nothing else, if no two returns of a ring have the same direction."},
{"property": "C113", "status": "proved", "theorems": ["C113_heights_do_not_matter"], "note": "Any arithmetic, any sort, all outcomes."},
{"property": "C114", "status": "proved", "theorems": ["C114_arrival_order"], "note": "Any arithmetic, orientation conversion and filter; all outcomes."},
{"property": "C115", "status": "proved", "theorems": ["C115_feature_order", "C115_one_scan"], "note": "Real arithmetic; for every map, search and solver. The voxel reduction is assumed to keep the same points whatever their order. In floating-point arithmetic sums depend on the order in the last digits."},
{"property": "C116", "status": "partial", "theorems": ["C116_map_order_refuted", "C116_map_order_partial", "C116_same_neighbors_partial"], "note": "REFUTED for maps with fewer points than the 15 that are searched for: unused index entries stay zero, so the first point of the map is counted several times; exchanging two points of a map changes the error of a scan from 0 to (27/40)^2, for every nearest-neighbour search and least squares solver. Proved: with enough points and no two equally far from the query every search finds the same points, and if the search finds the same points and the fitted planes are determined, whole histories give the same. Real arithmetic."},
{"property": "C117", "status": "partial", "theorems": ["C117_unset_type_refuted", "C117_read_as_double_refuted", "C117_rejected_partial"], "note": "REFUTED: type 0, the value of a field that was never set, is accepted and read as a double, because the list of types is indexed with -1. Proved: the converter raises on a step of zero, data that are no whole number of steps, fields of types above 8, and fields of known types that reach beyond the step."},
{"property": "C118", "status": "partial", "theorems": ["C118_opposite_slopes_refuted", "C118_turns_backwards_refuted", "C118_wrong_way_refuted", "C118_slopes_partial"], "note": "REFUTED: the optimiser keeps a quaternion across iterations, the problems convert the pose back to one; once the estimate crosses a branch of that conversion (e.g. a heading of -120 degrees) the two are opposite, every slope has the wrong sign in the turn (C118_opposite_slopes_refuted), the computed turn is reversed (C118_turns_backwards_refuted), and a run ends further from the truth than after its first step while it reports success (C118_wrong_way_refuted, for all solvers meeting their specifications). C118_slopes_partial: the slopes are those of the step or all those of the reversed turn; the former in the first iteration and while the scalar part is above 1/2. Real arithmetic."},
{"property": "C119", "status": "partial", "theorems": ["C119_axes_refuted", "C119_alignment_partial", "C119_localizer_partial", "C119_small_turns_partial"], "note": "REFUTED: for all solvers meeting their specifications, a run of two iterations from heading 0 meets a square turned by 90 degrees more closely than the same run told in axes turned by 225 degrees, because the latter crosses a branch of the conversion to quaternions (cf. C118). Proved: the whole results agree, failures included, for the alignment problem and for the localizer's problem, if the conversion gives corresponding quaternions at the estimates that the run passes, which holds while both orientations stay below 120 degrees (C119_small_turns_partial); for the localizer the search has to find the same points, and the neighbourhoods have one principal direction resp. determine a plane. Real arithmetic."},
{"property": "C12", "status": "partial", "theorems": ["C12_short_ring_safe_refuted", "C12_short_ring_fails"], "note": "REFUTED: for arrays with at most padding points the unsigned bound wraps and the query throws std::out_of_range; C12_short_ring_fails proves it for every such array whose adjacent points are neighbours-queryable. The callback avoids it by dropping rings with at most padding points."},
{"property": "C120", "status": "proved", "theorems": ["C120_left_right"], "note": "Exact arithmetic and the repository's time-delay filter, for every odd sine, even cosine, arctangent odd in its first argument (as atan2 of the C library is, which has signed zeros; the real arctangent is so except straight back, where it gives +180 degrees on both sides), exact matrix inversion and conversion of orientations that the mirror image negates in roll and yaw. All outcomes, failures included."},
{"property": "C121", "status": "partial", "theorems": ["C121_left_right_refuted", "C121_alignment_partial", "C121_localizer_partial", "C121_signs_partial"], "note": "REFUTED: for all solvers meeting their specifications, two iterations on a square that has to be turned by 90 degrees to the left from 225 degrees end in another place than the mirror image of the result for the mirrored square, which has to be turned to the right from 135 degrees: only the first run crosses a branch of the conversion to quaternions with another sign (cf. C118). Proved: the whole results are mirror images, failures included, for the alignment problem and for the localizer's problem, if the conversion treats all estimates of the run with the same sign; C121_signs_partial gives that sign for every orientation (in particular runs below 120 degrees qualify). For the localizer the search and the voxel reduction have to commute with the mirror, and the neighbourhoods have one principal direction resp. determine a plane. Real arithmetic."},
{"property": "C122", "status": "proved", "theorems": ["C122_share", "C122_forgotten", "C122_settles"], "note": "Real arithmetic; positive variances; any Kalman filter for x, y and yaw. The bound with the shares holds for all stamps, also equal or decreasing ones; the fixed factor is v/(v + (q gap)^2) for variances up to v, gaps of at least gap seconds, and q = 1 (height) or 1/10 (roll, pitch)."},
{"property": "C123", "status": "partial", "theorems": ["C123_left_right_refuted", "C123_left_right_partial"], "note": "REFUTED: binary64, for every conforming sort: five labelled points in two blocks are cut 2 + 3 from the right, so two neighbouring edges in different blocks are both published, and only one of them in the mirrored scan, where they share a block. Proved in real arithmetic, edges, surfaces and colours, both callbacks ending normally: scans without returns straight behind the sensor or in equal directions within a ring, whose long enough rings divide evenly into blocks and bend differently at different places."},
{"property": "C124", "status": "proved", "theorems": ["C124_alignment", "C124_localizer"], "note": "Real arithmetic; any Cholesky solver, eigenvalues, selection, principal direction and least-squares solver meeting their specifications; not degenerate: no eigenvalue below 0.1 in absolute value, the bound of the code; the initial error is at most half the largest double. The planes do not contain the origin of the map (cf. C93)."},
{"property": "C125", "status": "proved", "theorems": ["C125_plain", "C125_delay"], "note": "Real arithmetic, exact matrix inversion. Weights are compared by the variance of the error when the errors of estimate and measurement have the covariances the filter assumes and are uncorrelated; for the filter with delayed copies the statement is about the stacked state of all copies."},
{"property": "C126", "status": "proved", "theorems": ["C126_plain", "C126_delay", "C126_pose", "C126_twist"], "note": "Real arithmetic, exact matrix inversion. With r and r' the differences before and after and W the inverse of the measurement's covariance: 0 <= r'.W r' <= r'.W r <= r.W r, and r'.W r' < r.W r in the filters if r is not 0 and the measured quantities have a positive definite covariance. In the node the difference of headings is that of the numbers, not the shorter turn (cf. C82)."},
{"property": "C127", "status": "proved", "theorems": ["C127_plain", "C127_plain_together", "C127_delay", "C127_delay_together"], "note": "Real arithmetic, exact matrix inversion; all updates succeed because the noises are positive definite (C56)."},
{"property": "C128", "status": "partial", "theorems": ["C128_order_refuted", "C128_accepted_partial"], "note": "REFUTED: two poses one metre to the left and right of the estimate, gate 1.2: whichever comes first is accepted and narrows the gate for the other, which is rejected; the estimates end up a third of a metre to the left or to the right. Smoothing over two ticks, so that both messages are taken from the queue (with smoothing over one tick half of the messages stay in the queue, which is the first half of the arrival order). Proved in real arithmetic: if all messages are accepted when their turn comes, in both orders, the estimates and covariances are equal."},
{"property": "C129", "status": "proved", "theorems": ["C129_rings_by_direction", "C129_always_published"], "note": "IEEE arithmetic, bit-exact, for every acos. Ordinary size: zero or between 2^-60 and 2^60 in magnitude. The bound on the directions is on the sine of their difference, 2^-24; C20_strict_weak_order_rounding_refuted shows that some bound is needed."},
{"property": "C13", "status": "proved", "theorems": ["C13_features_clean"], "note": "For every arithmetic instance, sort and ring order."},
{"property": "C130", "status": "proved", "theorems": ["C130_curvature_accurate", "C130_clear_points_qualify", "C130_even_profile", "C130_edges_stand_out", "C130_surfaces_are_even"], "note": "IEEE double arithmetic, bit-exact, for every acos. The bend is a sum of real square roots (SpecAccuracy.v); -100 <= m <= 100 and 0 <= b <= 30. The bound on the surfaces asks for a finite surface threshold."},
{"property": "C131", "status": "proved", "theorems": ["C131_read_back", "C131_heading_of_pose", "C131_restart"], "note": "Exact arithmetic. tf2's getYaw and getRPY are external; assumed is that they give the angles of the rotation matrix for unit quaternions whose forward axis is not within 0.26 degrees of the vertical, and values in the usual ranges otherwise (reads_angles in SpecPublish.v). The restart theorem assumes that the callback accepts the message (which it does when the frame and the covariance are complete and the stamp is not negative, see C131_restart_case)."},
{"property": "C132", "status": "partial", "theorems": ["C132_upright_partial", "C132_inclination_partial", "C132_upside_down_refuted"], "note": "REFUTED: the roll is averaged as a plain number, so of two poses with rolls a and -a beyond a right angle, both upside down and as close to each other as one likes, the published pose is level and on its wheels. Proved: vehicles reported on their wheels are published on their wheels, and not more inclined than reported. Exact arithmetic; tf2's getRPY as in C131."},
{"property": "C133", "status": "partial", "theorems": ["C133_doubles_refuted", "C133_builds_up_refuted", "C133_unstable_refuted", "C133_below_90_partial", "C133_beyond_120_partial"], "note": "REFUTED: every update converts the rotation matrix to a quaternion and back without normalising it, which multiplies the error of the norm by tan^2 of half the angle. In IEEE doubles a localizer facing 100 degrees reports after 95 scans without features, each of them returning false, a pose that faces more than 25 degrees elsewhere and enlarges distances by more than 1.2. With exact arithmetic every excess of the norm, however small, builds up to an enlargement by seven percent. Proved (exact arithmetic): below 90 degrees errors die out geometrically, beyond 120 degrees nothing changes."},
{"property": "C134", "status": "partial", "theorems": ["C134_far_refuted", "C134_seven_millimetres_refuted", "C134_map_partial", "C134_accumulated_partial", "C134_near_the_origin_partial"], "note": "REFUTED: the map stores single precision, so a vehicle 2^k metres from the origin has points that are stored 2^(k-24) metres or more from where they belong, for every k up to 100; 7 mm at 131 km, a size usual for coordinates on a national grid. Proved for both orders of the sum and all decisions about key frames: every coordinate is stored within a relative error of 2^-24 and an absolute one of 2^(max(a+7,b)-48) for points up to 2^a and positions up to 2^b; within half a millimetre less than 8192 m from the origin."},
{"property": "C135", "status": "partial", "theorems": ["C135_no_information_refuted", "C135_parked_partial", "C135_no_features", "C135_degenerate"], "note": "REFUTED for the covariance: the lidar localizer publishes the pose it was given with a constant covariance also when the optimisation learnt nothing, and the filter takes its own prediction for an independent measurement; for every sound start and filter parameters one such scan between two ticks makes the published variance of x smaller than in the run without it. Proved for the pose: over all histories of the parked vehicle both nodes publish the initial pose. Scans without features and scans with a degenerate normal matrix are such scans."},
{"property": "C136", "status": "partial", "theorems": ["C136_localization", "C136_mapping", "C136_group_partial", "C136_namespace_refuted", "C136_odometry_refuted"], "note": "Proved for the localization and the mapping launch file started by themselves. REFUTED below a namespace: the localizer's scan_surface is not remapped, so in every proper namespace it never gets a surface scan, and the converter uses the absolute name /points_raw, which the rule for points_raw does not match there. REFUTED for the odometry launch file: the extraction reads the sensor directly instead of the converted points, and asks for reliable delivery, so that it gets nothing from a best-effort driver."},
{"property": "C137", "status": "partial", "theorems": ["C137_localizable_refuted", "C137_localizable_partial", "C137_nothing_mapped"], "note": "REFUTED: the mapping writes maps/edge.pcd only, the localization gives up with status -1 unless maps/surface.pcd exists too. With a surface map from elsewhere: it starts with the map built from the key frames."},
{"property": "C138", "status": "proved", "theorems": ["C138_pairs", "C138_every_scan", "C138_localizer", "C138_mapping", "C138_same_scan", "C138_at_most_once", "C138_in_order", "C138_adjacent", "C138_running_ahead"], "note": "The synchroniser is that of message_filters, written down from its documentation; queue sizes and streams are those of the repository. A scan without its partner message is dropped silently; if stamps go back (a recording played again), pairs arriving next to each other are still used."},
{"property": "C139", "status": "proved", "theorems": ["C139_in_order", "C139_own_features", "C139_every_scan"], "note": "Composes the extraction callback, the messages it publishes, the synchroniser, the store of priors and the localization callback. The first two hold for any arithmetic, the third for IEEE doubles in the localizer. The optimisation is a parameter (modelled in LocModel and OptModel, C39-C49); the network is any order-preserving, lossy delivery per topic. Growing stamps are needed: with two scans of one stamp the edge points of one and the surface points of the other are combined (Example C139_equal_stamps)."},
{"property": "C14", "status": "proved", "theorems": ["C14_duplicate_free_subset"], "note": ""},
{"property": "C140", "status": "proved", "theorems": ["C140_own_pose", "C140_map", "C140_covered", "C140_saved"], "note": "Composes the synchroniser, the conversion of pose messages and the map builder. Real arithmetic; orientations are unit quaternions (what happens otherwise is C109). The condition on the angle is stated with the inner product of the quaternions and shown to be the code's test on the relative rotation."},
{"property": "C141", "status": "partial", "theorems": ["C141_raised", "C141_true", "C141_some_line_partial", "C141_only_reason_partial", "C141_every_time_partial", "C141_masked_refuted", "C141_backwards_refuted"], "note": "REFUTED: all throttled warnings share one time of the last line, so measurements stamped slightly ahead of the clock and rejected by the gate produce, for ever, only the line about the stamp; after the clock is set back nothing throttled is written until it has caught up. Proved: every drop raises a warning for a true reason, every line is true, some line was written in the last two seconds, with the reason if no other was raised, and values that are not finite or updates that fail are reported every time."},
{"property": "C142", "status": "proved", "theorems": ["C142_measured", "C142_map", "C142_covered"], "note": "Composes the extraction process (C139) with the mapping process (C140). Extraction in any arithmetic of the model, IEEE included; the mapping in real arithmetic on the values of the coordinates; orientations are unit quaternions (otherwise C109). The edge messages are assumed to arrive in order, some possibly lost."},
{"property": "C143", "status": "partial", "theorems": ["C143_returns_partial", "C143_published_partial", "C143_shutdown_refuted", "C143_invalid_refuted"], "note": "REFUTED: the converter declares every output as dense and keeps returns with NaN coordinates, so behind it the extraction never asks for the shutdown, and one NaN return in a ring with two ordinary ones in different directions to the left makes the comparison given to std::sort no strict weak ordering, which is undefined behaviour. Proved, for the layouts of C75: the extraction works on exactly the returns that are not at the origin, with their values, and publishes features when these are ordinary finite points; other layouts are not covered."},
{"property": "C144", "status": "partial", "theorems": ["C144_measured_partial", "C144_map_partial", "C144_covered_partial", "C144_malformed_refuted"], "note": "REFUTED: a message that does not match its announced layout raises in the callback, the exception leaves rclpy.spin and main, so that nothing the sensor sends afterwards is ever converted. Proved for sequences of messages with the layouts of C75: the points of the map are returns of the sensor, each at most once, placed by the pose with the stamp of their message, and every message whose features and pose arrive is represented. Other layouts are not covered."},
{"property": "C145", "status": "partial", "theorems": ["C145_in_order_partial", "C145_own_returns_partial", "C145_every_message_partial", "C145_malformed_refuted"], "note": "REFUTED: after a message that does not match its announced layout no pose is published for anything the sensor sends (the converter has ended, C144). Proved for messages with the layouts of C75: order, own returns, and exactly one pose per message when nothing is lost and the returns are valid and told apart by single precision (with a NaN the extraction is undefined, C143). The optimisation is a parameter, as in C139."},
{"property": "C146", "status": "partial", "theorems": ["C146_packed_rows_partial", "C146_row_padding_refuted"], "note": "REFUTED: height, width and row_step are not looked at; padding between the rows of the size of some points is converted as points, other padding shifts all following points or raises (C117). Proved: rows without padding and as many bytes as announced give exactly the announced points that are not at the origin."},
{"property": "C147", "status": "partial", "theorems": ["C147_vectors_partial", "C147_matrices_partial", "C147_large_refuted", "C147_points_partial", "C147_points_out_partial", "C147_round_trip_partial"], "note": "REFUTED: HorizontalStack computes the row in an unsigned int, so beyond 2^32 rows it overwrites the first matrices and leaves the last rows indeterminate. Proved up to 2^32 rows, and the rest of the statement (fewer than 2^32 elements, where the loop counter does not wrap; all NaNs are one NaN)."},
{"property": "C148", "status": "proved", "theorems": ["C148_xyzcr", "C148_xyzcr_xyz", "C148_xyz"], "note": "All NaNs are one NaN in Flocq's BinarySingleNaN; Eigen's assignment of a vector to a row is modelled by its effect and its assertions."},
{"property": "C149", "status": "proved", "theorems": ["C149_lines", "C149_last_width", "C149_last_color", "C149_rejected", "C149_unset"], "note": "For builds with assertions (without NDEBUG); the members of a new message are zero, as rosidl initialises them."},
{"property": "C15", "status": "proved", "theorems": ["C15_ring_isolation", "C15_publication_happens"], "note": ""},
{"property": "C16", "status": "partial", "theorems": ["C16_never_escapes_refuted", "C16_finite_clouds_partial"], "note": "REFUTED: a NaN point leads to std::sort with a comparator that is no strict weak order (undefined behaviour). Proved: normal termination for all clouds with finite x, y."},
{"property": "C17", "status": "partial", "theorems": ["C17_long_ring_contributes_refuted", "C17_three_points_per_block_partial"], "note": "REFUTED: padding 7, 13 blocks, 40 points; rounding leaves one point in a block and the ring is discarded. Proved with 3 points per block."},
{"property": "C18", "status": "proved", "theorems": ["C18_ring_order_independent"], "note": ""},
{"property": "C19", "status": "partial", "theorems": ["C19_comparator_is_atan2_refuted", "C19_comparator_off_axis_partial", "C19_atan2_is_polar_angle", "C19_float_partial"], "note": "REFUTED: two distinct points on the positive x axis are each reported smaller than the other. Proved: equal to atan2 < atan2 in every other case (exact arithmetic); and bit-exactly in single precision for ordinary coordinates if the directions are equal, opposite or differ by an angle with sine above 2^-24."},
{"property": "C20", "status": "partial", "theorems": ["C20_strict_weak_order_refuted", "C20_strict_weak_order_rounding_refuted", "C20_strict_weak_order_exact_partial", "C20_float_partial"], "note": "REFUTED twice: two points on the positive x axis; and, by float rounding of the determinant, three points of the open first quadrant. Proved: strict weak order in exact arithmetic with at most one point on the positive x axis; and in single precision on the rings of well resolved scans (see C129)."},
{"property": "C21", "status": "proved", "theorems": ["C21_rings_partition", "C21_rings_angle_sorted", "C21_sparse_rings"], "note": "Partition for every arithmetic; order by atan2 in exact arithmetic, by the comparator in float arithmetic."},
{"property": "C22", "status": "partial", "theorems": ["C22_neighbour_of_copy_refuted", "C22_same_direction_exact_partial"], "note": "REFUTED: for every acos returning NaN above 1, (2,3) is not a neighbour of its copy (computed cosine 1+2^-52). Proved in exact arithmetic."},
{"property": "C23", "status": "proved", "theorems": ["C23_neighbour_symmetric"], "note": "IEEE doubles, any acos."},
{"property": "C24", "status": "proved", "theorems": ["C24_convolution", "C24_window_sum_exact"], "note": ""},
{"property": "C25", "status": "proved", "theorems": ["C25_curvature_value", "C25_nonnegative", "C25_shift_invariant", "C25_zero_on_progression", "C25_quadratic_scaling", "C25_reversal", "C25_nonnegative_double"], "note": "Exact arithmetic, as the property says; for finite coordinates non-negativity also in double arithmetic (C25_nonnegative_double, where every curvature is moreover finite). For the others in double arithmetic see C130."},
{"property": "C26", "status": "partial", "theorems": ["C26_range_interval_refuted", "C26_range_from_zero_partial"], "note": "REFUTED: Range(begin,end) ignores begin. Proved for begin = 0, the only use in the package."},
{"property": "C27", "status": "partial", "theorems": ["C27_colours_distinguish_refuted", "C27_colours_up_to_edge_surface_partial"], "note": "REFUTED: Edge/Surface and EdgeNeighbor/SurfaceNeighbor share colours."},
{"property": "C28", "status": "partial", "theorems": ["C28_value_colour_refuted", "C28_value_colour_zero_min_partial"], "note": "REFUTED: min is not subtracted (value = min gives 255, value = max is undefined on [1,2]). Proved for min = 0 in exact arithmetic."},
{"property": "C29", "status": "partial", "theorems": ["C29_median_middle", "C29_median_halves", "C29_median_double", "C29_median_double_halves_partial", "C29_median_overflow_refuted"], "note": "REFUTED for doubles above 2^1022: the median of (max,max) is infinite because the two middle elements are added before halving. Proved in exact arithmetic for all data and every conforming nth_element, and in bit-exact doubles for NaN-free data bounded by 2^1022 (rounding included)."},
{"property": "C30", "status": "proved", "theorems": ["C30_indices_by_value", "C30_by_indices", "C30_out_of_range", "C30_value_view"], "note": "Generic in the element type."},
{"property": "C31", "status": "proved", "theorems": ["C31_permutation", "C31_sorted_double", "C31_sorted_real"], "note": "Permutation for all doubles incl. NaN; ordered for all non-NaN doubles and for reals."},
{"property": "C32", "status": "proved", "theorems": ["C32_matrix_round_trip", "C32_array_round_trip", "C32_row_major"], "note": "Generic in the entry type."},
{"property": "C33", "status": "proved", "theorems": ["C33_each_index_once"], "note": "std::shuffle is any function returning a permutation of its argument."},
{"property": "C34", "status": "proved", "theorems": ["C34_closest_exact", "C34_closest_double", "C34_empty"], "note": "Exact arithmetic without restriction; IEEE doubles for finite stamps up to 2^64 in magnitude. On the empty store the call is undefined (precondition)."},
{"property": "C35", "status": "partial", "theorems": ["C35_remove_older_refuted", "C35_removes_newer_partial"], "note": "REFUTED: RemoveOlderThan removes the newer entries and is undefined when all entries are newer; the exact effect is proved for all stores."},
{"property": "C36", "status": "partial", "theorems": ["C36_priors_never_forgotten_refuted", "C36_memory_grows_refuted"], "note": "REFUTED: in every history a prior not later than the scans that follow it is kept for ever; for every k there is an ordinary drive with k stored priors."},
{"property": "C37", "status": "partial", "theorems": ["C37_publication_partial", "C37_defined_iff_partial", "C37_defined_partial", "C37_starts_from_closest_partial", "C37_undefined_refuted", "C37_starts_from_closest_refuted"], "note": "REFUTED in part: a prior more than a second ahead of a scan leads to undefined behaviour or is forgotten. Proved for all histories: one pose and one transform per answered scan while defined, the exact condition for definedness, and start from the closest prior when no prior was ever more than a second ahead of a scan. The optimisation itself is a parameter."},
{"property": "C38", "status": "partial", "theorems": ["C38_stamps_distinguished_refuted", "C38_stamps_far_apart_partial"], "note": "REFUTED: stamps are converted to double and collapse; proved distinct and ordered when more than 256 ns apart (below 2^61 ns)."},
{"property": "C39", "status": "proved", "theorems": ["C39_verdict", "C39_defined"], "note": "Every arithmetic (IEEE doubles included), every problem, every update function. C39_verdict characterises each of the five messages by the measured errors, scales and steps; the linear algebra inside the step is a parameter here (see C40, C79)."},
{"property": "C40", "status": "partial", "theorems": ["C40_error_increases_refuted", "C40_alignment_refuted", "C40_returns_the_worse_refuted", "C40_scale_stop_partial", "C39_verdict"], "note": "REFUTED: for the point alignment, a run from the position of least error (24) ends with success = true at a pose of error 26.88 (C40_alignment_refuted); every run stopped by LargerErrorThanPrevious after its first iteration succeeds with a pose strictly worse than one it has visited (C40_returns_the_worse_refuted); with a discontinuous problem the error quadruples. Proved instead: a run stopped by the scale is no worse than its start (C40_scale_stop_partial), and errors and scales of the accepted iterations never increase (C39_verdict)."},
{"property": "C41", "status": "partial", "theorems": ["C41_degenerate_succeeds_refuted"], "note": "REFUTED for every degenerate problem: a zero step is returned and judged converged, so the run reports success at the initial pose."},
{"property": "C42", "status": "proved", "theorems": ["C42_huber_derivative", "C42_huber_bounds", "C42_weight_bounds"], "note": "Real arithmetic, as the property states."},
{"property": "C43", "status": "proved", "theorems": ["C43_majorisation", "C43_weighted_descent"], "note": "Real arithmetic."},
{"property": "C44", "status": "proved", "theorems": ["C44_mad_affine", "C44_scale_affine", "C44_empty", "C44_mad_is_median_of_deviations"], "note": "Exact arithmetic, every conforming nth_element (a different one may be used on each call)."},
{"property": "C45", "status": "proved", "theorems": ["C45_drpdq_is_derivative", "C45_sandwich_is_rotation"], "note": "Real arithmetic."},
{"property": "C46", "status": "proved", "theorems": ["C46_multiplication_matrices", "C46_hat", "C46_wxyz", "C46_rpy", "C46_matrix_quaternion_round_trip"], "note": "Real arithmetic. Eigen's matrix-to-quaternion conversion is modelled with its branches."},
{"property": "C47", "status": "proved", "theorems": ["C47_increment_unit", "C47_increment_angle", "C47_pose_stays_rotation"], "note": "Real arithmetic (rounding drift of the quaternion is not covered)."},
{"property": "C48", "status": "proved", "theorems": ["C48_edge_zero_iff_on_line", "C48_edge_norm", "C48_surface_zero_iff_on_plane", "C48_surface_is_distance", "C48_edge_jacobian", "C48_surface_jacobian", "C48_alignment_jacobian"], "note": "Real arithmetic."},
{"property": "C49", "status": "proved", "theorems": ["C49_aligned", "C49_empty", "C49_alignment"], "note": "Line, plane and downsampling results are parameters."},
{"property": "C50", "status": "partial", "theorems": ["C50_distinct_partial", "C50_duplicates_refuted", "C50_empty_map_refuted"], "note": "REFUTED for maps smaller than k: the search fills up with copies of point 0 (and asserts on the empty map). Proved for maps of at least k points, given that nanoflann finds min(k, size) distinct indices."},
{"property": "C51", "status": "proved", "theorems": ["C51_recent", "C51_all", "C51_append_only", "C51_dense", "C51_negative_undefined"], "note": "pcl's transform and += are modelled as map and append. n >= 0; negative n is undefined behaviour (C51_negative_undefined), the package uses positive constants."},
{"property": "C52", "status": "proved", "theorems": ["C52_each_scan_once", "C52_defined"], "note": "The pose updater is a parameter; the map is PointCloudMap."},
{"property": "C53", "status": "partial", "theorems": ["C53_failed_update_moves_refuted", "C53_empty_problem_partial"], "note": "REFUTED: an update that returns false (iteration limit) moves the pose. Proved: an update failing because there are no features leaves it."},
{"property": "C54", "status": "proved", "theorems": ["C54_key_frames"], "note": "Real arithmetic, rotation matrices; for every value of the uninitialised previous pose. The rotation threshold is on the sine of half the angle."},
{"property": "C55", "status": "proved", "theorems": ["C55_saved_iff", "C55_accumulated"], "note": "What pcl::io::save is given; its own failure (e.g. missing directory) is ignored by the code and not modelled."},
{"property": "C56", "status": "proved", "theorems": ["C56_plain", "C56_delay"], "note": "Exact arithmetic; every exact matrix inverse (Eigen's inverse is a parameter constrained to invert invertible matrices)."},
{"property": "C57", "status": "proved", "theorems": ["C57_predict", "C57_update", "C57_plain", "C57_elements"], "note": "Exact arithmetic; measurement covariance positive definite."},
{"property": "C58", "status": "proved", "theorems": ["C58_history", "C58_shift", "C58_outside"], "note": "Any arithmetic; every history of predictions and updates."},
{"property": "C59", "status": "proved", "theorems": ["C59_delay", "C59_too_late", "C59_plain", "C59_finite_gain", "C59_plain_finite_gain"], "note": "Any arithmetic, including NaN gains."},
{"property": "C60", "status": "proved", "theorems": ["C60_deliveries", "C60_exactly_max_age", "C60_drains", "C60_ages", "C60_round_robin", "C60_pop_empty"], "note": "All histories of pushes and pops (distinct messages); popping an empty queue is undefined behaviour."},
{"property": "C61", "status": "partial", "theorems": ["C61_skipped_refuted", "C61_last_turn_refuted", "C61_front_half_partial", "C61_all_partial"], "note": "REFUTED: the loop compares a growing index with the shrinking queue, so messages are skipped whenever others are in their last turn (always with smoothing_steps = 1). Proved: a prefix of at least half the queue is handled, in order, and all of it if no message is in its last turn."},
{"property": "C62", "status": "proved", "theorems": ["C62_total", "C62_drains", "C62_no_starvation", "C62_recording", "C62_pose_instance", "C62_twist_instance"], "note": "Every history of arrivals and cycles and every handler that returns; distinct messages, smoothing_steps >= 1. 'Handed to the filter' includes messages the handler then rejects (delay, NaN, gate)."},
{"property": "C63", "status": "proved", "theorems": ["C63_plain", "C63_delay", "C63_pose_covariance_scaled", "C63_twist_covariance_scaled"], "note": "Exact arithmetic, for a state that does not move between the fusions."},
{"property": "C64", "status": "partial", "theorems": ["C64_pose_refuted", "C64_twist_refuted"], "note": "REFUTED: the frame check only warns; whatever a message in the expected frame does, the same message in any other frame does too (every arithmetic, every filter)."},
{"property": "C65", "status": "partial", "theorems": ["C65_same_time_refuted", "C65_collapsing_clock_refuted", "C65_bounds_partial", "C65_clock_partial", "C65_backwards", "C65_is_elapsed_time"], "note": "REFUTED: two calls at the same time (in doubles: clock readings up to about 200 ns apart) return dt = 0. IEEE doubles: 0 < dt <= 10 proved when time advanced, e.g. by two microseconds; backwards time raises and changes nothing. Exact arithmetic: dt is the elapsed time, at most 10 s."},
{"property": "C66", "status": "partial", "theorems": ["C66_nearest_exact", "C66_monotone_exact", "C66_defined_exact", "C66_ieee", "C66_ieee_defined_partial", "C66_stale_refuted", "C66_zero_interval_refuted", "C66_pose_fused_inside", "C66_twist_fused_inside"], "note": "REFUTED in part: the conversion to int is undefined for old stamps (e.g. stamp 0) and for dt = 0. Otherwise proved for IEEE (with the float rounding of roundf) and exactly."},
{"property": "C67", "status": "proved", "theorems": ["C67_normalized", "C67_predicted"], "note": "Real arithmetic."},
{"property": "C68", "status": "proved", "theorems": ["C68_jacobian", "C68_jacobian_normalized"], "note": "Real arithmetic; with the normalisation wherever the next yaw is not pi."},
{"property": "C69", "status": "proved", "theorems": ["C69_pose_round_trip", "C69_twist_round_trip", "C69_pose_layout", "C69_twist_layout"], "note": "IEEE doubles bit for bit (one NaN), with smoothing_steps = 1; the layout in any arithmetic."},
{"property": "C70", "status": "proved", "theorems": ["C70_uninitialised", "C70_between", "C70_variance", "C70_weighted", "C70_weighted_mean"], "note": "Real arithmetic, positive deviations. With a zero variance twice at one stamp the filter becomes NaN (C70_zero_variance_refuted)."},
{"property": "C71", "status": "proved", "theorems": ["C71_protocol", "C71_silent_before_initial_pose", "C71_backwards_unchanged", "C71_initial_pose_clears"], "note": "Any arithmetic, any filter and parameters; every history all of whose callbacks return (C81 is about when they do)."},
{"property": "C72", "status": "partial", "theorems": ["C72_empty_refuted", "C72_nonempty_partial", "C72_idempotent_partial"], "note": "REFUTED for the empty string (front() of an empty string is undefined behaviour); proved for all others. '//map' is shortened twice when applied twice."},
{"property": "C73", "status": "proved", "theorems": ["C73_gate", "C73_singular"], "note": "Exact arithmetic; a singular covariance is shown separately."},
{"property": "C74", "status": "proved", "theorems": ["C74_path", "C74_one_per_pose", "C74_covariance_ignored"], "note": ""},
{"property": "C75", "status": "partial", "theorems": ["C75_converted_partial", "C75_row_step_partial", "C75_ring_refuted", "C75_packed_raises_refuted", "C75_swapped_raises_refuted"], "note": "REFUTED: the node inserts a 4 byte padding field at offset 12 whatever the input layout, so a well-formed cloud whose intensity is at 12 is published with the ring read from the wrong bytes (or the callback raises), and a cloud with ring before intensity raises. The _partial theorems prove the full claim, all bytes and both byte orders, for every layout with bytes 12..15 free and intensity before ring. Signalling NaN payloads (changed by CPython) are not modelled."},
{"property": "C76", "status": "proved", "theorems": ["C76_format_size", "C76_sorted_format_size", "C76_values_at_offsets", "C76_stored_unique", "C76_round_trip", "C76_packed_in_range"], "note": "All field lists, values and both byte orders. The struct module is modelled at byte level."},
{"property": "C77", "status": "partial", "theorems": ["C77_empty_map_refuted", "C77_centroid_partial", "C77_moves_along_partial", "C77_doubles_partial"], "note": "REFUTED for the empty map: the transform has NaN translation. Proved for 1..2^32-1 points in exact arithmetic; in IEEE doubles within 2^(m+b-52) of the centroid for up to 2^b points with coordinates up to 2^m."},
{"property": "C78", "status": "partial", "theorems": ["C78_unreadable_published_refuted", "C78_published_once"], "note": "REFUTED in part: the return code of loadPCDFile is dropped, a file that cannot be read is published as a map. Proved: empty name rejected, otherwise exactly one message with frame map and the loaded content."},
{"property": "C79", "status": "proved", "theorems": ["C79_edge", "C79_surface", "C79_alignment", "C79_increment"], "note": "Real arithmetic: Jacobian times M is the derivative of the code's residuals along the motions the optimiser applies, when both are computed from the same quaternion; the optimiser may hold its opposite, see C118."},
{"property": "C80", "status": "proved", "theorems": ["C80_late_fusion", "C80_commute"], "note": "Exact arithmetic, linear motion model x -> F x + b with noise Q per tick."},
{"property": "C81", "status": "partial", "theorems": ["C81_no_transform_refuted", "C81_empty_frame_refuted", "C81_negative_stamp_refuted", "C81_defined_partial"], "note": "REFUTED: an initial pose whose TF lookup fails is undefined behaviour in every state (the error is only logged, then the empty optional is dereferenced), so is an empty frame name; a negative stamp throws out of the callback; see also C65, C66. Proved: every history with ticks at least g apart, stamps within 2^30 g, non-empty frames and available TF is defined, with the repository's time-delay filter, exact arithmetic."},
{"property": "C82", "status": "partial", "theorems": ["C82_opposite_heading_refuted", "C82_shorter_turn_partial"], "note": "REFUTED: the innovation is the plain difference of the angles, so for every a in (0, pi) an estimate a and a measurement -a of equal certainty give heading 0, the opposite direction when a is near pi. Proved: correct whenever the represented angles differ by less than pi. Exact arithmetic."},
{"property": "C83", "status": "partial", "theorems": ["C83_quarter_turn_refuted", "C83_rotation_ignored_refuted", "C83_height_refuted", "C83_unrotated_partial"], "note": "REFUTED: only the translation is added to the position, the frame's rotation is applied to the heading alone, and the height ignores the transform. Proved for frames that are not rotated."},
{"property": "C84", "status": "partial", "theorems": ["C84_delayed_outlier_refuted", "C84_no_delay_partial"], "note": "REFUTED: the gate of a delayed measurement uses the newest covariance; witness: an outlier of three standard deviations at its time passes a gate of two. Proved without delay."},
{"property": "C85", "status": "partial", "theorems": ["C85_strong_points_represented_refuted", "C85_candidates_represented_partial"], "note": "REFUTED: labels are assigned before the validity checks, so a foreground corner is suppressed by the wall point next to it, whose curvature is larger, and the wall point is then discarded as occluded: no edge is published (bit-exact witness of 12 points). Proved: every candidate is represented by an Edge (Surface) point or by a candidate that fails a check. IEEE arithmetic, any sort."},
{"property": "C86", "status": "proved", "theorems": ["C86_shutdown_exactly_when_unusable"], "note": "Any arithmetic; every message on which the callback returns."},
{"property": "C87", "status": "proved", "theorems": ["C87_step_minimises", "C87_run_steps_minimise", "C87_run"], "note": "C87_run: a whole run is a sequence of such steps from the initial pose, with the constants 1.4826..., 1.345, 0.1 and 1e-8 written out and the scale given by medians. Exact arithmetic; Eigen's Cholesky solver and eigenvalues are parameters that solve positive definite systems and contain the smallest eigenvalue. Examples show that such solvers exist. The linearised residuals are those of the given Jacobians; whether these are the slopes at the current estimate is C118."},
{"property": "C88", "status": "proved", "theorems": ["C88_dead_reckoning", "C88_stays_put"], "note": "Real arithmetic; ticks at advancing clock readings; covariances of the messages positive definite."},
{"property": "C89", "status": "proved", "theorems": ["C89_pose", "C89_twist", "C89_not_finite"], "note": "Real arithmetic with an exact matrix inverse; IEEE doubles for values that are not finite. The gate uses the newest covariance (see C84) and the unwrapped difference of headings (see C82)."},
{"property": "C90", "status": "proved", "theorems": ["C90_tick", "C90_arrival"], "note": "Real arithmetic; every history whose tick clock readings are distinct."},
{"property": "C91", "status": "proved", "theorems": ["C91_covariances"], "note": "Real arithmetic; every history whose tick clock readings are distinct and whose messages carry regular covariances."},
{"property": "C92", "status": "proved", "theorems": ["C92_best_line", "C92_mean_and_covariance", "C92_no_points", "C92_found_line", "C92_edge_distance"], "note": "Real arithmetic; the eigenvector of Eigen is a parameter that maximises the quadratic form of this covariance on the unit sphere."},
{"property": "C93", "status": "partial", "theorems": ["C93_through_origin_refuted", "C93_fitted_plane_refuted", "C93_least_squares", "C93_exact_plane_partial"], "note": "REFUTED: planes are represented as w.x + 1 = 0, which excludes planes through the origin of the map, for example the ground z = 0: whatever the solver returns is not the plane of the neighbours, and the linear system is singular. Proved: least squares, and the exact plane and distance for all other planes. Real arithmetic; the QR solver is a parameter that minimises the misfit when the unknowns are determined."},
{"property": "C94", "status": "proved", "theorems": ["C94_exact_scan", "C94_exact_alignment"], "note": "Real arithmetic; solvers as parameters with their specifications (principal direction, least squares, Cholesky, smallest eigenvalue, nth_element). Covers degenerate and regular problems."},
{"property": "C95", "status": "proved", "theorems": ["C95_coefficient_jacobian", "C95_lengths"], "note": "Real arithmetic."},
{"property": "C96", "status": "proved", "theorems": ["C96_reliable", "C96_along_plane", "C96_filter"], "note": "Real arithmetic for the first two."},
{"property": "C97", "status": "partial", "theorems": ["C97_value_refuted", "C97_variance_refuted", "C97_repeated_refuted", "C97_finite_partial"], "note": "REFUTED: a single pose whose height (roll, pitch) is NaN, a negative variance, or two poses of one stamp with variance zero make every later published height (roll, pitch) NaN, even after a new initial pose, for every history and every main filter. Proved: if all poses are of moderate size with variances in [2^-200, 2^200], everything published is finite. IEEE doubles."},
{"property": "C98", "status": "proved", "theorems": ["C98_textbook", "C98_between"], "note": "Real arithmetic; positive variances."},
{"property": "C99", "status": "partial", "theorems": ["C99_rejected_pose_counts_refuted"], "note": "REFUTED: a pose that is too old for the main filter leaves position and heading as they are but moves height, roll and pitch, for every history with no other waiting pose. That rejected poses do not change the main filter is part of C89. Real arithmetic, every main filter."}
]}
