{"id": "C01", "title": "Map feature ids are never zero and never shared", "statement": "Every feature stored in a feature map (staged or local) has a non-zero identifier; two distinct stored features never have the same identifier; a feature promoted from the staged map to the local map keeps its identifier; no identifier is handed out twice during a run of fewer than 2^64-1 allocations.", "quantifier": "all finite histories of frames (matches, failures, additions, promotions, removals, outlier marks, resets) on a feature map", "why_tests_cant": "the clash only shows after an arbitrary history of promotions, removals and re-additions; a test sees a handful of histories", "anchors": ["src/map_management/feature_map.hpp: MapIdAllocator::get_new_id", "src/map_management/feature_map.hpp: Feature_Map::add_detected_feature_to_staged_map, update_staged_map, add_to_local_map"]}
{"id": "C02", "title": "A tracked map feature survives until it misses enough frames in a row", "statement": "A feature of the local map leaves it only at an update in which its count of consecutive unmatched updates since its last successful match exceeds the loss limit of its kind (more than 10 for points and 2D points, at least 10 for planes); one successful match resets the count; until then it stays in the map.", "quantifier": "all update histories of a local map feature, of any length", "why_tests_cant": "the statement is about unbounded histories of hits and misses in any order", "anchors": ["src/map_management/feature_map.hpp: update_local_map, update_local_map_with_no_tracking, IMapFeature::update_matched/update_unmatched", "src/map_management/map_features/map_point.cpp: LocalMapPoint::is_lost", "src/map_management/map_features/map_primitive.cpp: LocalMapPlane::is_lost"]}
{"id": "C03", "title": "Only repeatedly confirmed detections enter the local map", "statement": "A staged point is promoted to the local map only once its successful matches exceed its failed ones by at least 3 (4 for planes); a staged point is dropped as soon as that balance reaches zero or less, a staged plane at its second consecutive miss; otherwise it stays staged.", "quantifier": "all match/miss histories of a staged feature", "why_tests_cant": "unbounded histories; the promotion and removal tests interact in an order-dependent way", "anchors": ["src/map_management/map_features/map_point.cpp: StagedMapPoint", "src/map_management/map_features/map_primitive.cpp: StagedMapPlane", "src/map_management/feature_map.hpp: update_staged_map"]}
{"id": "C04", "title": "Each map feature is written to the output file at most once, and none of the surviving ones is forgotten", "statement": "Over a whole run ended by destruction of the map, each identifier is written at most once; every feature that is in the local map when the map is destroyed is written; a local feature that is lost is written at that moment unless it is moving.", "quantifier": "all histories of a feature map followed by its destruction", "why_tests_cant": "requires relating the whole output trace to the whole history", "anchors": ["src/map_management/feature_map.hpp: destroy, update_local_map, update_local_map_with_no_tracking, reset", "src/map_management/local_map.hpp: ~Local_Map"]}
{"id": "C05", "title": "Every detection of a frame is accounted for exactly once", "statement": "After a map update, a detected feature that was used by a match of the local or staged map is not also added as a new staged feature, and every detected feature that was not used and that can be added to this map is added as exactly one new staged feature.", "quantifier": "all detected feature sets, match sets and map states", "why_tests_cant": "quantifies over every combination of matched, failed and unmatched detections", "anchors": ["src/map_management/feature_map.hpp: update_map, add_features_to_staged_map", "src/map_management/local_map.hpp: update"]}
{"id": "C06", "title": "Two map features never claim the same detection", "statement": "During one matching of a feature map, no detected feature is reported as matched to two different features of that map. (Maps of different kinds do not share this guarantee: a 3D point and a 2D point can claim the same keypoint.)", "quantifier": "all map contents and detections", "why_tests_cant": "depends on the interplay of all matched features of a frame", "anchors": ["src/map_management/feature_map.hpp: get_matches", "src/map_management/map_features/map_point.cpp: MapPoint::find_matches", "src/features/keypoints/keypoint_handler.cpp: get_tracking_match_index, get_match_indexes"]}
{"id": "C07", "title": "A map update always returns", "statement": "Updating the map always returns when the construction of a promoted local feature succeeds. (A failing construction can be retried for ever: the update then never returns.)", "quantifier": "all staged maps and all outcomes of the feature constructors", "why_tests_cant": "non-termination cannot be observed by a finite test, and the failing branch is rare", "anchors": ["src/map_management/feature_map.hpp: update_staged_map"]}
{"id": "C08", "title": "Rejected updates leave the map unchanged", "statement": "Updating the map with an invalid pose covariance reports an error and changes neither the staged nor the local features of any kind, nor their counters, nor the output file; a deactivated map kind is never changed by matching, updates, additions, outlier marks or resets. (Feature upgrades are the exception: they do add features to a deactivated map.)", "quantifier": "all map states and all update arguments", "why_tests_cant": "must hold for every reachable map state", "anchors": ["src/map_management/local_map.hpp: update", "src/map_management/feature_map.hpp: update_map, update_with_no_tracking"]}
{"id": "C09", "title": "Marking an outlier affects exactly that feature", "statement": "Marking the feature with a given identifier as unmatched frees the detected feature it claimed, removes the claim, and changes no other feature and no other detection; marking identifier 0 or an unknown feature changes nothing and reports false; marking a feature without any claim changes nothing.", "quantifier": "all map states and identifiers", "why_tests_cant": "frame condition over every other feature of an arbitrary map", "anchors": ["src/map_management/feature_map.hpp: mark_feature_with_id_as_unmatched, mark_outliers_as_unmatched"]}
{"id": "C10", "title": "The reported pose only moves on a successful optimisation", "statement": "The pose returned for a frame equals the previous one unless the pose optimisation of that frame succeeded, in which case it is the optimised pose; the first frame never moves the pose.", "quantifier": "all sequences of frames and all optimiser, map and covariance outcomes", "why_tests_cant": "sequence property over arbitrarily many frames and failures", "anchors": ["src/rgbd_slam.cpp: RGBD_SLAM::compute_new_pose, track"]}
{"id": "C11", "title": "Tracking is declared lost after exactly more than three failed frames in a row", "statement": "Tracking starts lost; after the first frame it is lost exactly when no frame has succeeded since at least four consecutive failures, a success always clears it, and the first failed frame after initialisation clears the initial lost state.", "quantifier": "all sequences of frame outcomes", "why_tests_cant": "unbounded sequence of outcomes", "anchors": ["src/rgbd_slam.cpp: RGBD_SLAM::compute_new_pose", "src/parameters.hpp"]}
{"id": "C12", "title": "Keypoints are fully re-detected at least every five frames", "statement": "A full keypoint detection is requested on the first frame, then on every fifth frame, and on every frame processed while tracking is lost; among any five consecutive frames at least one requests it.", "quantifier": "all frame sequences and all window positions", "why_tests_cant": "holds at every position of an unbounded sequence", "anchors": ["src/rgbd_slam.cpp: compute_new_pose", "src/parameters.hpp: keypointRefreshFrequency"]}
{"id": "C13", "title": "Camera parameters reported are those of the last parsed file", "statement": "After a successful parse, the getters report the values of that file. (The camera intrinsics getters keep the value of their first call for ever; sizes written as negative numbers are accepted.)", "quantifier": "all sequences of parse and get calls", "why_tests_cant": "depends on the history of earlier calls", "anchors": ["src/parameters.cpp: Parameters::parse_file, load_defaut, check_parameters_validity", "src/parameters.hpp"]}
{"id": "C14", "title": "Grid cell indices of the keypoint search space stay in range", "statement": "For every image whose number of search cells per row is at least the number of rows of cells, every pixel (even outside the image) maps to a cell index inside the search container; for portrait images the index can leave the container.", "quantifier": "all image sizes and all pixel positions", "why_tests_cant": "every image size and pixel; out-of-range access is undefined behaviour a test may not notice", "anchors": ["src/features/keypoints/keypoint_handler.cpp: get_search_space_index, get_search_space_coordinates, Keypoint_Handler ctor"]}
{"id": "C15", "title": "The keypoint candidate mask contains only near unmatched keypoints", "statement": "The candidates given for matching a projected map point are exactly the unmatched detected keypoints within 30 pixels of it, when the projection is at least 31 pixels (62 in an advanced search) away from the left and top borders. (Closer to these borders there is no candidate at all, even a keypoint exactly at the projection; the advanced search never finds more than the basic one.)", "quantifier": "all keypoint sets, projections, radii and matched flags", "why_tests_cant": "all geometric configurations; the failure needs a point close to the image border", "anchors": ["src/features/keypoints/keypoint_handler.cpp: compute_key_point_mask, fill_keypoint_mask"]}
{"id": "C16", "title": "A tracked keypoint is found by its own identifier only", "statement": "Looking up a map point's last tracked keypoint identifier returns the index of a keypoint that carries that identifier and, when the matched flags are given, is unmatched; identifier 0 is never found; if identifiers are distinct the keypoint carrying the identifier is always found.", "quantifier": "all keypoint lists, identifiers and matched flags", "why_tests_cant": "quantifies over all identifier assignments", "anchors": ["src/features/keypoints/keypoint_handler.cpp: set, get_tracking_match_index"]}
{"id": "C17", "title": "Optical flow never invents or duplicates a keypoint identity", "statement": "Keypoints kept by optical flow are a sub-sequence of the previous keypoints with the same identifiers, each inside the image border, tracked forward and backward within the threshold; distinct identifiers stay distinct.", "quantifier": "all previous keypoint lists and all optical flow results", "why_tests_cant": "depends on arbitrary tracking results", "anchors": ["src/features/keypoints/keypoint_detection.cpp: get_keypoints_from_optical_flow"]}
{"id": "C18", "title": "Keypoint detection is independent of thread scheduling and capped", "statement": "Whatever the order in which the detection windows finish, the set of detected keypoints is the same; each window contributes its best points, at most its quota when their scores differ. (Points of equal score at the limit are all kept and exceed the quota.)", "quantifier": "all interleavings of the window workers", "why_tests_cant": "schedules cannot be enumerated by tests", "anchors": ["src/features/keypoints/keypoint_detection.cpp: perform_keypoint_detection"]}
{"id": "C19", "title": "Inliers and outliers partition the matched features", "statement": "For every candidate pose, every matched feature is classified either inlier or outlier, never both, order and multiplicity preserved; the reported score is the sum of the inlier scores. (A feature whose evaluation throws ends the program: the evaluation is declared not to throw, so that the handler which counts it as an outlier is never reached.)", "quantifier": "all match sets and all per-feature outcomes including exceptions", "why_tests_cant": "all combinations of outcomes, including exceptions", "anchors": ["src/pose_optimization/pose_optimization.cpp: get_features_inliers_outliers", "src/matches_containers.hpp"]}
{"id": "C20", "title": "RANSAC answers are self-consistent under every thread schedule", "statement": "Whatever the interleaving of the parallel RANSAC iterations, when the search reports success the returned inliers and outliers partition the input matches, they are the classification for one single candidate pose, the inlier score is at least 1, and the final pose is the refinement of that candidate pose on these inliers; when it reports failure the caller's match sets are left empty and the pose unchanged. The search never ends the program when no evaluation throws, and ends under every fair schedule. (The inliers are not classified again for the refined pose, and a rejected variance leaves non-empty sets behind.)", "quantifier": "all interleavings of the parallel iterations and all candidate outcomes", "why_tests_cant": "data-race schedules cannot be enumerated by tests", "anchors": ["src/pose_optimization/pose_optimization.cpp: compute_pose_with_ransac"]}
{"id": "C21", "title": "RANSAC keeps the best candidate it saw", "statement": "The inlier score of the returned set is at least that of every candidate examined, up to 0.1. (False under concurrency: the comparison is made outside the lock; and false even sequentially because the tolerance accumulates. True when iterations run one after the other on matches of a single kind: no examined candidate has more inliers than the result.)", "quantifier": "all interleavings and candidate sequences", "why_tests_cant": "needs an adversarial schedule", "anchors": ["src/pose_optimization/pose_optimization.cpp: compute_pose_with_ransac"]}
{"id": "C22", "title": "Random subsets are genuine subsets of sufficient score", "statement": "A random subset drawn for a candidate pose contains distinct matched features only, its cumulated score reaches the requested score, no shorter prefix of the draw does, and drawing never fails when the whole set reaches the score (including with double rounding of the scores used: 1/3 and 1/5). The choice of a number of features fails exactly when more are asked than there are; otherwise it gives that number of features, each taken from its own place of the container, and every such choice is possible.", "quantifier": "all match sets, all shuffles, all numbers", "why_tests_cant": "all shuffles of all sets; rounding order effects", "anchors": ["src/pose_optimization/ransac.hpp: get_random_subset, get_random_subset_with_score", "src/pose_optimization/pose_optimization.cpp: get_random_subset"]}
{"id": "C23", "title": "The non-linear optimiser is never started under-determined", "statement": "Whenever the feature score requirement is met, the optimiser receives at least as many residuals as there are pose coefficients (6), whatever the mix of points, 2D points and planes.", "quantifier": "all feature mixes", "why_tests_cant": "all combinations; the explicit check in the code compares with the wrong dimension", "anchors": ["src/pose_optimization/pose_optimization.cpp: compute_optimized_global_pose", "src/map_management/map_features/map_point.hpp, map_point2d.hpp, map_primitive.hpp: get_score, get_feature_part_count"]}
{"id": "C24", "title": "An accepted pose variance is symmetric positive definite and comes from enough samples", "statement": "When the pose variance computation succeeds, the variance is the sample covariance of at least two optimised poses plus 0.001 on the diagonal, so it is symmetric and positive definite. (With a requested iteration count of 1 it succeeds with no sample at all.)", "quantifier": "all sample sets, all iteration counts", "why_tests_cant": "matrix property over all sample sets", "anchors": ["src/pose_optimization/pose_optimization.cpp: compute_pose_variance"]}
{"id": "C25", "title": "Rotation parametrisation round-trips", "statement": "Converting an orientation to the three optimisation coefficients and back gives the same unit quaternion for every orientation with z > -0.999; the inverse conversion always gives a unit quaternion.", "quantifier": "all unit quaternions, all coefficient triples", "why_tests_cant": "a continuum of orientations, failure near one pole", "anchors": ["src/pose_optimization/levenberg_marquardt_functors.cpp: get_optimization_coefficient_from_quaternion, get_quaternion_from_optimization_coefficients"]}
{"id": "C26", "title": "The published rotation Jacobian is the derivative of the conversion", "statement": "The Jacobian returned with a quaternion built from optimisation coefficients is the matrix of partial derivatives of that conversion. (False: the diagonal terms of the vector part have the wrong sign; the other entries are right.)", "quantifier": "all coefficient triples", "why_tests_cant": "a derivative is a statement about a continuum", "anchors": ["src/pose_optimization/levenberg_marquardt_functors.cpp: get_quaternion_from_optimization_coefficients (jacobian)"]}
{"id": "C27", "title": "A grid cell consumed by a primitive is not proposed again as seed", "statement": "After a cell has been removed from the histogram it is never returned among the candidates of the most frequent bin. (False when that bin is bin 1: removed cells are re-labelled bin 1.)", "quantifier": "all histograms and removal sequences", "why_tests_cant": "history property; only one bin misbehaves", "anchors": ["src/features/primitives/histogram.hpp: Histogram::remove_point, get_points_from_most_frequent_bin"]}
{"id": "C28", "title": "Histogram counters match the bins", "statement": "After initialisation, each bin counter equals the number of cells assigned to it, every assigned bin index is in range, and the most frequent bin query returns exactly the cells of a bin with the maximal counter.", "quantifier": "all normal sets and masks", "why_tests_cant": "all cell configurations", "anchors": ["src/features/primitives/histogram.hpp: init_histogram, get_points_from_most_frequent_bin"]}
{"id": "C29", "title": "Plane extraction always terminates", "statement": "The seed-and-grow loop over a depth frame ends after a number of rounds bounded by the number of planar cells, for every frame.", "quantifier": "all frames (cell fits, merge tests, histogram contents)", "why_tests_cant": "termination for all frames", "anchors": ["src/features/primitives/primitive_detection.cpp: grow_planes_and_cylinders, grow_plane_segment_at_seed"]}
{"id": "C30", "title": "Region growing activates exactly the connected mergeable cells", "statement": "Starting from a seed, the cells activated are exactly those reachable from the seed through 4-neighbour steps between unassigned cells that satisfy the merge test; already assigned cells are never touched and the walk stays inside the grid.", "quantifier": "all grids, seeds and merge relations", "why_tests_cant": "reachability over arbitrary grids", "anchors": ["src/features/primitives/primitive_detection.cpp: region_growing"]}
{"id": "C31", "title": "Grid cells belong to at most one plane", "statement": "Across the whole extraction of a frame, no cell is assigned to two planes and a cell assigned once keeps its plane; every label refers to an existing plane. Each part of a cylinder that is found becomes a plane of its cells, or an entry of the table of cylinders with the number of that cylinder and of that part, and its cells have the label of this plane or entry.", "quantifier": "all frames", "why_tests_cant": "history invariant over all frames", "anchors": ["src/features/primitives/primitive_detection.cpp: grow_plane_segment_at_seed, add_plane_segment_to_features"]}
{"id": "C32", "title": "Plane merge labels are consistent", "statement": "After merging, the label of every plane is the label of a kept plane (labels are idempotent and never greater than the index), two planes get the same label only if linked by a chain of merge-compatible adjacent planes.", "quantifier": "all adjacency matrices and merge tests", "why_tests_cant": "all graphs of planes", "anchors": ["src/features/primitives/primitive_detection.cpp: merge_planes"]}
{"id": "C33", "title": "Detected plane adjacency is genuine, symmetric and complete", "statement": "Two planes are reported connected only if two neighbouring cells carry their labels; the relation is symmetric; and every such pair is reported. (Completeness fails for neighbours that both lie in the last row or in the last column.)", "quantifier": "all label grids", "why_tests_cant": "all label grids", "anchors": ["src/features/primitives/primitive_detection.cpp: get_connected_components_matrix"]}
{"id": "C34", "title": "Merging plane segments loses no point and counts none twice", "statement": "Expanding one segment by another yields the same statistics (count, centroid, scatter) as accumulating all points of both at once, in any order and grouping.", "quantifier": "all point sets and groupings", "why_tests_cant": "all point clouds and all merge orders", "anchors": ["src/features/primitives/plane_segment.cpp: init_plane_segment, expand_segment, get_point_cloud_Huygen_covariance"]}
{"id": "C35", "title": "Fitted plane scatter is a genuine covariance and the normal faces the camera", "statement": "The scatter matrix of a segment is symmetric positive semi-definite and equals the sum of squared deviations from the centroid; the fitted plane passes through the centroid and has a non-negative distance coefficient. The fit is refused when the determinant of the scatter matrix is negligible: in exact arithmetic points that are exactly in one plane are always refused.", "quantifier": "all point clouds", "why_tests_cant": "all real point clouds", "anchors": ["src/features/primitives/plane_segment.cpp: get_point_cloud_Huygen_covariance, fit_plane"]}
{"id": "C36", "title": "Cylinder sub-segments are disjoint and the fitting loop terminates", "statement": "The cell groups fitted as cylinder parts are pairwise disjoint, each has at least six cells, and the fitting loop ends for every input and every random draw.", "quantifier": "all candidate sets and random draws", "why_tests_cant": "all random draws", "anchors": ["src/features/primitives/cylinder_segment.cpp: Cylinder_Segment ctor, run_ransac_loop"]}
{"id": "C37", "title": "A reported cylinder has a real radius", "statement": "The radius of a reported cylinder is the mean of its parts' radii. (False: the copy taken when reporting it has no parts, so the radius is 0/0.)", "quantifier": "all fitted cylinders", "why_tests_cant": "the defect comes from a copy constructor in another file", "anchors": ["src/features/primitives/cylinder_segment.cpp: copy constructor", "src/features/primitives/shape_primitives.cpp: Cylinder"]}
{"id": "C38", "title": "The organised point cloud is a permutation of the depth image", "statement": "When width and height are multiples of the cell size, every pixel has its own slot in the organised cloud, slots of one cell are contiguous, and all slots are in range, so the parallel fill gives the same result for every schedule.", "quantifier": "all image and cell sizes, all schedules of the parallel fill", "why_tests_cant": "all sizes; schedules cannot be enumerated", "anchors": ["src/features/primitives/depth_map_transformation.cpp: init_matrices, get_organized_cloud_array"]}
{"id": "C39", "title": "Depth rectification does not depend on the schedule", "statement": "Rectifying a depth image gives one result for every schedule of its parallel loop. (False when two pixels project on the same target pixel; true when no two do. The first row and column of the target are never written, and the behaviour is undefined as soon as a pixel projects left of or above the image.)", "quantifier": "all depth images, projections and schedules", "why_tests_cant": "schedules cannot be enumerated", "anchors": ["src/features/primitives/depth_map_transformation.cpp: rectify_depth"]}
{"id": "C40", "title": "Exported OBJ faces and lines reference their own vertices", "statement": "In an exported OBJ file every line and face element references, in order, vertices that were written before it and that are exactly the ones of that call. (False for point elements, which reference the vertex after theirs.)", "quantifier": "all sequences of add_point, add_line and add_polygon calls", "why_tests_cant": "indices depend on the whole call history", "anchors": ["src/outputs/map_writer.cpp: OBJ_Map_Writer"]}
{"id": "C41", "title": "Exported point clouds contain exactly the added points", "statement": "An exported XYZ file has one line per added point, in order, and a PCD file has in addition a header announcing their number. (The announced number is always 0.)", "quantifier": "all call sequences", "why_tests_cant": "history property", "anchors": ["src/outputs/map_writer.cpp: XYZ_Map_Writer, PCD_Map_Writer"]}
{"id": "C42", "title": "RGB and depth frames are paired at most once and every RGB frame is used", "statement": "The data association returns every RGB image exactly once, uses each depth image at most once, and only pairs images less than 0.15 s apart.", "quantifier": "all timestamp sets", "why_tests_cant": "all timestamp sets", "anchors": ["examples/TUM_parser.hpp: DatasetParser::associate_data"]}
{"id": "C43", "title": "The RGB/depth association is stable", "statement": "No unpaired RGB/depth couple closer than 0.15 s exists such that both images would be closer to each other than to the partner they were given.", "quantifier": "all timestamp sets and all orders of equal scores", "why_tests_cant": "global optimality statement over all inputs", "anchors": ["examples/TUM_parser.hpp: DatasetParser::associate_data"]}
{"id": "C44", "title": "The frame ordering used to sort the dataset is a strict order", "statement": "The comparison used to sort associated frames is a strict weak ordering, as std::sort requires. (False: crossing RGB/depth pairs compare less than each other both ways.)", "quantifier": "all frame pairs", "why_tests_cant": "needs crossing time stamps; undefined behaviour may go unnoticed", "anchors": ["examples/TUM_parser.hpp: DatasetParser::associate_data (sort lambda)"]}
{"id": "C45", "title": "Screen and camera coordinates round-trip", "statement": "Converting a screen point with valid depth to camera space and back gives the same point, and conversely for every camera point with non-zero depth whose projection is in the positive quarter plane. Two points of one ray give the same pixel and two points of one pixel are on one ray. (A screen point with a negative coordinate or a null depth is refused with an exception; a point behind the camera is projected to a pixel like a point in front of it.)", "quantifier": "all points and all camera intrinsics with non-zero focal lengths", "why_tests_cant": "a continuum of points", "anchors": ["src/coordinates/point_coordinates.cpp: ScreenCoordinate::to_camera_coordinates, CameraCoordinate::to_screen_coordinates"]}
{"id": "C46", "title": "Camera and world coordinates round-trip and preserve distances", "statement": "For every pose, world->camera is the inverse of camera->world, distances between points are preserved, and the camera origin is mapped to the pose position expressed in world axes.", "quantifier": "all poses and points", "why_tests_cant": "a continuum of poses", "anchors": ["src/utils/camera_transformation.cpp", "src/coordinates/point_coordinates.cpp"]}
{"id": "C47", "title": "Transforming a plane preserves incidence and distances", "statement": "For every pose, plane and point, the signed distance from the transformed point to the transformed plane equals the original signed distance; transforming back gives the original plane.", "quantifier": "all poses, planes and points", "why_tests_cant": "a continuum", "anchors": ["src/coordinates/plane_coordinates.cpp", "src/utils/camera_transformation.cpp"]}
{"id": "C48", "title": "Polygon coordinates round-trip and transformations keep the shape", "statement": "Projecting a point of a plane to polygon coordinates and back gives the point; moving a polygon between camera and world space keeps its 2D boundary coordinates. (Moving a polygon to a new plane with transform does not, unless the rotation fixes the old center.)", "quantifier": "all orthonormal plane frames, poses and points", "why_tests_cant": "a continuum", "anchors": ["src/utils/polygon.cpp", "src/coordinates/polygon_coordinates.cpp"]}
{"id": "C49", "title": "Inverse depth points are recovered by a change of coordinates", "statement": "An inverse depth point built from a world point and an observation position is always accepted and converts back to that world point; conversely the parameters are recovered from the world point. The closest and furthest estimations bracket the estimated point. (The bracket is false: the closest estimation is always at least 10^9 away, and the furthest one is too, or is behind the first observation.)", "quantifier": "all points, observation positions and uncertainties", "why_tests_cant": "a continuum", "anchors": ["src/coordinates/inverse_depth_coordinates.cpp", "src/coordinates/basis_changes.hpp"]}
{"id": "C50", "title": "The Kalman update yields a valid covariance and never grows uncertainty", "statement": "For valid covariances and in every dimension, the updated covariance is symmetric and positive semi-definite and not larger (as a quadratic form) than the predicted one, nor than the measurement one when the whole state is measured, also when the innovation covariance cannot be inverted; in one dimension the new state lies between prediction and measurement.", "quantifier": "all states, measurements and valid covariances", "why_tests_cant": "a continuum; matrix inequality", "anchors": ["src/tracking/kalman_filter.hpp"]}
{"id": "C51", "title": "Concave hull search always ends, and an accepted hull is a simple polygon of the points", "statement": "The hull search ends for every point set, reads no vertex outside of the hull, and each retry uses a larger neighbour count than the previous one, up to 21 and to the number of points. (False for the second attempt: the first count is tried twice.) The vertices of an accepted hull are distinct points of the set (the first one may close it), starting with the lowest one up to the tolerance; two of its edges which do not follow each other have no common point unless they are almost parallel; each vertex is the found neighbour turning the most clockwise whose edge does not touch an earlier one. An accepted hull encloses all the points: the half line from each point left out crosses an odd number of edges. (False: or none, so that points to the right of the hull are accepted.) Three points are their own hull, and fewer give none.", "quantifier": "all point sets", "why_tests_cant": "termination and enclosure for all sets", "anchors": ["third_party/concave_fitting.cpp"]}
{"id": "C52", "title": "The map guarantees hold in every state of the tracking loop", "statement": "In every state the tracking loop can reach, whatever the frames contain and whether or not the pose optimisation succeeded on them, the three maps are in a state reachable by the map operations alone from empty maps, so that every guarantee on identifiers, survival, promotion and marks holds between any two frames.", "quantifier": "all frame sequences, detections, optimisation results and iteration orders", "why_tests_cant": "an invariant over every history of frames", "anchors": ["src/rgbd_slam.cpp", "src/map_management/local_map.hpp"]}
{"id": "C53", "title": "The SLAM object can only be constructed with parameters already loaded", "statement": "Constructing the SLAM object returns exactly when the last parameter file parsed by the program was valid; otherwise the program exits. (The documented fallback to default parameters when none were loaded never happens.)", "quantifier": "all sequences of parameter files, including none and unreadable ones", "why_tests_cant": "depends on the whole history of loads", "anchors": ["src/parameters.cpp:Parameters::load_defaut", "src/rgbd_slam.cpp:RGBD_SLAM::RGBD_SLAM"]}
{"id": "C54", "title": "Looking up the depth of a keypoint never reads outside of the depth image", "statement": "The depth of a screen position is read in the image for every position and image size: positions within one pixel of the border, or outside of the image, give zero and any other gives the value of the nearest pixel.", "quantifier": "all image sizes, depth images and positions", "why_tests_cant": "boundary behaviour of rounding for every size and position", "anchors": ["src/features/keypoints/keypoint_handler.cpp:get_depth"]}
{"id": "C55", "title": "Every frame gets its keypoints, new ones are only searched when needed", "statement": "In a session of landscape images of one size, the keypoints of each frame are computed without failure; the result holds the new points then the tracked ones; new points appear only when requested or when less than one hundred points are tracked; each tracked identifier can be looked up and gives the tracked position. (The container keeps the size of the first image of the program: a later image of another size can write outside of it.)", "quantifier": "all sessions, images, tracker answers and schedules", "why_tests_cant": "invariant over the frames of a session", "anchors": ["src/features/keypoints/keypoint_detection.cpp:compute_keypoints"]}
{"id": "C56", "title": "Detection windows cover the image without overlap", "statement": "Every pixel is in at most one detection window, and in exactly one except for the last (width mod 3) columns and the last (height mod 3) rows, which are in none.", "quantifier": "all image sizes and pixels", "why_tests_cant": "holds for every image size", "anchors": ["src/features/keypoints/keypoint_detection.cpp:Key_Point_Extraction"]}
{"id": "C57", "title": "The optimisation objective fills every residual exactly once", "statement": "For every set of features whose distances have the announced sizes, the objective function accepts the set, writes each residual exactly once, in the order of the features, each being the distance scaled by the weight of the feature and divided by its number of parts, and writes nothing outside. No residual keeps its content of a previous evaluation. (False for a feature whose distance cannot be computed: its residuals keep the previous content.)", "quantifier": "all sets of features, previous contents and poses", "why_tests_cant": "index arithmetic over every mix of feature sizes", "anchors": ["src/pose_optimization/levenberg_marquardt_functors.cpp:Global_Pose_Estimator"]}
{"id": "C58", "title": "The statistics of a plane count each of its cells once", "statement": "A plane found in a frame accumulates each of its cells exactly once, and a merged plane the cells of the planes merged in it, each in one reported plane. (False: the seed cell of a grown plane is accumulated twice, and a plane can be merged in two reported planes; no other cell is repeated.)", "quantifier": "all frames, seeds, merge tests and orders of growth", "why_tests_cant": "invariant over every history of growth and merge steps", "anchors": ["src/features/primitives/primitive_detection.cpp:grow_plane_segment_at_seed", "src/features/primitives/primitive_detection.cpp:merge_planes"]}
{"id": "C59", "title": "Reported planes do not overlap", "statement": "The extraction of a frame always gives a result; a cell is in the mask of at most one reported plane, the one its plane was merged into, and a cell of a plane is in no mask only if the merged plane is not planar.", "quantifier": "all frames, merge tests and fits", "why_tests_cant": "holds for every grid and every result of growth and merge", "anchors": ["src/features/primitives/primitive_detection.cpp:find_primitives", "src/features/primitives/primitive_detection.cpp:add_planes_to_primitives"]}
{"id": "C60", "title": "Growth starts from the flattest candidate cell", "statement": "The seed selected among the candidate cells is one of them and none has a smaller mean square error (unless its own error is already zero or less), for finite errors; when no seed is selected, all errors are at least the greatest representable number.", "quantifier": "all lists of candidates and errors", "why_tests_cant": "holds for every order and values of errors", "anchors": ["src/features/primitives/primitive_detection.cpp:grow_planes_and_cylinders"]}
{"id": "C61", "title": "A depth cell used as a plane patch is smooth, filled and flat", "statement": "A cell of the depth image declared planar has no depth jump between successive measured depths of its central row (from its second pixel) and of its central column (except its first and last pixels), has at least half its pixels and the required minimum measured, holds the sums of exactly its measured points, and the mean square error of its plane is at most the square of the depth quantization at its centroid. (The whole central row and column are not covered: a cell with a jump at their ends is accepted.)", "quantifier": "all cells of even size and all depths", "why_tests_cant": "all depth patterns", "anchors": ["src/features/primitives/plane_segment.cpp: init_plane_segment, is_cell_horizontal_continuous, is_cell_vertical_continuous"]}
{"id": "C62", "title": "A cylinder search returns the best cylinder tried", "statement": "For every sequence of draws, the set of cells returned by a search is the set of remaining cells close to one of the cylinders tried, and none of the cylinders tried has a smaller score. The search ends early only after a cylinder with enough cells was tried. (It does not end as soon as such a cylinder is found: the test looks at the previous best set.)", "quantifier": "all cells, distances (including not a number) and draws", "why_tests_cant": "depends on every possible sequence of random draws", "anchors": ["src/features/primitives/cylinder_segment.cpp: run_ransac_loop"]}
{"id": "C63", "title": "An exact cylinder is recovered exactly", "statement": "The radius and center computed for a part are the least squares solution over all radii and centers, when two normals differ; on patches lying on a cylinder, with its axis, they are its radius and axis line, the error is zero, and three cells with two different normals give a hypothesis at distance zero of all cells. (In exact arithmetic.)", "quantifier": "all sets of patches, all cylinders", "why_tests_cant": "holds for every geometry", "anchors": ["src/features/primitives/cylinder_segment.cpp: Cylinder_Segment ctor, run_ransac_loop"]}
{"id": "C64", "title": "Ground truth poses are attached to the closest frame at most once", "statement": "Each ground truth pose of a dataset is attached to at most one frame; each frame, in their order, receives the closest of the poses not attached yet among those less than 0.05 s away, and nothing only when there is none.", "quantifier": "all time stamps", "why_tests_cant": "depends on the whole history of the frames before", "anchors": ["examples/TUM_parser.hpp: DatasetParser::associate_data"]}
{"id": "C65", "title": "A residual is null exactly for an observation of the feature", "statement": "The retroprojection residual and distance of a map point are null exactly when the map point is projected on the observed pixel; the metric residual exactly when the observed point is the map point. The reduced plane residual is null exactly when the two planes are the same up to the sign of their parameters, or both contain the center of the camera (so it cannot tell apart any two planes through the camera).", "quantifier": "all poses, points, planes and intrinsics", "why_tests_cant": "a continuum; the converse direction is about all wrong features", "anchors": ["src/coordinates/point_coordinates.cpp: get_distance, get_signed_distance", "src/coordinates/plane_coordinates.cpp: get_reduced_signed_distance"]}
{"id": "C66", "title": "Distances between lines are the least distances", "statement": "The two closest points of two lines are on the lines and no other pair of points is closer; the norm of the signed distance of two lines is that least distance. (For parallel lines the returned vector has the right norm but is perpendicular to the separation of the lines.)", "quantifier": "all lines, parallel or not", "why_tests_cant": "minimality over a continuum of pairs", "anchors": ["src/utils/line.hpp", "src/utils/distance_utils.hpp"]}
{"id": "C67", "title": "The area of a polygon is the area of its boundary, and merges keep the plane", "statement": "After every history of constructions, simplifications, projections, moves and merges, the reported area is the area of the current boundary; a simplification keeps at least three quarters of the area; a merge keeps the plane of the polygon. (A merge of disjoint polygons keeps the larger of the two, so it can replace the polygon with the other one.)", "quantifier": "all polygons, histories and all behaviours of the geometry library", "why_tests_cant": "all histories, and every result the library can return", "anchors": ["src/utils/polygon.cpp: Polygon::simplify, merge_union, project, area"]}
{"id": "C68", "title": "The jacobians of the changes of coordinates are exact derivatives", "statement": "Each matrix returned with a change of coordinates (spherical to cartesian and back, inverse depth to world and back, camera to screen) is the matrix of the partial derivatives of that change, at every point out of the half plane where the longitude jumps.", "quantifier": "all points, parameters and intrinsics", "why_tests_cant": "derivatives at every point of a continuum", "anchors": ["src/coordinates/basis_changes.hpp", "src/coordinates/inverse_depth_coordinates.cpp", "src/utils/covariances.cpp: get_screen_point_covariance"]}
{"id": "C69", "title": "The covariance of an observed pixel is valid in every frame", "statement": "The covariance of a screen point with a depth is, once moved to the camera or to the world, symmetric and positive semi-definite, and its variances are those of the linearised projection. (Right of and under the image center the whole matrix is; left of it or above it the covariance between the lateral coordinate and the depth has the wrong sign.)", "quantifier": "all pixels, depths, variances, poses and intrinsics", "why_tests_cant": "positive semi-definiteness over a continuum", "anchors": ["src/utils/covariances.cpp: get_screen_point_covariance, get_camera_point_covariance, get_world_point_covariance"]}
{"id": "C70", "title": "The covariances of planes convert to and from the reduced form", "statement": "The covariance of a plane computed from the covariance of its point form, and the reverse, are symmetric and positive semi-definite, and converting back and forth returns the original. (The last row of the jacobian is the derivative of the inverse of the distance, not of the distance: the variance of the distance is divided by its fourth power, and the round trip loses it.)", "quantifier": "all planes out of the origin and valid covariances", "why_tests_cant": "a continuum of planes and covariances", "anchors": ["src/utils/covariances.cpp: compute_plane_covariance, compute_reduced_plane_point_cloud_covariance"]}
{"id": "C71", "title": "The distance of two angles is their smallest difference", "statement": "The distance of two angles is between minus a half turn and a half turn, is the smallest difference of the two modulo full turns, is null exactly when they are the same angle, and is the plain difference when that one is less than a half turn.", "quantifier": "all pairs of angles", "why_tests_cant": "the wrap around holds for all multiples of a turn", "anchors": ["src/utils/distance_utils.cpp: angle_distance"]}
{"id": "C72", "title": "The residual of an inverse depth feature is the distance to its segment of uncertainty", "statement": "The distance between an inverse depth feature projected on the screen and an observed pixel is the distance between the pixel and the projected segment. (It is the distance to the whole line through that segment: it is null for pixels far beyond its ends.)", "quantifier": "all segments and pixels", "why_tests_cant": "minimality over a continuum of points", "anchors": ["src/utils/line.hpp: Segment::distance", "src/coordinates/inverse_depth_coordinates.cpp: compute_signed_distance, compute_signed_screen_distance"]}
{"id": "C73", "title": "The motion model follows a constant motion", "statement": "For every history of poses the predicted orientation is a unit quaternion; the first prediction is the pose itself; a camera at rest is predicted at rest; a model reset at a pose predicts what a new one predicts after this pose; for a constant linear motion the error of the n-th prediction is the motion divided by 2^n; a constant rotation is predicted when it commutes with the orientation. (Otherwise it is not: the velocity is measured on one side of the orientation and applied on the other.)", "quantifier": "all histories of poses", "why_tests_cant": "unbounded histories", "anchors": ["src/tracking/motion_model.cpp"]}
{"id": "C74", "title": "A Kalman filter keeps a valid estimate in every history", "statement": "After every history of calls (initialisations with valid covariances, updates, updates with new dynamics) the covariance of the estimate is symmetric and positive semi-definite; an update is refused exactly before the first initialisation (logic error) or when the covariance of the measure is invalid (invalid argument), and the estimate is then unchanged; with the identity as dynamics and no process noise an update never makes the estimate less certain. (An initialisation with an invalid covariance is accepted and every later update is then refused; a refused update with new dynamics keeps these new dynamics.)", "quantifier": "all histories of calls, dimensions, dynamics and covariances", "why_tests_cant": "unbounded histories over a continuum of covariances", "anchors": ["src/tracking/kalman_filter.hpp: KalmanFilter, SharedKalmanFilter"]}
{"id": "C75", "title": "A tracked point stays consistent with its measures", "statement": "In every history of measures the covariance of a tracked point is valid and the program never exits; a measure is refused exactly when one of the covariances is invalid, and the point is then unchanged; after an accepted measure the point is at least as certain as the measure, and the returned score is the distance moved. (The moving flag is raised only when a coordinate decreases: a point moving along increasing coordinates is never seen as moving.)", "quantifier": "all histories of measures and covariances", "why_tests_cant": "unbounded histories over a continuum of measures", "anchors": ["src/tracking/point_with_tracking.cpp: Point::track, build_kalman_filter"]}
{"id": "C76", "title": "A tracked plane stays consistent with its measures", "statement": "In every history of measures, including those that are refused or that throw, the covariance of a tracked plane is valid and the program never exits; after an accepted measure the parameters are those of the filter, normalised. (A refused measure returns the same score as an unchanged plane; when the merge of the boundary polygons fails the call throws although the parameters and the covariance have already been changed.)", "quantifier": "all histories of measures and of outcomes of the polygon merge", "why_tests_cant": "unbounded histories", "anchors": ["src/tracking/plane_with_tracking.cpp: Plane::track"]}
{"id": "C77", "title": "A tracked inverse depth point stays consistent with its measures", "statement": "In every history of measures the covariance of a tracked inverse depth point is valid, the program never exits, and the first pose and its covariance are kept; after an update the point read back in the world is the one computed by the filter. (Its covariance read back is the one of the filter plus the covariance of the first pose, which is counted again at each update: even an exact measure leaves it; an update that fails while converting back has already moved the point, and keeps its old covariance.)", "quantifier": "all histories of measures and covariances", "why_tests_cant": "unbounded histories over a continuum of measures", "anchors": ["src/tracking/inverse_depth_with_tracking.cpp: PointInverseDepth"]}
{"id": "C78", "title": "A map feature is matched with the best detection and only with it", "statement": "A map plane is matched with the first of the unmatched detected planes that are less than 100 mm apart from its projection in distance, within the matching angle and with a sufficient overlap (halved in an advanced search), that has the greatest common area; a 3D point followed by the optical flow is matched with its own followed keypoint, and another one with the unmatched keypoint within 30 pixels of its projection whose descriptor distance is less than 0.7 times the one of every other such keypoint, if there is one; the match is given to the optimisation when asked. (Known exceptions, which must be exactly these: the first detected plane of a frame is never matched, a plane known with the opposite normal is not matched beyond 50 mm, keypoints are not searched for positions close to the left and top borders, a 2D point followed by the optical flow is not matched, and matches of 2D points never reach the optimisation.)", "quantifier": "every map feature, every camera pose, every detected planes and keypoints, every matched flags, every descriptors and common areas", "why_tests_cant": "which detection wins depends on every other detection of the frame; a test only sees a few hand made frames, and the skipped first plane looks like an occlusion", "anchors": ["src/map_management/map_features/map_primitive.cpp: MapPlane::find_matches", "src/map_management/map_features/map_point.cpp: MapPoint::find_matches", "src/map_management/map_features/map_point2d.cpp: MapPoint2D::find_matches", "src/features/keypoints/keypoint_handler.cpp: Keypoint_Handler::get_match_indexes", "src/features/primitives/shape_primitives.cpp: Plane::is_normal_similar, Plane::is_distance_similar"]}
{"id": "C79", "title": "Two plane segments merge exactly when they are nearly the same plane", "statement": "A plane segment can absorb another one exactly when their normals are within the allowed angle and the centre of the other one is closer to its plane than the given distance (50 mm in the final merge, a tolerance growing with the size of the cell and its error during the growth). (Known exception: the test is not symmetric, so which planes merge depends on which one asks.)", "quantifier": "every pair of plane segments, every distance tolerance", "why_tests_cant": "the test has to be right for every pair of normals and offsets on both sides of the plane; a test only visits a few pairs", "anchors": ["src/features/primitives/plane_segment.cpp: Plane_Segment::can_be_merged", "src/features/primitives/primitive_detection.cpp: Primitive_Detection::init_planar_cell_fitting, Primitive_Detection::merge_planes"]}
{"id": "C80", "title": "The boundary points of a detected plane are measured points of its border, whatever the scheduling", "statement": "The boundary points given to the polygon of a detected plane are exactly the points measured at the centres of the grid cells that are in or next to the plane's region and next to a cell out of it (out of the grid counts as out of it), when the measure is less than three standard deviations away from the plane: one point for each such cell, none else, whatever the order in which the parallel loop visits the cells. Every region has such cells, no pixel out of the image is read, and a plane is only reported with at least three points. (Known exception: a depth that is positive but below the machine epsilon ends the program.)", "quantifier": "every grid, every region, every depth image, every plane, every scheduling of the parallel loop", "why_tests_cant": "the result must not depend on the thread scheduling, and the border of a region depends on its shape and on its place in the grid", "anchors": ["src/features/primitives/primitive_detection.cpp: Primitive_Detection::compute_plane_segment_boundary, Primitive_Detection::add_planes_to_primitives"]}
{"id": "C81", "title": "A cylinder is reported when its region has an interior", "statement": "The cylinders reported are, in order, the fitted segments whose region, small holes filled, contains a cell whose neighbours are all in it. (Known exception: a cylinder whose region is the whole grid is dropped.)", "quantifier": "every grid, every labelling of its cells, every list of fitted cylinders", "why_tests_cant": "morphology on the borders of the grid behaves differently from its middle, and the dropped case needs a cylinder that fills the image", "anchors": ["src/features/primitives/primitive_detection.cpp: Primitive_Detection::add_cylinders_to_primitives"]}
{"id": "C82", "title": "A match is an inlier exactly when the feature is seen close to its detection, and variations stay in their domain", "statement": "A match of a 3D point is an inlier of a pose exactly when the point projects at most 3 pixels away (sum of the coordinate differences) from the matched keypoint; a match of a plane exactly when each part of the normal of the projected plane differs at most 0.2 and its distance at most 50 mm from the detected plane; a match of a 2D point is an inlier when the keypoint is at most 3 pixels away from the line where the point can be. A random variation changes only what is uncertain, by the draw times the deviation, and gives a valid feature: a plane keeps a unit normal, a 2D point keeps its angles in their interval. (Known exceptions: keypoints far up and left of the line of a 2D point are inliers too, because the differences are not made positive; a plane whose varied normal vanishes has no normal.)", "quantifier": "every camera, every pose, every match, every deviation, every random draw", "why_tests_cant": "the tests compare signed quantities on every side of the projection, and the variations depend on unbounded random draws", "anchors": ["src/map_management/map_features/map_point.cpp: PointOptimizationFeature", "src/map_management/map_features/map_point2d.cpp: Point2dOptimizationFeature", "src/map_management/map_features/map_primitive.cpp: PlaneOptimizationFeature", "src/coordinates/plane_coordinates.cpp: PlaneWorldCoordinates::get_signed_distance"]}
{"id": "C83", "title": "Random integers stay in their interval, rounding included", "statement": "For every draw of the random engine in [0, 1[ and every interval of 32 bit integers, the integer drawn is at least the lower bound and strictly less than the upper bound, despite the rounding of the product, and every integer of the interval can be drawn; a map point is never dropped from the followed points with a drop chance of 0, always with a drop chance of 1, and otherwise when the draw is less than the inverse of the drop chance, up to one rounding.", "quantifier": "every binary64 draw, every interval, every drop chance, every point and pose", "why_tests_cant": "the critical draw is one of 2^53 values and indexes an array out of bounds if the product rounds up", "anchors": ["src/utils/random.hpp: Random::get_random_uint", "src/map_management/map_features/map_point.cpp: MapPoint::add_to_tracked", "src/features/primitives/cylinder_segment.cpp", "src/pose_optimization/ransac.hpp"]}
{"id": "C84", "title": "A 2D point becomes a 3D point exactly when its place is almost a linear function of its inverse depth", "statement": "A 2D map point (direction and inverse depth) is replaced by a 3D map point exactly when four times the deviation of its depth times the absolute cosine of the angle between the first and the present line of sight is less than a tenth of its distance to the camera; the 3D point then has the same place, the same descriptor and matches, and the first order propagation of the covariance, which is valid; it is not replaced when it is at infinity, when the camera is on it or when its covariance is invalid. Seen from its first place it is replaced exactly when the deviation of the inverse depth is less than a fortieth of it, so a point just created is never replaced, and a more certain point is replaced whenever a less certain one is. (Known exception: a point seen at a right angle from its first line of sight is replaced however uncertain it is.)", "quantifier": "every first place, direction, inverse depth, covariance and camera place", "why_tests_cant": "the decision depends on real quantities around a threshold and on the geometry of every pair of camera places", "anchors": ["src/tracking/inverse_depth_with_tracking.cpp: compute_linearity_score, compute_cartesian_covariance", "src/map_management/map_features/map_point2d.cpp: compute_upgraded", "src/matches_containers.hpp: UpgradedPoint2D"]}
{"id": "C85", "title": "A map feature stays valid from its creation through all its updates to its promotion", "statement": "Over the whole life of a map feature, for every sequence of matched detections with valid pose covariances: a 3D point is created with a valid covariance, each matched update succeeds, keeps the covariance valid and never ends the program, its descriptor is the last non empty one seen, and its promotion to the local map never throws; a 2D point never ends the program whatever the history, keeps the pose covariance of its creation and can always be promoted; a plane never ends the program, keeps a valid covariance, has the normalised parameters given by the filter, and its update tells only whether the polygons were merged. (Known exceptions: a keypoint without depth created with an invalid pose covariance ends the program; a plane through the world origin or the camera is never added nor updated.)", "quantifier": "every creation, every sequence of updates, every covariance, every outcome of the polygon merge", "why_tests_cant": "the state is built by unbounded histories of updates and an invalid covariance only shows later as an exception in a function that may not throw", "anchors": ["src/map_management/map_features/map_point.cpp: MapPoint::update_with_match, StagedMapPoint, LocalMapPoint", "src/map_management/map_features/map_point2d.cpp: MapPoint2D::update_with_match, StagedMapPoint2D, LocalMapPoint2D", "src/map_management/map_features/map_primitive.cpp: MapPlane::update_with_match, StagedMapPlane, LocalMapPlane", "src/utils/covariances.cpp"]}
{"id": "C86", "title": "A map feature is visible exactly when it is seen in the image", "statement": "A 3D point is visible exactly when it is in front of the camera and projects in the image, borders included. A 2D point whose two extreme places are in front of the camera is visible exactly when one of the places between them is seen in the image at one pixel or more of its border, or when both extreme places are seen in the image. The part of a line that is drawn is always in the image and is exactly the part of the line seen at one pixel or more of the border, when the ends are both in this frame or both out of it. The test of a plane never ends the program; a plane is visible exactly when the polygon of its projected boundary overlaps the image. (Known exceptions: 2D points and planes behind the camera are mirrored and can be visible; a line with a single end in the image is drawn as a single point; a plane with a boundary point at the depth of the camera is not visible.)", "quantifier": "every camera, every pose, every image size, every point, 2D point and polygon; every segment that meets the border in finitely many points", "why_tests_cant": "the clipping has a case per number of crossings and the projection is defined for points behind the camera; the tests would have to range over all the relative places of a segment and a rectangle", "anchors": ["src/utils/line.cpp: clamp_to_screen", "src/utils/polygon.cpp: get_static_screen_boundary_polygon", "src/map_management/map_features/map_point.cpp: MapPoint::is_visible", "src/map_management/map_features/map_point2d.cpp: MapPoint2D::is_visible", "src/map_management/map_features/map_primitive.cpp: MapPlane::is_visible", "src/coordinates/polygon_coordinates.cpp: is_visible_in_screen_space"]}
{"id": "C87", "title": "The three point solver returns the poses that see the points along the rays", "statement": "The solver returns at most four poses. With each pose made of numbers, the three points are exactly on the lines of the three given directions. For unit directions, when no equation is within 1e-12 of having a double root without having one, each returned pose is a rotation and a translation that put the points on the directions, in front of the camera. Conversely, when no intermediate division by zero happens and the points are not aligned, every pose that sees the three points in front of the camera along the directions is returned. (Known exceptions: with three orthogonal directions no pose is ever returned; when the first two points are at the same distance of the third and are seen at the same angle of it, no pose is returned.)", "quantifier": "every triple of directions and of points, every pose that sees them", "why_tests_cant": "the solver goes through a cubic, an eigen decomposition and two second degree equations; a test checks a few random poses and a missed or wrong branch of the equations shows only for some geometries", "anchors": ["third_party/p3p.cpp: p3p", "third_party/p3p.cpp: compute_eig3x3known0", "third_party/p3p.cpp: refine_lambda"]}
{"id": "C88", "title": "The fit of a polygon uses the given points and never fails silently on enough points", "statement": "Given a unit normal, a center and at least 3 points, the constructor of a polygon always succeeds: its axes are orthonormal, their product is the normal, its center is the given one, and its area is the one of its boundary. Its boundary is the concave hull of the points brought in the plane when this hull is valid, else the first part of its repair, else the convex hull; it is replaced by its simplification only when this one is valid and keeps more than three quarters of the area. When nothing was repaired, every vertex is one of the points, moved at right angle to the plane. Fewer points, or a normal that is not of norm 1, are refused. (Known exception: when the repair gives several parts, the first one is kept, not the biggest one.)", "quantifier": "every list of points, normal and center, every behaviour of the hull, validity, repair and simplification algorithms", "why_tests_cant": "the choice of the boundary depends on the outcome of four geometric algorithms; tests fit a few regular shapes for which the concave hull is always valid", "anchors": ["src/utils/polygon.cpp: Polygon::Polygon", "src/utils/polygon.cpp: Polygon::compute_concave_hull", "src/utils/polygon.cpp: Polygon::compute_convex_hull", "src/utils/polygon.cpp: Polygon::simplify"]}
{"id": "C89", "title": "The common area of two polygons is bounded by the area of each one", "statement": "The common area of two polygons, the second one being projected on the plane of the first one, is not negative, and not more than the area of the first one nor than the one of the projection, so that the overlap used to match planes is between 0 and 1; the area of the union is the sum of the two areas minus the common area; the two never throw. When the intersection cannot be computed the common area is null. The intersection over union is between 0 and 1, and is the ratio of these two areas when each has one part. (Known exception: when the intersection or the union has several parts, only the biggest of each is used, and the ratio is not the one of the areas.)", "quantifier": "every two polygons of any planes, with or without holes, every correct behaviour of the intersection and of the union of boundaries", "why_tests_cant": "the parts of an intersection depend on the whole shape of two boundaries; tests only overlap a polygon with itself", "anchors": ["src/utils/polygon.cpp: Polygon::inter_area", "src/utils/polygon.cpp: Polygon::union_area", "src/utils/polygon.cpp: Polygon::inter_over_union", "src/utils/polygon.cpp: Polygon::union_one", "src/utils/polygon.cpp: Polygon::inter_one"]}
{"id": "C90", "title": "Merging and moving polygons with holes", "statement": "A merge keeps the plane of the polygon; it changes nothing when the union is empty, else it takes the biggest part of the union, with its holes, or a valid simplification of it, and keeps more than three quarters of the area of this part. A polygon without hole is projected and moved as its boundary is. A move between the camera and the world, or a projection on another plane, keeps only the outer boundary: the area becomes the one of the filled outer boundary (times the cosine of the planes for a projection), so that it is kept exactly when the holes have no area. (Known exception: the merge of two polygons without hole can have a hole, and then a move to the world increases its area.)", "quantifier": "every polygon with any number of holes, every pose, every target plane, every correct behaviour of the union", "why_tests_cant": "holes only appear after merging boundaries that surround an empty place, which no test does; the loss then depends on the next change of plane", "anchors": ["src/utils/polygon.cpp: Polygon::merge_union", "src/utils/polygon.cpp: Polygon::project", "src/utils/polygon.cpp: Polygon::transform_boundary", "src/coordinates/polygon_coordinates.cpp: CameraPolygon::to_world_space", "src/coordinates/polygon_coordinates.cpp: WorldPolygon::to_camera_space"]}
{"id": "C91", "title": "A pose always stands for a rigid motion", "statement": "Whatever sequence of settings (with an orientation that is not null, of any norm) and of additions of motions (with a unit orientation) a pose goes through, its orientation is a unit quaternion and its matrix is a rotation. Its position is the last position set plus the sum of the motions added since, and its rotation is the last one set times the rotations added since, in the order of the calls. (Known exceptions: a motion added with an orientation that is not a unit one is not normalised, the norms are multiplied and the matrix is not a rotation any more; a null orientation is stored as it is.)", "quantifier": "every sequence of calls of any length on a pose, every position and orientation", "why_tests_cant": "the drift of an orientation shows only after sequences of products that no test makes; a test compares one pose with one expected value", "anchors": ["src/utils/pose.cpp: PoseBase::PoseBase", "src/utils/pose.cpp: PoseBase::set_parameters", "src/utils/pose.cpp: PoseBase::update"]}
{"id": "C92", "title": "The errors between poses are distances", "statement": "The position error is the euclidean distance of the positions. The rotation error is, in degrees between 0 and 180, the angle of the rotation that goes from one orientation to the other. Each is symmetric, null only for the same position (the same rotation, a quaternion and its opposite being the same), satisfies the triangle inequality, and is not changed when the same motion is added to the two poses.", "quantifier": "every three poses with unit orientations, every motion", "why_tests_cant": "the triangle inequality and the equivalence of a quaternion and its opposite quantify over all rotations; a test evaluates a few angles", "anchors": ["src/utils/pose.cpp: PoseBase::get_position_error", "src/utils/pose.cpp: PoseBase::get_rotation_error"]}
{"id": "C93", "title": "Angles, rotations and displayed poses agree", "statement": "Yaw, pitch and roll become the rotation by yaw around z, then pitch around y, then roll around x, always as a unit quaternion; the angles taken from an orientation give the same rotation back; the three numbers displayed for a pose are the angles around z, y and x in degrees. The offset of the camera 2 in the configuration moves a point by a rotation followed by the given translation. (Known exception: the rotation offsets around x and z are exchanged: the x offset turns around the z axis.)", "quantifier": "every three angles, every unit orientation, every correct extraction of angles from a matrix, every offset of the configuration", "why_tests_cant": "the order of three rotations matters only when at least two angles are not null, and the singular orientations are not reached by tests; the example configuration has null offsets", "anchors": ["src/utils/angle_utils.cpp: get_quaternion_from_euler_angles", "src/utils/angle_utils.cpp: get_euler_angles_from_quaternion", "src/utils/angle_utils.cpp: get_rotation_matrix_from_euler_angles", "src/utils/pose.cpp: PoseBase::display", "src/parameters.cpp: Parameters::parse_file"]}
{"id": "C94", "title": "The vector used for the variance of a pose stands for the pose", "statement": "The six numbers of a pose are its position and angles that give its rotation back. With a roll strictly between 0 and pi and a pitch strictly between -pi/2 and pi/2 the angles are these ones. (Known exception: the first angle is in [0, pi], so that it jumps by more than 2 radians between poses as close as wanted around a null roll, which is the roll of the first pose; the computed variance of the roll is then more than 1 although all the variations agree.)", "quantifier": "every pose, every correct extraction of angles with the documented range, every number of variations", "why_tests_cant": "the jump happens only when the variations of a pose fall on the two sides of a null roll; tests of the variance only look at one pose", "anchors": ["src/utils/pose.hpp: PoseBase::get_vector", "src/pose_optimization/pose_optimization.cpp: Pose_Optimization::compute_pose_variance"]}
{"id": "C95", "title": "A region of a line detection is one connected area of a single direction", "statement": "From a pixel with a large enough gradient the line segment detector always ends with a region that starts from it: each of its pixels was free, is taken once, is next to an earlier one, and has the direction of the region at that time up to the tolerance; a neighbour is refused only if it was used or had not this direction. The direction of a pixel is a quarter of turn from its gradient, always on the same side; the last row, the last column and small gradients have none. (Domain: a tolerance under a quarter of turn; the constructor accepts up to half a turn, and above a quarter two directions within the tolerance are not always recognised.)", "quantifier": "every image, every threshold, every seed, every set of used pixels, every tolerance under a quarter of turn, every arc tangent in [0, 360)", "why_tests_cant": "the shape of a region depends on the order of its growth and on the wrap of angles at a turn; tests only look at a few images", "anchors": ["third_party/line_segment_detector.cpp: LineSegmentDetectorImpl::ll_angle", "third_party/line_segment_detector.cpp: LineSegmentDetectorImpl::region_grow", "third_party/line_segment_detector.cpp: LineSegmentDetectorImpl::isAligned"]}
{"id": "C96", "title": "The segment of a region is its best axis, from end to end", "statement": "A region of two pixels or more always has a segment. It is on the line that minimises the weighted squared distances to the pixels of the region, up to the accuracy of the arc tangent; its ends are the projections of the first and of the last pixels along this line; its width is the extent of the region across it, at least one pixel. The loops that reduce an angle always end with the smallest difference. The segment has the direction of the region if its axis is within the tolerance of it. (Known exception: a region whose axis is further than the tolerance from its direction can get a segment of the opposite direction.)", "quantifier": "every region of two pixels or more with positive weights, every tolerance, every accuracy of the arc tangent", "why_tests_cant": "optimality is over every line of the plane and every region; the reversed segments need a region with an axis away from its gradients", "anchors": ["third_party/line_segment_detector.cpp: LineSegmentDetectorImpl::region2rect", "third_party/line_segment_detector.cpp: LineSegmentDetectorImpl::get_theta", "third_party/line_segment_detector.cpp: angle_diff_signed"]}
{"id": "C97", "title": "The lines of an image are the segments of its large regions, and nothing else", "statement": "A line detection always ends. The pixels with a direction are split into disjoint regions, each one grown from the strongest pixel that the earlier ones left; the lines are the segments of the regions with at least the least size, in this order, at the scale of the image. The least size is the largest number of pixels for which the number of rectangles of the image times the probability of as many aligned pixels is one or more, at least two with the default parameters; there are no more lines than the image can hold regions of this size. Images given one after the other to the same detector are independent.", "quantifier": "every image, every scale, every sequence of images, every sort of the points, every arc tangent in [0, 360), no refinement (as the line detection of the project)", "why_tests_cant": "the partition and the count quantify over every image; a test sees a few lines and no missing region", "anchors": ["third_party/line_segment_detector.cpp: LineSegmentDetectorImpl::flsd", "third_party/line_segment_detector.cpp: LineSegmentDetectorImpl::detect", "src/features/lines/line_detection.cpp: Line_Detection::detect_lines"]}
{"id": "C98", "title": "A refined region fills its rectangle or is dropped", "statement": "With the standard refinement a region dense enough in its rectangle is kept as it is. Another one is grown again from the same seed, with a tolerance of twice the deviation of the directions around the seed, then reduced to the pixels in a smaller and smaller distance of the seed: it always ends, with at least two pixels dense enough in their rectangle, or with no region. The pixels given back are free again, those of the other regions stay used; a dropped region keeps its seed used.", "quantifier": "every region, every rectangle, every density threshold, every set of used pixels", "why_tests_cant": "the end of the reduction needs a decreasing measure over every region, and the marks of the pixels are only visible through later regions", "anchors": ["third_party/line_segment_detector.cpp: LineSegmentDetectorImpl::refine", "third_party/line_segment_detector.cpp: LineSegmentDetectorImpl::reduce_region_radius"]}
{"id": "C99", "title": "Lines are displayed with the colour of their depth", "statement": "A line with its two ends in the image is drawn between them, in yellow if both have a depth, else in red if one of its quarter points has a depth, else in purple; the quarter points are always between the ends. (Known exception: the detector can return a line with an end out of the image; the display then reads the depth mask out of its bounds. An 11 x 11 image with a ramp on one side of its diagonal is enough.)", "quantifier": "every line, every depth mask, every image size", "why_tests_cant": "the rounding of the quarter points and the lines that leave the image need precise coordinates", "anchors": ["src/features/lines/line_detection.cpp: Line_Detection::get_image_with_lines"]}
{"id": "C100", "title": "The text files of a dataset give exactly their lines", "statement": "The list of images of a file is made of its lines with a positive time stamp and a path, whatever the ends of lines and the blanks; of the lines with the same time stamp the first counts; comments, empty and malformed lines do not. An association file gives one frame per line with two images, in order, with the pose recorded at exactly the time of the RGB image, and is preferred to the lists. Without it every RGB image of the list is in one frame, with a depth image less than 0.15 s away or none. A missing file is an empty list, and no uninitialised time stamp is used. (Known defect: every line of the ground truth counts, so that an empty line is a pose at the time 0, and a line cut short a pose with indeterminate components that is given to a frame as valid; complete lines give their numbers.)", "quantifier": "every content of the files, every conversion of text to finite numbers, every order of the candidates with equal scores", "why_tests_cant": "the files have any length and any characters; tests parse the few well formed files of the dataset", "anchors": ["examples/TUM_parser.hpp: DatasetParser::parse_file", "examples/TUM_parser.hpp: DatasetParser::parse_ground_truth", "examples/TUM_parser.hpp: DatasetParser::parse_association_file", "examples/TUM_parser.hpp: DatasetParser::parse_dataset", "examples/main_TUM.cpp: get_data_association"]}
{"id": "C101", "title": "The example programs treat the images asked for, and end", "statement": "With a list of images the program treats, in order, those whose index is a multiple of the jump, until the first one at which the user quits; it does nothing without images or configuration. In a folder of numbered images it starts at the first multiple of the jump from the given index, goes on at each jump and ends at the first image that cannot be read; it ends if any image it would take is missing, and only then. A frame lasts the period of the asked rate, to a microsecond, or its own duration if longer. The mean duration is defined when a frame was treated. (Known defects: with a list, the index of the first image only shifts the count, all images are treated; a rate of 0 is undefined; the displayed error compares millimetres with the metres of the file.)", "quantifier": "every list of images, every first index, negative included, every jump, every history of keys, every set of readable images, every rate and duration", "why_tests_cant": "the loop runs over datasets of any length and wraps at 2^32; a test runs one dataset with the default options", "anchors": ["examples/main_TUM.cpp: main", "examples/main_CAPE.cpp: main", "examples/main_CAPE.cpp: load_images", "examples/main_TUM.cpp: get_ground_truth"]}
{"id": "C102", "title": "Morphological reconstruction floods the mask from the marker, and ends", "statement": "With a structuring element that contains its centre, the reconstruction by dilation always ends, and a pixel of the result reaches a level exactly when it is joined to a pixel of the marker at this level by a path on which the mask is at this level; the reconstruction by erosion is its negative. With a number of iterations paths have this number of steps. Filling the holes never darkens a pixel and leaves unchanged the areas that reach the first or the last line. (Known defects: without the centre it may never end; with 0 iterations the mask is ignored; the inside of the marker used to fill the holes is not initialised, and areas that only reach a side of the image are filled.)", "quantifier": "every size, every marker and mask of bytes, every structuring element with its centre, every level, every content of the memory", "why_tests_cant": "the result quantifies over all paths in an image of any size, and the end over all the markers and masks", "anchors": ["third_party/geodesic_operations.cpp: cv::GeodesicDilation", "third_party/geodesic_operations.cpp: cv::GeodesicErosion", "third_party/geodesic_operations.cpp: cv::fillHole"]}
{"id": "C103", "title": "The debug image shows the features where they are, and nothing else", "statement": "The debug image is, from bottom to top: a copy of the camera image, a black band on the first twenty-fifth of the lines, the frame rate when the duration is positive, the numbers of staged features and of features of each map, then the staged features when asked (orange if matched, red if not) and the features of the used maps with their own colour, and a red overlay exactly when the tracking is lost. A 3D point is drawn exactly when it is in front of the camera and projects in the image, on its pixel, with a red dot when it has no match; a point of unknown depth when a part of its segment is in the image, on pixels of the image; a matched plane as the lines between the successive points of its boundary that are in front of the camera. With points only, producing the image is always defined. (Known defects: the frame rate is the next greater integer, 30 is shown as 31; a boundary point of a plane near the camera makes the conversion of its pixel to an integer undefined; unmatched features are drawn although the documentation says otherwise.)", "quantifier": "every set of maps and features, every pose, every camera, every duration, every state of the tracking", "why_tests_cant": "the image depends on the whole map and on real coordinates near the limits of the image or of the integers; tests cannot check the drawing of all maps", "anchors": ["src/rgbd_slam.cpp: RGBD_SLAM::get_debug_image", "src/map_management/local_map.hpp: Local_Map::get_debug_image", "src/map_management/feature_map.hpp: Feature_Map::draw_on_image", "src/map_management/map_features/map_point.cpp: MapPoint::draw", "src/map_management/map_features/map_point2d.cpp: MapPoint2D::draw", "src/map_management/map_features/map_primitive.cpp: MapPlane::draw", "src/coordinates/polygon_coordinates.cpp: CameraPolygon::display"]}
{"id": "C104", "title": "The duration statistics report the mean of what was measured", "statement": "When at least one frame was processed, the report shows for each step the sum of its measured durations divided by the number of frames, and that mean as a percentage of the mean frame duration (0 when the frame duration is not positive); without a frame it reports nothing. The percentages of steps that do not overlap in a frame never add up to more than 100. (Known defects: the line detection time is never recorded and is always shown as 0; the totals of the pose optimisation are shared by all the systems of a program, so that a second system reports the durations of the first one.)", "quantifier": "every sequence of frames and measured durations, any number of systems alive in the program", "why_tests_cant": "the totals depend on the whole history of the frames and of the other objects of the program", "anchors": ["src/rgbd_slam.cpp: RGBD_SLAM::show_statistics, get_percent_of_elapsed_time", "src/map_management/local_map.hpp: Local_Map::show_statistics", "src/features/lines/line_detection.cpp: Line_Detection::show_statistics", "src/features/primitives/primitive_detection.cpp: Primitive_Detection::show_statistics", "src/features/keypoints/keypoint_detection.cpp: Key_Point_Extraction::show_statistics", "src/pose_optimization/pose_optimization.cpp: Pose_Optimization::show_statistics"]}
{"id": "C105", "title": "The closest point and the crossings of lines and segments are the geometric ones", "statement": "For a line built from a start and a direction, or a segment built from its ends, and after any moves of its start or end, the closest point to a given point is the only nearest point of the whole line, and the distance is the vector between them, orthogonal to the line; a segment of length zero is its start point. A crossing of two segments is a point of both, and one is found whenever there is one. A crossing of two lines is a point of both, at most 100 units ahead of both starts, and one is found whenever there is such a point. (Known defects: a direction set afterwards is not normalised, so that the closest point is wrong when its length is not 1; lines that cross further than 100 units or behind a start are said not to cross; if the geometry library reports success with no point, the first element of an empty vector is read.)", "quantifier": "every line, every segment (also of length zero), every sequence of changes, every point, every lawful answer of the geometry library", "why_tests_cant": "the claims are about all real coordinates and directions and all sequences of changes", "anchors": ["src/utils/line.hpp: ILine, Line, Segment, distance, get_closest_point, intersects, set_normal"]}
{"id": "C106", "title": "Random subsets with repetitions have the size or the score asked and take all the elements into account", "statement": "Asked for more elements than there are, the choice of a number of elements fails with an exception; otherwise it always ends, its results are lists of exactly that number of elements of the container, and each such list is possible. The choice by score always ends, takes only elements of the container, stops at the first element that brings the score to the target or after the given number of iterations, never later or earlier, and each such list is possible. (Known defects: with an empty container and a positive target the choice by score reads an element that does not exist; it can return less than the score asked, without any sign of it.)", "quantifier": "every container of at most 2^32 elements, every sequence of random draws, every scores, target and number of iterations", "why_tests_cant": "the draws are random: a test sees one sequence of draws, the claim is about all of them", "anchors": ["src/pose_optimization/ransac.hpp: get_random_subset_with_duplicates, get_random_subset_with_score_with_duplicates", "src/utils/random.hpp: Random::get_random_uint"]}
{"id": "C107", "title": "Log messages of concurrent threads come out whole and in order", "statement": "Whatever the schedule of the threads, the standard output holds at every moment the start of a sequence of whole information messages, and at the end exactly the messages of all the threads, each one whole and those of each thread in its order. The error output holds the warnings, each one whole and in order, and the errors, each one whole and in order; it holds whole messages when only one of the two kinds is logged. No schedule blocks the threads for ever. A message shows its kind, the file without its directories, the line, the column and the text, and ends with the reset of the colour. (Known defect: the warnings and the errors have different locks but the same stream, so that a warning and an error of two threads can be mixed.)", "quantifier": "every number of threads, every list of calls of each thread, every schedule of the threads, every log level setting", "why_tests_cant": "a test runs a few schedules, and mixed messages appear only in rare ones", "anchors": ["src/outputs/logger.cpp: log, log_warning, log_error"]}
{"id": "C108", "title": "An outline that crosses itself is cut in rings that keep its area and its turns", "statement": "A list of points given to the correction of outlines is first cleaned: the points that are not numbers are removed, the outline is closed and put in clockwise order; less than three points give nothing, and an outline without crossing gives itself. An outline that crosses itself only between its vertices, two edges at a time, is cut in closed rings whose points are its vertices and its crossings. The cutting ends, and uses no invalid iterator. Around each point of the plane the outline turns as many times as all the rings together, and the areas of the rings that are given add up to the area of the outline. (Known defect: a crossing that is farther from the starts of its two edges than these are from each other is ignored, and the outline is given as it is, still crossing itself.)", "quantifier": "every outline with any number of vertices and of crossings, every minimum area, every point of the plane", "why_tests_cant": "the order of the crossings on the edges and the number of rings are unbounded, a test has a few figures", "anchors": ["third_party/correct_boost_polygon.hpp: dissolve_find_intersections, dissolve_generate_rings, correct", "src/utils/polygon.cpp: Polygon::Polygon"]}
{"id": "C109", "title": "The rings of an outline are filled where the two largest ones agree", "statement": "The filling of rings that do not cross each other gives the points which are in a ring and around which the two largest rings turn the same way. It is the set of the points around which the outline turns, when no point is in more than two rings, or when the rings around it all turn the same way. Polygons that are combined cover the points of all of them and have no common point. The holes are removed from the outer outline. A valid concave outline is kept; an invalid one is replaced by the first polygon of its correction or, without one, by the convex hull. (Known defects: an island in a hole is lost; a part in four rings around which the outline does not turn is filled; the polygon that is kept is not the largest one.)", "quantifier": "every list of rings that do not cross each other, in every order and of any depth, every point off the outlines, every operation on polygons that satisfies its usual laws", "why_tests_cant": "the rings have any number and any nesting, the defects appear with three nested rings", "anchors": ["third_party/correct_boost_polygon.hpp: result_combine, fill_non_zero_winding, correct", "src/utils/polygon.cpp: Polygon::Polygon"]}
{"id": "C110", "title": "New keypoints are searched away from the tracked ones, in every frame", "statement": "In every session of images of the size given in the parameters the search of new keypoints works, and what it finds in an image does not depend on the images before. No new keypoint is detected on the disc drawn around a tracked one; after its refinement it can be at most three pixels and a half nearer in each direction. A corner that is on no disc is not lost: it is detected unless enough better corners are in its window. (Known defects: a refined keypoint can be nearer to a tracked one than the radius of the parameters; an image smaller than the search windows made from the parameters ends the program.)", "quantifier": "every session of images, every set of tracked points and of corners, every schedule of the workers, every refinement that stays in its window", "why_tests_cant": "the mask is kept between the frames in a static variable, so that the result of an image could depend on the whole history", "anchors": ["src/features/keypoints/keypoint_detection.cpp: Key_Point_Extraction::compute_key_point_mask, perform_keypoint_detection, detect_keypoints", "src/parameters.hpp: trackedMaskRadius_px"]}
{"id": "C111", "title": "The camera used by the conversions is the one loaded at their first use", "statement": "The functions that convert between pixels, directions and points, test the bounds of the image, make the search windows or propagate uncertainties keep the camera parameters of their first use. In every history of loads and uses, each use works with the camera that was loaded at the first call needing it; all the conversions between pixels and directions of a program use the same matrix, and when the camera is the same at all the uses every function works with it. (Known defects: loading a second file and making a second object mixes the two cameras; a conversion made before the first load keeps a null matrix for ever.)", "quantifier": "every history of loads of parameters, constructions and uses", "why_tests_cant": "the value used by a function depends on the whole history of loads and of uses of other functions", "anchors": ["src/coordinates/point_coordinates.cpp: transform_screen_to_camera, transform_camera_to_screen, is_in_screen_boundaries", "src/features/keypoints/keypoint_detection.cpp: Key_Point_Extraction", "src/utils/polygon.cpp: get_static_screen_boundary_polygon", "src/utils/covariances.cpp: get_screen_point_covariance, get_camera_point_covariance", "src/parameters.hpp: Parameters"]}
{"id": "C112", "title": "Every kind of features is treated once per frame and features change kind without being doubled", "statement": "With a valid pose, an update of the map unmatches for each kind the outliers of that kind, updates that kind with its own detections and stages those it did not use, each kind in turn; then each feature ready to change kind leaves its map and appears once in the map of its new kind, with a fresh identifier, the detections it was matched to and a success count of one, and nothing else changes. Without a pose, on the first frame, for the search of matches and for a reset each kind is treated once in the same way. The update throws exactly when the pose is invalid, which changes nothing, or when the constructor of a feature that changes kind throws. (Known defect: in this last case the feature has already left its map and is lost.)", "quantifier": "every family of kinds of which none both gives and takes features, every reachable state, every detections, outliers and results of the functions of the kinds", "why_tests_cant": "the interplay of the kinds depends on all their states and on the order of the loops", "anchors": ["src/map_management/local_map.hpp: Local_Map::update, update_no_pose, add_all_features_to_map, find_feature_matches, reset", "src/map_management/feature_map.hpp: get_upgraded_features, add_upgraded_features, add_to_local_map"]}
{"id": "C113", "title": "Lines found at several scales are in the image, numbered, and filtered by the mask", "statement": "A detection of lines with several octaves appends to the vector the lines found in each image of the pyramid, finest first, numbered from 0, each with its octave, its extremities in the image of the octave, those outside of this image being brought to its border, its extremities in the image (all inside of it), its middle and its size. With a mask of the size of the image, the lines of the vector of which no extremity is on a white pixel are removed, and only these. (The inclusion in the image is for images not too small for the octaves.) With a ratio of 2 it ends for all images; with another one it throws. (Known defects: in a build with assertions a detection without mask always aborts; a mask of another size is accepted, and read outside; with a ratio larger than the image, or an image one pixel wide, lines can be outside of the image; two detections in the same vector give the same numbers twice.)", "quantifier": "every image size, number of octaves, ratio, mask, lines found in each image and content of the vector", "why_tests_cant": "the extremities depend on every line that can be found at every scale, and the erasing loop on every pattern of masked lines", "anchors": ["third_party/line_segment_detector.cpp: LSD::detect (octaves), LSD::computeGaussianPyramid, LSD::checkLineExtremes"]}
{"id": "C114", "title": "The advanced validation of a line improves its rectangle without leaving it", "statement": "The advanced validation of a detected line tries, in five steps, smaller tolerances, smaller widths, a smaller width on one side, on the other side, and smaller tolerances again: each step keeps the rectangle if its score passes the threshold and otherwise takes the first best one of the at most six rectangles it tries. The score returned is that of the rectangle left, never less than the first score; the rectangle left has the direction and the length of the first one, its sides are between those of the first one and its width is at least a half if it changed. The pixels a score looks at are in the image, each one once, and looking for them never fails nor divides by zero. The sum of probabilities behind a score leaves out at most a tenth of the score times what it keeps, for a probability of at most a half. (Known defects: of a horizontal or upright rectangle only the first column is looked at, and of a tilted one pixels outside of it are looked at and pixels inside are not; the number of false alarms is multiplied by e^(n+1)/n! unless all or none of the n pixels are aligned.)", "quantifier": "every rectangle, scoring function, threshold, image size, numbers of pixels and probability", "why_tests_cant": "the search depends on the scores of all the variants of every rectangle, and the count on every position of the corners", "anchors": ["third_party/line_segment_detector.cpp: LSD::rect_improve, LSD::rect_nfa, LSD::nfa"]}
{"id": "C115", "title": "Each thread draws its own random numbers, all from the same seed", "statement": "The random results a thread obtains, from its start, are those it would obtain alone in the program: they depend neither on the other threads nor on the order in which they run; a program that runs the works in one thread gives the same results each time. (Known defects: the threads all start from the same seed, so that two threads that do the same works obtain the same results, and candidate poses tried by several threads that drew nothing before are all among those of the busiest one; the keypoint task of each frame runs in a new thread and draws the same numbers again, so that one fixed pattern of ranks decides which map points are dropped, in every frame.)", "quantifier": "every history of starts of threads and of works, every generator and every work that draws", "why_tests_cant": "the schedules of the threads are not under the control of a test, and it sees only a few of them", "anchors": ["src/utils/random.hpp: Random", "src/rgbd_slam.cpp: RGBD_SLAM::detect_features", "src/map_management/feature_map.hpp: Feature_Map::get_tracked_features", "src/map_management/map_features/map_point.cpp: MapPoint::add_to_tracked", "src/pose_optimization/pose_optimization.cpp: Pose_Optimization::compute_pose_with_ransac, compute_pose_variance"]}
{"id": "C116", "title": "The distance to a detected cylinder is that to its nearest part", "statement": "The distance of a point to a detected cylinder is defined as soon as it has a part; it is the least, over its parts, of the distance to the axis line of the part less its radius: negative exactly inside of a part, null or negative exactly when the point is inside of a part or on it. The similarity of two cylinders is between 0 and 1, the same in both orders, 1 exactly when their axes are parallel and 0 exactly when they are orthogonal. (Known defects: a copy keeps the axis, the centres and the radii but none of the parts, so that a distance to a copy, as to a cylinder without part, reads elements that do not exist.)", "quantifier": "every axis, number, centre and radius of the parts, and every point", "why_tests_cant": "the least distance is over any number of parts and any position of the point", "anchors": ["src/features/primitives/cylinder_segment.cpp: Cylinder_Segment::get_distance, get_normal_similarity, copy constructors"]}
{"id": "C117", "title": "The odd-even correction of polygons covers the points that are in an odd number of rings", "statement": "The odd-even correction of polygons always ends and reads no missing ring; the polygons it gives cover exactly the points off the outlines which are in an odd number of the rings cut in the outlines and the holes of all the polygons, a polygon whose outline gives no ring counting for nothing. Neither the order of the rings of the same area, nor the direction of the outlines, nor the order of the polygons changes what is covered.", "quantifier": "every list of polygons with any number of holes and of rings, every point off the outlines, every stable or unstable sort, every operation on polygons that satisfies its usual laws", "why_tests_cant": "the rings are combined two by two in rounds that depend on their number, for any number of rings", "anchors": ["third_party/correct_boost_polygon.hpp: fill_odd_even, fill_normalize_polygons, correct_odd_even"]}
{"id": "C118", "title": "Comparing two lists of segments measures how much their drawings differ", "statement": "The comparison of two lists of segments gives the number of pixels that are on the segments of exactly one list: it is null exactly when the drawings are the same, symmetric, satisfies the triangle inequality, is at most the number of pixels, and does not depend on the order or the repetition of segments. An image given takes the place of the size asked for; its pixels on segments of the first list get the whole blue, on segments of the second one the whole red, without green, and its other pixels are kept. Drawing segments makes exactly their pixels red, in an image of three channels or in a gray one, which is converted. The comparison fails only for an empty size or an image that has not three channels in one block.", "quantifier": "every size, lists of segments and image, every way of drawing a segment", "why_tests_cant": "a distance is a statement about all the pairs and triples of lists", "anchors": ["third_party/line_segment_detector.cpp: LSD::compareSegments, LSD::drawSegments"]}
{"id": "C119", "title": "The features of a frame do not depend on how the detection tasks take turns", "statement": "The keypoints, lines and planes detected in a frame by tasks that run at the same time are those that the same detections give one after the other, in any order: for every way the threads take turns, the call returns what each task finds alone, each detector is left as its task leaves it alone, the rest of the memory is unchanged except the number of the container, which grows by one, and no two tasks ever access the same data at the same time with one of them writing. The call returns as soon as every task has had enough turns; an exception in a task ends the program for every schedule. All the points are searched again exactly when the tracking is lost or the refresh counter is at one. (Known limit: two SLAM objects used from two threads share the static mask of the keypoint search, so that one of them can search with the mask of the other one.)", "quantifier": "all contents of the memory, all detectors that access only the data of their task, all interleavings of the tasks", "why_tests_cant": "interleavings of threads cannot be enumerated by a test, and a race shows only under rare schedules", "anchors": ["src/rgbd_slam.cpp: RGBD_SLAM::detect_features", "src/matches_containers.hpp: DetectedFeatureContainer", "src/features/keypoints/keypoint_detection.cpp: compute_key_point_mask, compute_keypoints"]}
{"id": "C120", "title": "Missing depth measures may be written as zero, a negative number or NaN", "statement": "Two depth images that only differ in how they write their missing measures (zero, negative, negative infinity or not a number) give the same cloud of points, the same boundary points of planes, the same mask of lines, and keypoints that become the same features, measure the same points or rays and are matched at the same places. The cloud holds exactly the pixels with a positive depth. A keypoint is used as a point exactly when it is inside of the border and the depth under it is more than 40 and at most 6000 millimeters, and as a ray otherwise. Images without NaN that differ only in their missing measures are rectified in the same way. (Known defects: one pixel that is NaN or positive infinity ends the program in the rectification; one positive depth of at most 2^-52 ends it in the construction of the cloud.)", "quantifier": "all sizes and contents of depth images, NaN and infinities included, all camera parameters, all roundings of the arithmetic", "why_tests_cant": "the values of the pixels of an image, with the special values of floating point numbers, cannot be enumerated", "anchors": ["src/features/primitives/depth_map_transformation.cpp: rectify_depth, get_organized_cloud_array", "src/coordinates/point_coordinates.cpp: is_depth_valid, ScreenCoordinate::to_camera_coordinates", "src/features/primitives/primitive_detection.cpp: compute_plane_segment_boundary", "src/features/keypoints/keypoint_handler.cpp: get_depth", "src/map_management/map_features/map_point.cpp: MapPoint::update_with_match", "src/map_management/map_features/map_point2d.cpp: MapPoint2D::update_with_match"]}
{"id": "C121", "title": "The rounding of the machine does not move keypoints in the search grid", "statement": "With the arithmetic of double precision numbers, the division of an image in cells covers it with the smallest number of cells of 31 pixels, and every position (in the image, or outside and then brought back to the first or last cell) is put in exactly the cell of 31 pixels that holds it: the floor of the rounded quotient is the exact one. The search around a position looks one cell around it, or two for the larger radius. A search whose cell is at least the search radius away from the top and left borders (nothing is found closer, the known defect) returns every unmatched keypoint at a squared distance of at most 900 (1 - 2^-49), and only unmatched keypoints at a squared distance of at most 900 (1 + 2^-49).", "quantifier": "all landscape image sizes up to 1000000 pixels a side, all double precision positions of keypoints and of searches below 2^50, all search radii from 1 to 1000 cells", "why_tests_cant": "there are 2^64 values of each coordinate and rounding errors show only at the borders of the cells and of the disc", "anchors": ["src/features/keypoints/keypoint_handler.cpp: Keypoint_Handler::Keypoint_Handler, get_search_space_coordinates, compute_key_point_mask, fill_keypoint_mask, get_match_indexes", "src/map_management/map_features/map_point.cpp: MapPoint::find_matches"]}
{"id": "C122", "title": "Every keypoint and every map feature keeps its own descriptor", "statement": "The container of followed keypoints holds, after any calls, exactly the pairs of identifier and position added since it was last cleared, in order. The keypoints of a frame are the detected ones, each with its own descriptor, then the followed ones without descriptor. In every history of frames, creations, matched updates, promotions, upgrades and removals, the descriptor of a map feature, read through the matrices that are shared by the detection, the keypoints and the map, is the one of the last keypoint with a descriptor it was created from or successfully matched with: later frames never change it, and no feature is ever without descriptor. A keypoint followed by the optical flow never becomes a new map feature and does not change the descriptor of the one it is matched with.", "quantifier": "all histories of frames and of actions on the map features, all detections, all extractors of descriptors, all indexes of 32 bits", "why_tests_cant": "sharing errors show only when a buffer is reused by a later frame while an old feature still refers to it", "anchors": ["src/features/keypoints/keypoint_handler.hpp: KeypointsWithIdStruct, Keypoint_Handler::at, get_descriptor", "src/features/keypoints/keypoint_handler.cpp: Keypoint_Handler::set", "src/features/keypoints/keypoint_detection.cpp: compute_keypoints", "src/map_management/map_features/map_point.cpp: MapPoint::update_with_match, StagedMapPoint, LocalMapPoint", "src/map_management/map_features/map_point2d.cpp: StagedMapPoint2D, compute_upgraded", "src/tracking/inverse_depth_with_tracking.cpp: update_with_cartesian"]}
{"id": "C123", "title": "Decisions on counts that are taken in floating point are those of the exact fractions", "statement": "Although the confidence of a staged point, the ratio test of descriptors, the minimal sizes of planes and of parts of cylinders, the missing points of a cell and the end of the RANSAC are computed with rounded constants and rounded products, each decision is the one of an exact integer comparison: a staged point is dropped when its count of matches is at most 0 and enters the map from 3 on; a keypoint is matched when 10 times its distance is less than 7 times the distance of the second one; a seed needs floor(8 n / 1000) cells and a plane floor(65 n / 10000); parts of cylinders are searched while more than a tenth of the cells is left and nine tenths of them are enough; a cell may miss floor(7 n / 10) points; the RANSAC ends early from its fourth iteration with at least floor(4 n / 5) + 2 inliers (so never with at most five matches, even when all of them are inliers, although 80 percent is asked for).", "quantifier": "all counts of 32 bits; all Hamming distances up to 256 bits; cells of up to 2^20 points; up to 2^24 matches", "why_tests_cant": "at exact fractions the decision depends on the last bit of a rounded product, which no sample of counts covers", "anchors": ["src/map_management/map_features/map_point.cpp: get_confidence, should_add_to_local_map, should_remove_from_staged", "src/map_management/map_features/map_point2d.cpp: get_confidence", "src/features/keypoints/keypoint_handler.cpp: get_match_indexes", "src/features/primitives/primitive_detection.cpp: grow_planes_and_cylinders, grow_plane_segment_at_seed", "src/features/primitives/cylinder_segment.cpp: Cylinder_Segment, run_ransac_loop", "src/features/primitives/plane_segment.hpp: set_static_members", "src/pose_optimization/pose_optimization.cpp: compute_pose_with_ransac"]}
{"id": "C124", "title": "The RANSAC draws a subset of inliers often enough", "statement": "The RANSAC makes at most 119 iterations. When the matches are n points of which k are inliers, a draw takes five of them, and it takes only inliers in exactly k(k-1)(k-2)(k-3)(k-4) / (n(n-1)(n-2)(n-3)(n-4)) of the orders of the matches. From seven points on, with 65 percent of inliers, a subset made only of inliers is drawn in at least 80 percent of the runs with 33 different draws, and in at least 99 percent of those with the 119 draws of one thread (with five or six points and four inliers, which is more than 65 percent, no draw is made only of inliers; and threads that start from the same engine repeat the same draws, so that four of them make 30 different ones, which is not enough for 80 percent with seven points).", "quantifier": "all sets of matched points, all orders of them and all sequences of orders, counted; all errors of the logarithms up to a tenth", "why_tests_cant": "a probability is a count over all the sequences of draws: a test sees a few of them", "anchors": ["src/pose_optimization/pose_optimization.cpp: compute_pose_with_ransac", "src/pose_optimization/ransac.hpp: get_random_subset_with_score", "src/parameters.hpp: optimization::ransac", "src/utils/random.hpp: Random::get_random_engine"]}
{"id": "C125", "title": "The matches of the maps are all gathered", "statement": "The list of matches given to the pose optimization has every match found by every map, exactly as many times as it was found and in the order in which its map found it, whatever the addresses of the match objects; and gathering leaves the maps as if each had been searched alone. If each map finds its matches at increasing addresses the list is at increasing addresses (nothing ensures it: the list is put together by a merge that the C++ standard only defines for sorted lists, and its order depends on the addresses, so that the same frames and the same random numbers can give the RANSAC a subset of inliers in one run and not in another).", "quantifier": "all maps and all their features, all frames, all addresses of the match objects", "why_tests_cant": "the addresses are chosen by the allocator and differ between runs: a test sees the ones of its own runs", "anchors": ["src/map_management/local_map.hpp: find_feature_matches", "src/map_management/feature_map.hpp: get_matches", "src/matches_containers.hpp: match_container"]}
{"id": "C126", "title": "The rounding of the machine does not move the projections", "statement": "For cameras, images, depths and poses of usual sizes (focal distances from 100 to 10000 pixels, images up to 10000 pixels, depths from one millimeter to 100 meters, positions within 100 meters), the conversions computed with the rounding of the machine stay close to the exact ones: a pixel with a depth gives a camera point within a millionth of a millionth of its depth, and comes back within a billionth of a pixel and with the same depth; a camera point is projected within a billionth of a pixel of where a pinhole camera sees it; a world point is brought to the camera within a billionth of a millimeter, and from four centimeters on to the screen within two millionths of a pixel.", "quantifier": "all intrinsics, pixels, depths, poses and points of these sizes that are numbers of the machine", "why_tests_cant": "the rounding errors depend on all the bits of all the numbers: a test sees the ones of its own numbers", "anchors": ["src/coordinates/point_coordinates.cpp: transform_screen_to_camera, transform_camera_to_screen, to_camera_coordinates, to_screen_coordinates", "src/parameters.hpp: get_camera_1_intrinsics"]}
{"id": "C127", "title": "The rounding of the machine hardly changes the statistics of a plane segment", "statement": "For up to a million measured points whose coordinates are at most B (1 or more), however they are spread over segments that are then expanded with each other, the number of points of the computed segment is exact and its computed scatter matrix is symmetric with a diagonal that is not negative, and each entry differs from the exact one by at most n B^2 / 16000000, although products of coordinates are rounded to floats. So with a correct eigenvalue solver the fitted normal is the best one up to six times this, and the smallest eigenvalue is the sum of squared distances up to three times this. The computed matrix is not always positive: it may have a negative direction, by no more than this.", "quantifier": "all groupings of all points with coordinates up to B, all bounds B, all directions and planes", "why_tests_cant": "the rounding errors depend on all the bits of all the points and on the order of the additions: a test sees the ones of its own points", "anchors": ["src/features/primitives/plane_segment.cpp: init_plane_segment, expand_segment, get_point_cloud_Huygen_covariance, fit_plane", "src/types.hpp: SQR"]}
{"id": "C128", "title": "Rectifying the depth image follows the geometry up to the rounding; with aligned cameras it moves a depth by at most one pixel, but may move it", "statement": "When the two cameras of the configuration are at the same place, the rectified depth image is computed from the rounded numbers of the machine: for every image of depths from 1 mm to 100 m (or missing) and whatever the schedule of the parallel rows, each pixel of the result is null or has the exact depth of its own pixel or of one of the three pixels after it (next column, next row or both), and each measure after the second row and column fills its own pixel or one before it. With any second camera of a usual field of view, a measure is stored at the pixel that contains a position within 3 millionths of (focal + distance to the principal point) times the ratio of its two depths from the exact projection of its point, with the exact depth up to 2 millionths of the measure and a ten-millionth. With aligned cameras no pixel makes the program exit, and outside of the first row and column no conversion is undefined. But the result is not always the image itself: with some cameras and depths a measure moves one pixel to the left and leaves a hole, and a measure of the first column may be converted from a negative number to an unsigned one, which is undefined.", "quantifier": "all usual cameras, all depth images up to 10000 by 10000 with float depths from 1 to 100000 mm or missing, all schedules of the rows", "why_tests_cant": "the displacement depends on the bits of the depth and of the intrinsics, and the value of a pixel written twice on the schedule: a test with one camera and a few depths sees the identity", "anchors": ["src/features/primitives/depth_map_transformation.cpp: rectify_depth, init_matrices", "src/coordinates/point_coordinates.cpp: ScreenCoordinate2D::to_camera_coordinates, CameraCoordinate::to_screen_coordinates"]}
{"id": "C129", "title": "The organised cloud has the measured point of each pixel, up to the rounding of floats", "statement": "For every usual camera and depth image (depths from 1 mm to 100 m, or missing) divided in cells, and whatever the schedule of the parallel rows, the slot of a pixel with a measure has exactly its depth and the two other coordinates of its point within a ten-millionth of their value (and of a thousandth of the depth); no conversion throws; the camera sees the stored point within 1/300 pixel of its own pixel, so at this pixel; and a plane that contains the exact point passes within the same ten-millionth of the stored one. The slot of a pixel without measure is null.", "quantifier": "all usual cameras, all depth images up to 10000 by 10000, all sizes of cells that divide them, all pixels, planes and schedules", "why_tests_cant": "the errors depend on the bits of each depth and of the intrinsics, and the parallel stores on the schedule", "anchors": ["src/features/primitives/depth_map_transformation.cpp: get_organized_cloud_array", "src/coordinates/point_coordinates.cpp: ScreenCoordinate::to_camera_coordinates, CameraCoordinate::to_screen_coordinates"]}
{"id": "C130", "title": "The rounding of the machine does not spoil the variance of the pose", "statement": "When the poses of 2 to 1000 successful variations are within 100 m of the origin and their coordinates within 500 of each other, each entry of the computed variance is within 1/10000 of the sample covariance plus 1/1000 on the diagonal, in whatever order the parallel iterations end, so two schedules give variances within 1/5000. The computed matrix is exactly symmetric and positive definite (at least 4/10000 in each direction), so correct tests accept it: the variance is computed as soon as half of the iterations, and at least two, succeed.", "quantifier": "all lists of 2 to 1000 poses of these sizes, all orders of the iterations, all correct tests of symmetry and positivity", "why_tests_cant": "the errors depend on the bits of all the poses and on the order in which the threads end", "anchors": ["src/pose_optimization/pose_optimization.cpp: compute_pose_variance", "src/utils/covariances.hpp: is_covariance_valid"]}
{"id": "C131", "title": "The variance of the pose is the one of optimisations of the same matches", "statement": "Each iteration of the pose variance optimises, from the same pose, a set of the same matches in the same order: the same detections, observations and deviations, where each coordinate of a map feature moves by its own draw times its deviation. No draw makes the construction of a valid match fail, and no draw changes the decision that the matches are enough to optimise a pose. When the map features are known exactly, every iteration computes the same pose, so the variance is exactly 1/1000 on the diagonal and zero elsewhere: the noise of the detections does not count.", "quantifier": "all lists of matches of the three kinds, all draws, all optimisers, all orders and numbers of iterations", "why_tests_cant": "the draws are random and real valued, and the matches, the optimiser and the schedule are arbitrary", "anchors": ["src/pose_optimization/pose_optimization.cpp: compute_random_variation_of_pose, compute_pose_variance", "src/map_management/map_features/map_point.cpp: compute_random_variation", "src/map_management/map_features/map_point2d.cpp: compute_random_variation", "src/map_management/map_features/map_primitive.cpp: compute_random_variation"]}
