{"id": "C01", "title": "Every managed track is either tentative or confirmed", "statement": "After any sequence of public calls on a track manager, the tracks returned by get_all_tracks are, up to order, exactly the tracks returned by get_tentative_tracks together with those returned by get_confirmed_tracks; none of the three getters throws; and no uuid occurs twice in the result of get_all_tracks.", "quantifier": "for every initial pair of thresholds, every finite sequence of add / update_track_lists / threshold / update_track calls (including calls that throw), and every iteration order of the hash maps", "why_tests_cant": "the claim ranges over unbounded call histories and over unspecified hash-map iteration orders; a test visits finitely many histories and one order", "anchors": ["include/multiple_object_tracking/track_management.hpp FixedThresholdTrackManager::get_all_tracks", "include/multiple_object_tracking/track_management.hpp FixedThresholdTrackManager::get_tentative_tracks", "include/multiple_object_tracking/track_management.hpp FixedThresholdTrackManager::get_confirmed_tracks"]}
{"id": "C02", "title": "A track is stored under its own uuid", "statement": "For every uuid, at most one track with that uuid is ever managed, get_occurrences is non-zero only for uuids of managed tracks, and each managed track carries the uuid it was added with.", "quantifier": "for every reachable manager state (histories whose counters stay within int range for the get_occurrences clause)", "why_tests_cant": "three separate hash maps must stay in step over every history, including histories containing failed calls", "anchors": ["include/multiple_object_tracking/track_management.hpp FixedThresholdTrackManager::add_tentative_track", "include/multiple_object_tracking/track_management.hpp FixedThresholdTrackManager::get_occurrences", "include/multiple_object_tracking/track_management.hpp FixedThresholdTrackManager::update_track"]}
{"id": "C03", "title": "Adding a track", "statement": "add_tentative_track of a uuid that is not managed makes it managed, tentative, with one occurrence, storing exactly the given track, and changes nothing about any other track or the thresholds; for a uuid already managed it throws std::logic_error and changes nothing.", "quantifier": "for every reachable state and every track", "why_tests_cant": "must hold in every state reachable by any history; tests add to a few fixed states", "anchors": ["include/multiple_object_tracking/track_management.hpp FixedThresholdTrackManager::add_tentative_track"]}
{"id": "C04", "title": "Exact effect of update_track_lists", "statement": "update_track_lists(A): a track with count c gets the count min(c+1, promotion threshold) if its uuid is a key of A and c-1 otherwise; it is kept exactly when the new count exceeds the removal threshold; a kept track is confirmed if it was confirmed or its new count reaches the promotion threshold, otherwise it keeps its status; the stored track data of kept tracks is unchanged; no track appears.", "quantifier": "for every reachable state whose counters have not reached the top of std::size_t, every association map and every iteration order of the hash map", "why_tests_cant": "quantifies over all states and all iteration orders of an unordered container mutated during iteration", "anchors": ["include/multiple_object_tracking/track_management.hpp FixedThresholdTrackManager::update_track_lists"]}
{"id": "C05", "title": "Counters never underflow, and do not overflow in fewer than 2^64-2 updates", "statement": "The occurrence counter of a managed track is always at least 1 before an update, so its decrement never wraps; the increment does not wrap in any history with fewer than 2^64-2 calls of update_track_lists.", "quantifier": "for every history", "why_tests_cant": "needs an inductive invariant over arbitrary histories; the overflow bound is far beyond what can be executed", "anchors": ["include/multiple_object_tracking/track_management.hpp FixedThresholdTrackManager::update_track_lists"]}
{"id": "C06", "title": "Confirmed tracks are never demoted by association updates", "statement": "update_track_lists, update_track, add_tentative_track and set_removal_threshold_and_update never turn a confirmed track back into a tentative one: a confirmed track stays confirmed until it is removed or the promotion threshold is set.", "quantifier": "for every reachable state, every sequence of such calls of any length", "why_tests_cant": "a trace property over unbounded sequences", "anchors": ["include/multiple_object_tracking/track_management.hpp FixedThresholdTrackManager::update_track_lists", "include/multiple_object_tracking/track_management.hpp FixedThresholdTrackManager::set_removal_threshold_and_update"]}
{"id": "C07", "title": "Promotion latency", "statement": "A freshly added track whose uuid is associated in every one of the next k updates (removal threshold < 2 and < promotion threshold p) has min(k+1,p) occurrences after them, is managed, and is confirmed exactly when k >= 1 and k+1 >= p.", "quantifier": "for every k, every pair of thresholds satisfying the side conditions, every state the track is added to, and whatever is associated or not associated with the other tracks", "why_tests_cant": "unbounded k and thresholds", "anchors": ["include/multiple_object_tracking/track_management.hpp FixedThresholdTrackManager::add_tentative_track", "include/multiple_object_tracking/track_management.hpp FixedThresholdTrackManager::update_track_lists"]}
{"id": "C08", "title": "Removal latency", "statement": "A managed track with count c whose uuid is missed in each of the next k updates is still managed exactly when c-k exceeds the removal threshold r (or k = 0); when kept its count is c-k and its status has not gone from confirmed to tentative.", "quantifier": "for every k, every reachable state and every treatment of the other tracks", "why_tests_cant": "unbounded k and states", "anchors": ["include/multiple_object_tracking/track_management.hpp FixedThresholdTrackManager::update_track_lists"]}
{"id": "C09", "title": "Setting the promotion threshold", "statement": "After set_promotion_threshold_and_update(p) a track is confirmed exactly when its count is at least p; no track is added or removed, no count and no track data changes, and get_promotion_threshold returns p.", "quantifier": "for every reachable state, every p and iteration order", "why_tests_cant": "all states, all orders", "anchors": ["include/multiple_object_tracking/track_management.hpp FixedThresholdTrackManager::set_promotion_threshold_and_update"]}
{"id": "C10", "title": "Re-setting the promotion threshold to its current value can demote a track", "statement": "Users would expect that set_promotion_threshold_and_update(get_promotion_threshold()) changes nothing. It does not hold: a confirmed track that was missed once is demoted to tentative.", "quantifier": "there is a reachable state where the call changes the result of get_confirmed_tracks (counter-example to: for every reachable state)", "why_tests_cant": "existing tests only check changed thresholds right after promotion", "anchors": ["include/multiple_object_tracking/track_management.hpp FixedThresholdTrackManager::set_promotion_threshold_and_update"]}
{"id": "C11", "title": "Setting the removal threshold", "statement": "After set_removal_threshold_and_update(r) exactly the tracks whose count exceeds r remain; their counts, statuses and data are unchanged, and get_removal_threshold returns r; the call is idempotent.", "quantifier": "for every reachable state, every r and iteration order", "why_tests_cant": "all states, all orders", "anchors": ["include/multiple_object_tracking/track_management.hpp FixedThresholdTrackManager::set_removal_threshold_and_update"]}
{"id": "C12", "title": "Hash-map iteration order is not observable except as order of the returned vectors", "statement": "Two managers driven by the same calls but with different iteration orders at every call hold the same tracks, statuses, counts and thresholds, and their getters return permutations of each other.", "quantifier": "for every call sequence and every two families of iteration orders", "why_tests_cant": "the standard library fixes one order per build; tests cannot vary it", "anchors": ["include/multiple_object_tracking/track_management.hpp FixedThresholdTrackManager::update_track_lists", "include/multiple_object_tracking/track_management.hpp FixedThresholdTrackManager::set_promotion_threshold_and_update", "include/multiple_object_tracking/track_management.hpp FixedThresholdTrackManager::set_removal_threshold_and_update"]}
{"id": "C13", "title": "Tracks do not interfere with each other", "statement": "What get_occurrences, the status and the stored data report for one uuid after any history is a function of the thresholds and of the part of the history that concerns that uuid alone (its adds, its update_track calls, whether each association map has its key, and the threshold changes).", "quantifier": "for every uuid and every history", "why_tests_cant": "relational property over pairs of unbounded histories", "anchors": ["include/multiple_object_tracking/track_management.hpp FixedThresholdTrackManager::update_track_lists", "include/multiple_object_tracking/track_management.hpp FixedThresholdTrackManager::add_tentative_track", "include/multiple_object_tracking/track_management.hpp FixedThresholdTrackManager::update_track"]}
{"id": "C14", "title": "Only the key set of the association map matters to the manager", "statement": "update_track_lists with two association maps that have the same keys has the same effect, whatever detection lists they hold; a key with an empty detection list still counts as an occurrence.", "quantifier": "for every state and every two association maps with equal key sets", "why_tests_cant": "relational property over all maps", "anchors": ["include/multiple_object_tracking/track_management.hpp FixedThresholdTrackManager::update_track_lists"]}
{"id": "C15", "title": "update_track frame", "statement": "update_track on a managed uuid, when it succeeds, sets timestamp, state and covariance of that track to the given values and leaves its uuid, semantic class, status, count, and every other track unchanged; on an unmanaged uuid it throws std::out_of_range and changes nothing.", "quantifier": "for every reachable state and all arguments, for both overloads and for plain and variant track types", "why_tests_cant": "frame conditions range over all states and all other tracks", "anchors": ["include/multiple_object_tracking/track_management.hpp FixedThresholdTrackManager::update_track", "include/multiple_object_tracking/dynamic_object.hpp set_state", "include/multiple_object_tracking/dynamic_object.hpp copy_state"]}
{"id": "C16", "title": "update_track gives no strong exception guarantee for variant tracks", "statement": "Users would expect a throwing update_track to leave the track as it was. It does not: with a variant track type and a state of the other motion model the call throws std::runtime_error after the timestamp has already been overwritten.", "quantifier": "there is a reachable state and an argument for which the call throws and the stored track has changed", "why_tests_cant": "tests only exercise successful updates; the counter-example settles the universally quantified expectation", "anchors": ["include/multiple_object_tracking/track_management.hpp FixedThresholdTrackManager::update_track", "include/multiple_object_tracking/dynamic_object.hpp detail::copy_state_visitor", "include/multiple_object_tracking/dynamic_object.hpp detail::set_state_visitor"]}
{"id": "C17", "title": "Inverted thresholds delete every track", "statement": "If the promotion threshold is not larger than the removal threshold, update_track_lists leaves no track that was associated, and a tracked object can never survive an update in which it was seen.", "quantifier": "for every reachable state, every such pair of thresholds, every association map", "why_tests_cant": "all states and all thresholds", "anchors": ["include/multiple_object_tracking/track_management.hpp FixedThresholdTrackManager::update_track_lists"]}
{"id": "C18", "title": "get_occurrences reports the counter", "statement": "get_occurrences returns 0 for an unmanaged uuid and the counter of a managed one as long as the counter is below 2^31; a managed track is therefore reported with a positive number in every history with fewer than 2^31-1 updates.", "quantifier": "for every history", "why_tests_cant": "depends on an invariant over histories and on the size_t to int conversion", "anchors": ["include/multiple_object_tracking/track_management.hpp FixedThresholdTrackManager::get_occurrences"]}
{"id": "C19", "title": "Score map contains exactly the comparable pairs", "statement": "score_tracks_and_detections has an entry for a (track uuid, detection uuid) pair exactly when some track and detection with these uuids have a score; the entry is the score of the last such pair in iteration order (tracks outer, detections inner); with unique uuids it is the score of that pair.", "quantifier": "for every list of tracks, list of detections and score visitor", "why_tests_cant": "unbounded lists, duplicate uuids", "anchors": ["include/multiple_object_tracking/scoring.hpp score_tracks_and_detections", "include/multiple_object_tracking/scoring.hpp ScoreMap"]}
{"id": "C20", "title": "Different motion models are never scored", "statement": "With the Euclidean or Mahalanobis score visitor, a CTRV object and a CTRA object never get a score, and two objects of the same model always do.", "quantifier": "for every pair of tracks and detections", "why_tests_cant": "all pairs", "anchors": ["include/multiple_object_tracking/scoring.hpp detail::euclidean_distance_score_fn", "include/multiple_object_tracking/scoring.hpp detail::mahalanobis_distance_score_fn"]}
{"id": "C21", "title": "Gating removes exactly what the predicate selects", "statement": "prune_track_and_detection_scores_if removes exactly the entries whose score satisfies the predicate and leaves all other entries and their scores as they were; pruning twice with the same predicate is the same as once, and the order of two prunings does not matter.", "quantifier": "for every score map and every pure predicate", "why_tests_cant": "the loop erases while iterating over an ordered map of any size", "anchors": ["include/multiple_object_tracking/gating.hpp prune_track_and_detection_scores_if"]}
{"id": "C22", "title": "NaN scores survive threshold gating", "statement": "A gating predicate of the form score > threshold never removes an entry whose score is NaN.", "quantifier": "for every score map and threshold", "why_tests_cant": "all maps and thresholds; NaN behaviour is easy to overlook", "anchors": ["include/multiple_object_tracking/gating.hpp prune_track_and_detection_scores_if"]}
{"id": "C23", "title": "Euclidean score is a metric on poses", "statement": "Over exact arithmetic the Euclidean score is non-negative, symmetric, satisfies the triangle inequality, and is zero exactly when x, y and yaw agree; velocity, yaw rate and acceleration do not influence it.", "quantifier": "for all states of either motion model", "why_tests_cant": "universally quantified over a continuum", "anchors": ["include/multiple_object_tracking/ctrv_model.hpp euclidean_distance", "include/multiple_object_tracking/ctra_model.hpp euclidean_distance", "include/multiple_object_tracking/scoring.hpp detail::euclidean_distance_score_fn"]}
{"id": "C24", "title": "Euclidean score is not rotation aware", "statement": "Users would expect two headings separated by a small rotation to be close. Not so across the 0/2pi seam: there are poses with the same position and headings less than any given eps apart whose score is more than 6.", "quantifier": "for every eps > 0 there are two such states", "why_tests_cant": "tests only use headings away from the seam", "anchors": ["include/multiple_object_tracking/ctrv_model.hpp euclidean_distance"]}
{"id": "C25", "title": "Mahalanobis score", "statement": "Over exact arithmetic, if the pose block of the track covariance is symmetric positive definite, the Mahalanobis score is non-negative, zero exactly for equal poses, symmetric in the two poses, and with an identity pose block it equals the Euclidean score. It is the root of the scalar product of the pose difference with the solution of the linear system whose matrix holds the covariance entries of x, y and heading.", "quantifier": "for all states and all positive definite covariances", "why_tests_cant": "a continuum of matrices", "anchors": ["include/multiple_object_tracking/ctrv_model.hpp mahalanobis_distance", "include/multiple_object_tracking/ctra_model.hpp mahalanobis_distance"]}
{"id": "C26", "title": "Assignments are one-to-one", "statement": "In the association map returned by gnn_associator every associated track has exactly one detection, no detection is given to two tracks, all uuids occur in the score map, and the number of associated tracks is the smaller of the number of distinct tracks and distinct detections in the score map.", "quantifier": "for every score map on which the call is defined and every maximum-cost assignment the solver may return", "why_tests_cant": "all maps and all ties between optimal assignments", "anchors": ["include/multiple_object_tracking/track_matching.hpp gnn_associator", "include/multiple_object_tracking/track_matching.hpp association_map_from_score_map"]}
{"id": "C27", "title": "Optimality on complete score maps", "statement": "If every track-detection pair is scored, all scores are finite and non-negative and at least one is positive, then gnn_associator is defined and the total score of its associations exceeds the total of any other one-to-one association of the same size by at most a rounding term of 2.1e-7 times the largest score per associated pair.", "quantifier": "for every such score map of any size, every solver result, and every competing association", "why_tests_cant": "combines IEEE-754 rounding for all floats with a combinatorial optimum of unbounded size", "anchors": ["include/multiple_object_tracking/track_matching.hpp cost_matrix_from_score_matrix", "include/multiple_object_tracking/track_matching.hpp gnn_associator"]}
{"id": "C28", "title": "A pair without a score can be associated", "statement": "Users rely on gating: a pair removed from the score map must not be associated. It does not hold: there are score maps for which every maximum-cost assignment associates a track with a detection although this pair has no score.", "quantifier": "there is a score map such that for every solver result ... (counter-example to: for every score map)", "why_tests_cant": "needs reasoning about all optimal assignments, not the one a build happens to return", "anchors": ["include/multiple_object_tracking/track_matching.hpp gnn_associator", "include/multiple_object_tracking/track_matching.hpp association_map_from_score_map"]}
{"id": "C29", "title": "Missing pairs erase the distance information", "statement": "As soon as one track-detection pair has no score, all scores of ordinary size are mapped to the same cost: the set of possible association maps does not depend on the values of the scores that are present, only on which pairs are present.", "quantifier": "for every two score maps with the same keys, at least one missing pair and all scores finite, non-negative and at most 2^100", "why_tests_cant": "a relational statement over all pairs of score maps with IEEE rounding", "anchors": ["include/multiple_object_tracking/track_matching.hpp score_matrix_from_score_map", "include/multiple_object_tracking/track_matching.hpp cost_matrix_from_score_matrix"]}
{"id": "C30", "title": "Nearest neighbour is lost after gating", "statement": "There is a score map with a missing pair and a solver result for which gnn_associator returns an association with a total score 10^9 times larger than that of another association of the same size.", "quantifier": "existential counter-example to optimality for incomplete score maps", "why_tests_cant": "requires exhibiting an optimal solver result, which a fixed build may or may not return", "anchors": ["include/multiple_object_tracking/track_matching.hpp gnn_associator"]}
{"id": "C31", "title": "Undefined behaviour on empty and on all-zero score maps", "statement": "gnn_associator on an empty score map takes the maximum of an empty matrix; on a score map whose scores are all zero it converts NaN to int. Both are undefined behaviour and both inputs arise from ordinary use (everything gated; detections exactly at the track).", "quantifier": "for the empty map and for every non-empty complete score map with all scores zero", "why_tests_cant": "undefined behaviour may look fine in a test run", "anchors": ["include/multiple_object_tracking/track_matching.hpp cost_matrix_from_score_matrix", "include/multiple_object_tracking/track_matching.hpp gnn_associator"]}
{"id": "C32", "title": "Definedness of the cost conversion", "statement": "On every non-empty score map with finite non-negative scores, not all zero or with at least one missing pair, no step of gnn_associator is undefined: each cost lies between 0 and 100000000, and smaller scores never get smaller costs.", "quantifier": "for every such score map", "why_tests_cant": "all float inputs", "anchors": ["include/multiple_object_tracking/track_matching.hpp cost_matrix_from_score_matrix"]}
{"id": "C33", "title": "Square padding is neutral", "statement": "make_square_matrix returns a square matrix whose upper left block is the input and whose other entries are the padding value; padding with any constant does not change which injective assignments of the original block are optimal.", "quantifier": "for every matrix of any dimensions and every padding value", "why_tests_cant": "unbounded dimensions", "anchors": ["include/multiple_object_tracking/detail/dlib_extensions.hpp make_square_matrix"]}
{"id": "C34", "title": "HasAssociation", "statement": "The predicate built from an association map is true of a track exactly when its uuid is a key of the map, and of a detection exactly when its uuid is in one of the lists; it is the same for a plain object and for a variant holding it.", "quantifier": "for every association map and object", "why_tests_cant": "all maps", "anchors": ["include/multiple_object_tracking/track_matching.hpp HasAssociation"]}
{"id": "C35", "title": "get_element_at", "statement": "get_element_at(s, i) returns the (i+1)-smallest element of the set, and throws std::out_of_range exactly when i is not smaller than the size of the set.", "quantifier": "for every set and index", "why_tests_cant": "all sets", "anchors": ["include/multiple_object_tracking/track_matching.hpp get_element_at"]}
{"id": "C36", "title": "What fuse_associations returns", "statement": "fuse_associations returns exactly one fused track per (association key, track with that uuid, detection whose uuid is listed), in that nesting order; each has the uuid and semantic class of its track and the timestamp of its detection; tracks without association yield nothing.", "quantifier": "for every association map, track list and detection list", "why_tests_cant": "unbounded inputs, duplicates, missing uuids", "anchors": ["include/multiple_object_tracking/fusing.hpp fuse_associations", "include/multiple_object_tracking/fusing.hpp covariance_intersection_visitor"]}
{"id": "C37", "title": "Fusing a track with a detection of another motion model is undefined", "statement": "If a listed detection has a different motion model from its track, the covariance intersection visitor combines matrices of different sizes, which is undefined; and the scoring, association and fusion functions of this library can produce this situation by themselves.", "quantifier": "for every such pair; and there are tracks and detections such that for every solver result the pipeline reaches it", "why_tests_cant": "a property of the composition of several functions for all solver results", "anchors": ["include/multiple_object_tracking/fusing.hpp covariance_intersection_visitor", "include/multiple_object_tracking/track_matching.hpp gnn_associator"]}
{"id": "C38", "title": "Fusion weight", "statement": "generate_weight(A,B) + generate_weight(B,A) = 1 whenever det(A+B) is not 0; for symmetric positive definite A and B the weight lies strictly between 0 and 1; and generate_weight(A,A) = 1/2.", "quantifier": "for all square matrices of any size, over exact arithmetic", "why_tests_cant": "a continuum of matrices", "anchors": ["include/multiple_object_tracking/fusing.hpp generate_weight"]}
{"id": "C39", "title": "Covariance intersection keeps covariances positive definite", "statement": "For symmetric positive definite inverse covariances and a weight in [0,1] the fused covariance is symmetric positive definite and its inverse is the weighted sum; if both means are equal and the heading entry does not exceed the wrap constant the fused mean is that mean; fusing an estimate with itself returns it.", "quantifier": "for all dimensions of at least 4, all such matrices, means and weights, over exact arithmetic", "why_tests_cant": "a continuum", "anchors": ["include/multiple_object_tracking/fusing.hpp compute_covariance_intersection"]}
{"id": "C40", "title": "Covariance intersection is conservative", "statement": "For symmetric positive definite inputs the fused covariance never claims more certainty than the convex combination allows: for every direction v, the fused information v'Iv lies between the smaller and the larger of the two input informations.", "quantifier": "for all directions, matrices, weights in [0,1]", "why_tests_cant": "a continuum", "anchors": ["include/multiple_object_tracking/fusing.hpp compute_covariance_intersection"]}
{"id": "C41", "title": "Fused heading across the pi seam", "statement": "Users would expect that fusing two headings that are a small rotation apart gives a heading close to both. Not so: there are a track and a detection with equal covariances, headings less than 0.1 rad apart as rotations, whose fused heading is more than 3 rad away from both.", "quantifier": "existential counter-example", "why_tests_cant": "tests use headings away from the seam", "anchors": ["include/multiple_object_tracking/fusing.hpp compute_covariance_intersection"]}
{"id": "C42", "title": "Clustering partitions the detections", "statement": "cluster_detections terminates and, when the uuids of the detections are distinct, every input detection is in exactly one returned cluster, no cluster is empty and nothing else is in a cluster.", "quantifier": "for every list of detections, every threshold and every pure metric", "why_tests_cant": "unbounded lists; termination for every metric", "anchors": ["include/multiple_object_tracking/clustering.hpp cluster_detections"]}
{"id": "C43", "title": "Cluster geometry", "statement": "Every returned cluster has an origin detection such that all its other members have metric value below the threshold from it, and no detection placed in a later cluster is below the threshold from it.", "quantifier": "for every list of detections, threshold and pure metric", "why_tests_cant": "unbounded lists", "anchors": ["include/multiple_object_tracking/clustering.hpp cluster_detections"]}
{"id": "C44", "title": "Two detections within the threshold may be separated", "statement": "Users would expect detections within the threshold of each other to end up in the same cluster. For every positive threshold there are detections on a line, two of which are within the threshold of each other, for which no cluster contains both.", "quantifier": "existential counter-example, for every positive threshold", "why_tests_cant": "tests use well separated groups", "anchors": ["include/multiple_object_tracking/clustering.hpp cluster_detections"]}
{"id": "C45", "title": "The clustering threshold is compared with the squared distance", "statement": "The parameter is called distance_threshold. With the default metric the cut-off is at Euclidean distance sqrt(threshold) of (x, y, velocity, heading, yaw rate): two detections two metres apart with a threshold of three are not clustered, and two detections 0.9 m apart with threshold 0.85 are.", "quantifier": "for all points and detections and all thresholds at least zero; existential counter-examples; over exact arithmetic", "why_tests_cant": "tests pick values where both readings agree", "anchors": ["include/multiple_object_tracking/clustering.hpp squared_euclidean_distance", "include/multiple_object_tracking/clustering.hpp cluster_detections"]}
{"id": "C46", "title": "Cluster contents under add, remove and clear", "statement": "A cluster driven by any sequence of add_detection, remove_detection and clear holds exactly one detection per uuid that was added and not removed or cleared since, namely the first one added since the uuid was last absent; is_empty is true exactly when it holds none; removing an unknown uuid throws std::out_of_range and changes nothing; get_centroid throws exactly when empty.", "quantifier": "for every sequence of operations", "why_tests_cant": "unbounded histories", "anchors": ["include/multiple_object_tracking/clustering.hpp Cluster"]}
{"id": "C47", "title": "Centroid position is the mean", "statement": "For a cluster built by adding detections with distinct uuids and removing some of them, without clear and without adding a uuid while it is present, the x, y, velocity and yaw rate of the centroid are the arithmetic means of those of the remaining detections. This includes the clusters returned by cluster_detections on detections with distinct uuids.", "quantifier": "for every such history, over exact arithmetic", "why_tests_cant": "unbounded histories", "anchors": ["include/multiple_object_tracking/clustering.hpp Cluster::get_centroid"]}
{"id": "C48", "title": "Centroid after clear or duplicate add is wrong", "statement": "Users would expect the centroid to be the mean of the current members. After clear() and one add, or after adding the same uuid twice, it is not.", "quantifier": "existential counter-examples", "why_tests_cant": "the reuse history is not covered by tests", "anchors": ["include/multiple_object_tracking/clustering.hpp Cluster::clear", "include/multiple_object_tracking/clustering.hpp Cluster::add_detection"]}
{"id": "C49", "title": "Centroid heading is wrong for equal headings", "statement": "Users would expect the centroid of detections with one common heading to have that heading. It has a different heading exactly when the headings add up to a full turn or more; two detections heading 3pi/2 have centroid heading pi/2.", "quantifier": "existential counter-example; and for all clusters the centroid heading equals (sum of headings mod 2pi)/n", "why_tests_cant": "tests use small headings", "anchors": ["include/multiple_object_tracking/clustering.hpp Cluster::get_centroid", "include/multiple_object_tracking/angle.hpp Angle"]}
{"id": "C50", "title": "Angle range and periodicity", "statement": "get_angle returns a value in [0,2pi) which differs from the constructor argument by a multiple of 2pi; addition and subtraction of angles are addition and subtraction modulo 2pi, commutative and associative with 0 neutral, and subtraction undoes addition.", "quantifier": "for all real angles, over exact arithmetic", "why_tests_cant": "a continuum", "anchors": ["include/multiple_object_tracking/angle.hpp Angle"]}
{"id": "C51", "title": "get_angle can return 2pi in double precision", "statement": "In IEEE double arithmetic the normalisation adds 2*pi to every negative phase; for tiny negative phases the sum rounds to 2*pi itself, so the half-open range is not guaranteed; it never leaves the closed range.", "quantifier": "for every finite phase between -pi and pi the result lies in the closed range; there is one for which it equals 2*pi", "why_tests_cant": "all doubles", "anchors": ["include/multiple_object_tracking/angle.hpp Angle::get_angle"]}
{"id": "C52", "title": "CTRV prediction solves the constant-turn-rate equations", "statement": "Over exact arithmetic, for every yaw rate that is zero or outside the almost-zero band, the predicted position as a function of the time step has derivative (v cos, v sin) of the predicted heading, starts at the given position, and velocity and yaw rate are constant.", "quantifier": "for all states and all time steps (positive or negative)", "why_tests_cant": "a continuum", "anchors": ["src/ctrv_model.cpp get_next_state"]}
{"id": "C53", "title": "CTRV prediction composes", "statement": "Predicting by s and then by t is the same as predicting by s+t; predicting by 0 changes nothing; predicting by t and then by -t returns to the start. Inside the almost-zero band of yaw rates (nonzero, below DBL_MIN) composition fails.", "quantifier": "for all states whose yaw rate is zero or at least DBL_MIN in magnitude, and all time steps, over exact arithmetic; there is a state in the band for which it fails", "why_tests_cant": "a continuum", "anchors": ["src/ctrv_model.cpp get_next_state"]}
{"id": "C54", "title": "CTRV displacement bound", "statement": "The predicted position is at most |v|*|t| away from the start, with equality on straight lines.", "quantifier": "for all states and time steps, over exact arithmetic", "why_tests_cant": "a continuum", "anchors": ["src/ctrv_model.cpp get_next_state"]}
{"id": "C55", "title": "CTRA prediction solves the constant-turn-rate-and-acceleration equations", "statement": "As for CTRV, with velocity v + a t.", "quantifier": "for all states whose yaw rate is zero or at least DBL_MIN in magnitude, and all time steps, over exact arithmetic", "why_tests_cant": "a continuum", "anchors": ["src/ctra_model.cpp get_next_state"]}
{"id": "C56", "title": "CTRA prediction composes and extends CTRV", "statement": "CTRA predictions compose like CTRV predictions, and with zero acceleration give the CTRV prediction.", "quantifier": "for all states whose yaw rate is zero or at least DBL_MIN in magnitude (composition) or all states (extension of CTRV), and all time steps, over exact arithmetic", "why_tests_cant": "a continuum", "anchors": ["src/ctra_model.cpp get_next_state", "src/ctrv_model.cpp get_next_state"]}
{"id": "C57", "title": "Process noise enters additively", "statement": "With zero noise the noisy prediction is the plain prediction; in general it differs from it by half the acceleration times t^2 along the heading, acceleration times t in velocity and likewise for heading and yaw rate.", "quantifier": "for all states, noises and time steps, over exact arithmetic", "why_tests_cant": "a continuum", "anchors": ["src/ctrv_model.cpp get_next_state", "src/ctra_model.cpp get_next_state"]}
{"id": "C58", "title": "A tiny yaw rate freezes the object in double precision", "statement": "In IEEE double arithmetic there are states with a non-zero velocity and a tiny non-zero yaw rate whose predicted position does not move at all, whatever correct or incorrect sine and cosine the platform provides.", "quantifier": "there is a state such that for every sine and cosine implementation returning finite values", "why_tests_cant": "must hold for every math library", "anchors": ["src/ctrv_model.cpp get_next_state"]}
{"id": "C59", "title": "Unscented weights", "statement": "The mean weights sum to 1, the covariance weights sum to 2 - alpha^2 + beta, and there are 2n+1 of each, whenever n + lambda is not zero.", "quantifier": "for every n and all alpha, beta, kappa, over exact arithmetic", "why_tests_cant": "all dimensions", "anchors": ["include/multiple_object_tracking/unscented_transform.hpp generate_weights", "include/multiple_object_tracking/unscented_transform.hpp generate_lambda"]}
{"id": "C60", "title": "Sigma points recover mean and covariance", "statement": "For a positive definite covariance P and n + lambda > 0 there are 2n sigma points, the mean plus and minus the columns of a matrix L with L L' = (n + lambda) P. The weighted mean of the mean and the sigma points is the mean and the weighted covariance is P: for state types that are vectors always, for the two motion models when the headings of the sigma points stay within one turn; all entries but those of the heading are recovered in any case.", "quantifier": "for every n, mean, covariance and parameters, over exact arithmetic", "why_tests_cant": "all dimensions and a continuum", "anchors": ["include/multiple_object_tracking/unscented_transform.hpp generate_sigma_points", "include/multiple_object_tracking/unscented_transform.hpp compute_unscented_transform"]}
{"id": "C61", "title": "Predicted covariance is symmetric and, for positive weights, positive semidefinite", "statement": "compute_unscented_transform returns a symmetric covariance for all weights, positive semidefinite when the covariance weights are non-negative; the default propagator always returns a positive semidefinite covariance.", "quantifier": "for all sigma-point matrices and weights, all states, covariances and time steps, over exact arithmetic", "why_tests_cant": "all dimensions and a continuum", "anchors": ["include/multiple_object_tracking/unscented_transform.hpp compute_unscented_transform"]}
{"id": "C62", "title": "beta and kappa are swapped", "statement": "The propagator documents its members as alpha, beta, kappa. Propagating with {alpha, beta, kappa} uses beta as kappa and kappa as beta: it equals the UKF prediction with the two exchanged, which is a different prediction whenever beta and kappa differ and both spreads alpha^2 (5 + beta), alpha^2 (5 + kappa) are at least 1, as with the default parameters. kappa does not influence the predicted mean; it adds to the covariance kappa times the outer product of the deviation of the propagated state from the mean.", "quantifier": "for all objects, times and parameters; for the difference a witness for all such parameters", "why_tests_cant": "tests compare against recorded outputs computed with the same swap", "anchors": ["include/multiple_object_tracking/temporal_alignment.hpp UnscentedTransform", "include/multiple_object_tracking/unscented_kalman_filter.hpp UkfPredictionVisitor"]}
{"id": "C63", "title": "Propagation frame", "statement": "propagate_to_time sets the timestamp to the requested time, leaves uuid and semantic class unchanged, and predicts by the signed difference of times; predict_to_time returns what propagate_to_time would store; propagating twice with a propagator that composes is propagating once. The motion model of a variant is kept.", "quantifier": "for all objects and times, plain and variant, and all propagators", "why_tests_cant": "all inputs", "anchors": ["include/multiple_object_tracking/temporal_alignment.hpp propagate_to_time", "include/multiple_object_tracking/temporal_alignment.hpp predict_to_time"]}
{"id": "C64", "title": "Prediction over zero time is not the identity near heading pi", "statement": "Users would expect a prediction by zero seconds to change nothing. With the default parameters, for every eps > 0 there are a state and a positive multiple of the identity of at most eps as covariance such that the heading predicted over zero seconds differs by more than 0.4 rad (modulo full turns).", "quantifier": "a witness for every eps; and for all states and parameters of both motion models with headings whose sigma points stay away from the seam the zero-time prediction is the identity", "why_tests_cant": "tests use headings away from the seam", "anchors": ["include/multiple_object_tracking/unscented_kalman_filter.hpp unscented_kalman_filter_predict"]}
{"id": "C65", "title": "Turning a detection into a track", "statement": "make_track keeps timestamp, state, covariance, uuid and semantic class of the detection (the second overload replaces the uuid by the given one), for plain (non-variant) detections.", "quantifier": "for all detections and uuids", "why_tests_cant": "all inputs", "anchors": ["include/multiple_object_tracking/dynamic_object.hpp make_track"]}
{"id": "C66", "title": "Uuid order and equality", "statement": "Uuids are equal exactly when their strings are; < is a strict total order (byte-wise lexicographic), and the six comparison operators are consistent with each other.", "quantifier": "for all uuids", "why_tests_cant": "all strings", "anchors": ["include/multiple_object_tracking/uuid.hpp Uuid"]}
{"id": "C67", "title": "Covariance layout in JSON", "statement": "A covariance of n*n numbers in a JSON array is read row by row: entry (i,j) is number n*i+j; surplus numbers are ignored; an array with fewer numbers makes the parser read past the end of a buffer (undefined behaviour) instead of reporting an error.", "quantifier": "for every array of numbers, for n = 5 and n = 6", "why_tests_cant": "all lengths; out-of-bounds reads may look fine in a test run", "anchors": ["include/multiple_object_tracking/json_parsing.hpp from_json"]}
{"id": "C68", "title": "Loading tracks and detections from JSON", "statement": "Loading succeeds exactly when the listed value is present and every element of it is well-formed; the result has the elements in file order with their motion model chosen by the motion_model field and unknown semantic class. Otherwise the first ill-formed element decides, and nothing is returned: an unsupported motion model gives std::runtime_error, a covariance that is too short undefined behaviour, and any other defect (such as a missing field or a field of the wrong type) an exception of the JSON library.", "quantifier": "for every JSON document", "why_tests_cant": "all documents", "anchors": ["include/multiple_object_tracking/json_parsing.hpp detections_from_json_file", "include/multiple_object_tracking/json_parsing.hpp tracks_from_json_file"]}
{"id": "C69", "title": "Rounding helpers", "statement": "Over exact arithmetic round_to_decimal_place(x, d) is the multiple of 10^-d nearest to x, of two the one farther from zero; it is monotone, odd and idempotent; matrices are rounded entry by entry. With IEEE rounding of every operation (overflow aside) it is still monotone and odd, and for d up to 22 and values up to 2^22 units idempotent and within one unit.", "quantifier": "for all real x and all d; the last two IEEE facts for d <= 22 and |x| 10^d <= 2^22", "why_tests_cant": "a continuum", "anchors": ["include/multiple_object_tracking/utils.hpp round_to_decimal_place"]}
{"id": "C70", "title": "State vector conversions", "statement": "Converting a state to an Eigen vector and back gives the same state, and converting a vector to a state and back gives the vector with its heading entry reduced to [0,2pi); the state of an augmented state is read from the first entries of the vector and its process noise from the last two, over exact arithmetic.", "quantifier": "for all states and vectors", "why_tests_cant": "a continuum", "anchors": ["include/multiple_object_tracking/ctrv_model.hpp CtrvState::from_eigen_vector", "include/multiple_object_tracking/ctra_model.hpp CtraState::from_eigen_vector", "include/multiple_object_tracking/augmented_state.hpp"]}
{"id": "C71", "title": "Association and bookkeeping compose", "statement": "The uuids in the association map computed from the (gated) scores are uuids of the given tracks and detections, one detection per track and no detection twice; there is one fused track per association, with the uuid of its track; HasAssociation separates the detections into those fused and those available as new tracks. One cycle (list and predict the managed tracks, score, gate, associate, update the track lists, fuse, store the fused tracks, add the left-over detections) then succeeds when the removal threshold is below the promotion threshold and not above any counter: associated tracks are replaced by their fusion and counted up, the others are counted down and possibly removed, left-over detections are tentative tracks, nothing else is managed. With the thresholds the other way round the cycle throws, and when no scored pair is left it is undefined.", "quantifier": "for every reachable manager state, every detection list with new distinct uuids, every metric, gate, propagator and solver result; for any track type, and for the library objects with covariance intersection over exact arithmetic", "why_tests_cant": "composition of four modules over unbounded inputs", "anchors": ["include/multiple_object_tracking/scoring.hpp score_tracks_and_detections", "include/multiple_object_tracking/gating.hpp prune_track_and_detection_scores_if", "include/multiple_object_tracking/track_matching.hpp gnn_associator", "include/multiple_object_tracking/fusing.hpp fuse_associations", "include/multiple_object_tracking/track_management.hpp FixedThresholdTrackManager::update_track_lists"]}
{"id": "C72", "title": "After gating, as many scored pairs as possible", "statement": "If at least one track-detection pair has no score and the scores present are finite, non-negative and at most 2^100, the association map contains as many scored pairs as any one-to-one association of the same size.", "quantifier": "for every such score map, solver result and competing association", "why_tests_cant": "unbounded maps and all solver choices; combines rounding to 32 bits with combinatorial optimality", "anchors": ["include/multiple_object_tracking/track_matching.hpp gnn_associator", "include/multiple_object_tracking/track_matching.hpp cost_matrix_from_score_matrix"]}
{"id": "C73", "title": "Covariance intersection is consistent under unknown correlation", "statement": "If the two input covariances bound the true second-moment error matrices of the two estimates (each from above, in every direction), then the fused covariance bounds the true second-moment error matrix of the fused mean, whatever the correlation between the two errors. Headings are assumed not to exceed the wrap constant, so that no wrapping happens.", "quantifier": "for every finite probability space of true states and estimate pairs, all dimensions, all positive definite inputs, all weights in [0,1], over exact arithmetic", "why_tests_cant": "the correlation between the errors is arbitrary and unknown to the code", "anchors": ["include/multiple_object_tracking/fusing.hpp compute_covariance_intersection"]}
{"id": "C74", "title": "Predictions do not depend on the origin", "statement": "Moving the origin of the x and y coordinates of the state moves the predicted state by the same amount and leaves the predicted covariance unchanged.", "quantifier": "for all displacements, states, covariances, time steps and parameters with alpha and n + kappa not zero, both motion models, over exact arithmetic", "why_tests_cant": "a continuum in all arguments", "anchors": ["include/multiple_object_tracking/unscented_kalman_filter.hpp unscented_kalman_filter_predict"]}
{"id": "C75", "title": "Members may be farther than the threshold from the centroid", "statement": "The metric of cluster_detections is documented as comparing the cluster centroid with a detection. It compares the first detection of the cluster instead: for every positive threshold there are detections that form one cluster in which a member's metric value from the centroid is above the threshold.", "quantifier": "existential counter-example, for every positive threshold, over exact arithmetic", "why_tests_cant": "tests use tight groups", "anchors": ["include/multiple_object_tracking/clustering.hpp cluster_detections"]}
{"id": "C76", "title": "Clustering tears detections apart at heading zero", "statement": "Two detections at the same place with headings eps and -eps, 0 < eps < 0.1, have default metric value above 36 and are put in different clusters for every threshold up to 36, since the metric subtracts headings without wrapping the difference.", "quantifier": "for every eps in (0, 0.1) and every threshold up to 36, over exact arithmetic", "why_tests_cant": "tests use headings away from zero", "anchors": ["include/multiple_object_tracking/clustering.hpp squared_euclidean_distance", "include/multiple_object_tracking/clustering.hpp cluster_detections"]}
{"id": "C77", "title": "Rounding a state near a full turn", "statement": "Rounding a state makes every entry other than the heading a multiple of the unit and changes it by at most half a unit; the heading likewise, up to whole turns. Users would expect rounding twice to equal rounding once; it does exactly when the rounded heading is at most a full turn. A heading of 6.27 at one decimal is a counter-example: 6.3 exceeds a full turn and is wrapped to a value that is not a multiple of 0.1.", "quantifier": "for all states of both models and all decimal places, over exact arithmetic; a witness for the counter-example", "why_tests_cant": "tests use headings away from the full turn", "anchors": ["include/multiple_object_tracking/ctrv_model.hpp round_to_decimal_place", "include/multiple_object_tracking/ctra_model.hpp round_to_decimal_place", "include/multiple_object_tracking/augmented_state.hpp round_to_decimal_place"]}
{"id": "C78", "title": "Life of a track over a whole history", "statement": "Over any history in which a track is either seen or missed by each update and not touched otherwise, its counter is the least of the starting count plus sightings minus misses and, for every sighting, the promotion threshold plus the balance of what followed it; it is still managed exactly when no beginning of the history brings the starting count, and no stretch after a sighting brings the promotion threshold, down to the removal threshold; it is confirmed exactly when it was, or when some beginning of the history brings the starting count up to the promotion threshold. A track seen in every second update is never promoted and never removed.", "quantifier": "for every reachable state, every history without threshold changes, every iteration order, counts below 2^64", "why_tests_cant": "histories of unbounded length", "anchors": ["include/multiple_object_tracking/track_management.hpp FixedThresholdTrackManager::update_track_lists"]}
{"id": "C79", "title": "State sums and differences", "statement": "Adding or subtracting two states adds or subtracts the numbers they were built from, including headings outside [0,2pi); converting vectors to states, process noises and augmented states turns sums and differences of vectors into sums and differences of states.", "quantifier": "for all states and vectors, both motion models, over exact arithmetic", "why_tests_cant": "a continuum", "anchors": ["include/multiple_object_tracking/ctrv_model.hpp operator+=", "include/multiple_object_tracking/ctra_model.hpp operator+=", "include/multiple_object_tracking/angle.hpp operator+=", "include/multiple_object_tracking/augmented_state.hpp operator+=", "include/multiple_object_tracking/ctrv_model.hpp CtrvProcessNoise operator+="]}
{"id": "C80", "title": "Multiples of angles and states", "statement": "Multiplying an angle by an integer multiplies the number it was built from; multiplying or dividing by any number does for numbers in [0,2pi). Dividing by a nonzero integer and multiplying again gives the angle back; multiplying by k >= 1 and dividing again does exactly when k times the angle is below a full turn. Scaling a state scales its numbers. It is not linear: the sum of half a state and half another with headings to either side of zero faces backwards.", "quantifier": "for all angles, states and factors as stated, over exact arithmetic; a witness for the failure of linearity", "why_tests_cant": "a continuum", "anchors": ["include/multiple_object_tracking/angle.hpp operator*=", "include/multiple_object_tracking/angle.hpp operator/=", "include/multiple_object_tracking/ctrv_model.hpp operator*"]}
{"id": "C81", "title": "Equality of states", "statement": "Equality of states and process noises is reflexive and symmetric; states are equal exactly when they have the same heading up to whole turns and each pair of other entries differs by less than the smallest normal double or by less than 2^-52 times the size of their sum. It is documented as exact, but it is neither exact nor transitive. In double precision a state equals itself exactly when its entries are finite and its heading is not NaN. States of finite doubles that compare equal in double precision are equal with the same tolerance in exact arithmetic; the converse holds for a tolerance smaller by a factor 1 - 2^-52.", "quantifier": "for all states of both models over exact arithmetic; for all states of doubles of both models; witnesses for the failures", "why_tests_cant": "a continuum", "anchors": ["include/multiple_object_tracking/ctrv_model.hpp operator==", "include/multiple_object_tracking/ctra_model.hpp operator==", "include/multiple_object_tracking/angle.hpp operator=="]}
{"id": "C82", "title": "Written JSON cannot be read back", "statement": "Users would expect a detection or track written to JSON to be readable again. The to_json functions are empty, so every object, state, covariance and uuid is written as null, which every reader rejects with an exception of the JSON library; a file of written detections loads only if it has none.", "quantifier": "for all objects of both motion models, states, uuids, covariances and lists of objects", "why_tests_cant": "all objects", "anchors": ["include/multiple_object_tracking/json_parsing.hpp to_json", "include/multiple_object_tracking/json_parsing.hpp from_json"]}
{"id": "C83", "title": "Accuracy of the Euclidean score", "statement": "If the coordinates and headings of two states are finite doubles of size at most 2^e, 3 <= e <= 60, the Euclidean distance computed in float is finite and differs from the exact distance d by at most 2^(e-23) + d*2^-21, whatever the order of summation.", "quantifier": "for all states of doubles in this range, all e, both motion models, every order of summation of the three squares", "why_tests_cant": "2^384 inputs", "anchors": ["include/multiple_object_tracking/ctrv_model.hpp euclidean_distance", "include/multiple_object_tracking/ctra_model.hpp euclidean_distance"]}
{"id": "C84", "title": "Euclidean scores collapse far from the origin", "statement": "The Euclidean distance converts coordinates to float before subtracting. States whose positions differ in one coordinate and lie within half a float step of the same float have distance exactly zero; for instance two positions half a metre apart at a northing of 8388609 m. A single track and a single detection at these positions make gnn_associator undefined.", "quantifier": "for all positions around every normal float up to 2^60 and every order of summation; a witness for the composition with gnn_associator", "why_tests_cant": "tests use coordinates near the origin", "anchors": ["include/multiple_object_tracking/ctrv_model.hpp euclidean_distance", "include/multiple_object_tracking/ctra_model.hpp euclidean_distance", "include/multiple_object_tracking/track_matching.hpp gnn_associator"]}
{"id": "C85", "title": "The associator returns the intended pairs", "statement": "With a score for every pair, a largest one-to-one set of pairs whose total score is below that of every other by more than the rounding of the cost matrix (21e-8 of the largest score per pair) is exactly what gnn_associator returns; so in particular when its scores are at most lo and all others at least hi, far enough apart. When gating leaves every track at most one detection and every detection at most one track, with at least two pairs or one of positive score, exactly these pairs are associated. In these cases the result does not depend on which optimal assignment the solver returns.", "quantifier": "for all score maps, tracks, detections, metrics and gates as stated, and all solvers meeting the contract", "why_tests_cant": "all score maps and solvers", "anchors": ["include/multiple_object_tracking/track_matching.hpp gnn_associator", "include/multiple_object_tracking/scoring.hpp score_tracks_and_detections", "include/multiple_object_tracking/gating.hpp prune_track_and_detection_scores_if"]}
{"id": "C86", "title": "Orders do not matter", "statement": "If tracks and detections have distinct uuids, the order in which they are listed changes neither the scores nor the associations nor the fused tracks; and neither this order nor the iteration orders of the manager's hash maps change the state after a successful tracking cycle. With repeated uuids the scores depend on the order.", "quantifier": "for all tracks, detections, metrics, gates, fusion functions, manager states reachable by any calls, and all orders; a witness for repeated uuids", "why_tests_cant": "all permutations; hash order is fixed in one build", "anchors": ["include/multiple_object_tracking/scoring.hpp score_tracks_and_detections", "include/multiple_object_tracking/fusing.hpp fuse_associations", "include/multiple_object_tracking/track_management.hpp FixedThresholdTrackManager::update_track_lists", "include/multiple_object_tracking/track_management.hpp FixedThresholdTrackManager::get_all_tracks"]}
{"id": "C87", "title": "Tracking in unambiguous scenes", "statement": "If in every cycle each predicted track is within the gate of at most one detection and each detection within that of at most one track (and some pair passes), with removal threshold at most one and below the promotion threshold, no cycle fails; in each, a track is fused with the detection within its gate and counted up, other tracks are counted down or removed, and detections within no gate become tentative tracks. Over any number of cycles, presence, counter and status of a track have the closed form of C78 in terms of the cycles in which it had a detection; a track that had one in every cycle is never lost and is confirmed once counter and cycles add up to the promotion threshold.", "quantifier": "for all numbers of cycles, all scenes as described, all initial states reachable by any calls, all metrics, gates, predictions, fusion functions and solvers", "why_tests_cant": "unbounded executions of the whole pipeline", "anchors": ["include/multiple_object_tracking/track_management.hpp FixedThresholdTrackManager::update_track_lists", "include/multiple_object_tracking/track_matching.hpp gnn_associator", "include/multiple_object_tracking/fusing.hpp fuse_associations", "docs/multiple_object_tracking_overview.md stages"]}
{"id": "C88", "title": "Removal thresholds of two or more disable tracking", "statement": "A manager constructed with a removal threshold of at least two, whose thresholds are not changed later, never confirms a track: all managed tracks are tentative with counter one and every update_track_lists removes all of them, whether associated or not. With threshold one tracks can be confirmed.", "quantifier": "for all thresholds, call histories and association maps; a witness for threshold one", "why_tests_cant": "all histories", "anchors": ["include/multiple_object_tracking/track_management.hpp FixedThresholdTrackManager::update_track_lists", "include/multiple_object_tracking/track_management.hpp FixedThresholdTrackManager::add_tentative_track"]}
{"id": "C89", "title": "Clusters of separated groups", "statement": "When a detection's distance to another is below the threshold exactly if both have the same label, the clusters are exactly the labels, whatever the order of the detections. With the default metric this is so when every detection lies within r of its object, 2r is below the square root of the threshold and any two objects are at least that root plus 2r apart. With nothing below the threshold (non-positive or NaN threshold) every detection has its own cluster. Without separation the same three detections form one cluster or two, depending on their order, for every positive threshold.", "quantifier": "for all detection types, metrics, comparisons, labels and numbers of detections; all objects, radii and thresholds for the default metric", "why_tests_cant": "all detection sets and orders", "anchors": ["include/multiple_object_tracking/clustering.hpp cluster_detections", "include/multiple_object_tracking/clustering.hpp squared_euclidean_distance_fn"]}
{"id": "C90", "title": "Symmetries of prediction", "statement": "The motion models predict for a rotated and shifted state the rotated and shifted prediction, for a mirrored state (with mirrored angular noise) the mirrored one, and for a rescaled one the rescaled one, with and without noise; so a vehicle reversing moves like one facing the other way. The unscented prediction is not invariant under rotations: a rotation can change the predicted heading by another angle, even for zero time step and a covariance that is a multiple of the identity.", "quantifier": "for all states, times, noises, angles, shifts and factors; a witness for the unscented prediction", "why_tests_cant": "all states and rotations; tests use a few states", "anchors": ["src/ctrv_model.cpp get_next_state", "src/ctra_model.cpp get_next_state", "include/multiple_object_tracking/unscented_kalman_filter.hpp unscented_kalman_filter_predict"]}
{"id": "C91", "title": "Fusion does not depend on the coordinates", "statement": "In other coordinates (any invertible affine change, so rotated or shifted maps and other units) the fusion weight is the same and the fused mean and covariance are the images of the original ones, as long as no heading is above the constant for pi, before or after. In particular rotating and shifting the map rotates and shifts the fused track, for both motion models. With headings on both sides of the constant this fails: two objects with nearly equal headings and equal covariances are fused to something else after a rotation.", "quantifier": "for all dimensions, invertible matrices, shifts, weights, means and positive definite covariances; all tracks and detections of the two models; a witness for the failure", "why_tests_cant": "all changes of coordinates", "anchors": ["include/multiple_object_tracking/fusing.hpp compute_covariance_intersection", "include/multiple_object_tracking/fusing.hpp generate_weight", "include/multiple_object_tracking/fusing.hpp covariance_intersection_visitor"]}
{"id": "C92", "title": "The fusion weight in single precision", "statement": "Computed in binary32 for positive diagonal information matrices, in any order of multiplication, the fusion weight lies in [0,1] when the computed determinant of the sum is positive and below 2^127, is zero or NaN above that and NaN when the determinant is zero or not finite. Information entries of at least 2^25 in five dimensions (2^21 in six), and entries of at most 2^-31 (2^-26), give NaN, and a NaN weight makes every entry of the combined information matrix NaN. With a weight in [0,1] and entries of at most 2^k (k from -119 to 126) in absolute value the entries of the combined matrix are finite and within 2^(k-22) of the weighted averages. For entries between 2^-20 and 2^20 and at most six dimensions the weight is within 2^-19 of the exact one.", "quantifier": "for all dimensions, positive diagonal matrices of floats and multiplication orders", "why_tests_cant": "all floats; the failures need extreme covariances that tests do not use", "anchors": ["include/multiple_object_tracking/fusing.hpp generate_weight", "include/multiple_object_tracking/fusing.hpp compute_covariance_intersection"]}
{"id": "C93", "title": "Scores that are not numbers", "statement": "One score that is NaN or infinite makes gnn_associator undefined, whatever the other scores. For scores not negative where finite, it is defined exactly when the map is not empty, all scores are finite and some score is positive or some pair missing. A NaN coordinate or heading makes the Euclidean distance to everything NaN; so one track or detection with a NaN pose, together with one object of its motion model on the other side, makes the frame undefined: the score passes every gate of the form score > threshold.", "quantifier": "for all score maps, solvers, thresholds, tracks and detections, and all orders of summation", "why_tests_cant": "all floats, maps and frames", "anchors": ["include/multiple_object_tracking/track_matching.hpp gnn_associator", "include/multiple_object_tracking/track_matching.hpp cost_matrix_from_score_matrix", "include/multiple_object_tracking/scoring.hpp score_tracks_and_detections", "include/multiple_object_tracking/gating.hpp prune_track_and_detection_scores_if", "include/multiple_object_tracking/ctrv_model.hpp euclidean_distance"]}
{"id": "C94", "title": "Headings in the fusion in single precision", "statement": "A heading in the range of get_angle enters the fusion as a float of absolute value at most the largest float below the constant 3.14159265359, and is the heading or the heading minus a full turn up to 2^-21. Headings on the same side of the constant keep their difference, headings on different sides are treated as a full turn minus their difference apart, both up to 2^-20. The two floats next to the constant become opposite numbers, so that their headings cancel. Wrapping is idempotent and keeps values that are not finite.", "quantifier": "for all doubles in the range of get_angle and all floats", "why_tests_cant": "all floats; the failure is between two adjacent floats", "anchors": ["include/multiple_object_tracking/fusing.hpp compute_covariance_intersection"]}
{"id": "C95", "title": "Fusing many detections into one track", "statement": "Fusing a track with any number of detections of the same covariance moves its information from its own towards that of the detections: the difference is multiplied by a factor that is at most an explicit number below one to the power of the number of detections. So detections as uncertain as the track never make it more certain; in every direction the information stays between the smallest and the largest one fused. The deviation of the mean from a repeated detection shrinks likewise. With equal covariances the mean is a running average with weight 1/2 for the last detection, 1/4 for the one before and so on.", "quantifier": "for all numbers of detections, dimensions, positive definite covariances and means (headings not above the constant for pi where means are concerned)", "why_tests_cant": "unbounded sequences of fusions over all covariances", "anchors": ["include/multiple_object_tracking/fusing.hpp covariance_intersection_visitor", "include/multiple_object_tracking/fusing.hpp compute_covariance_intersection", "include/multiple_object_tracking/fusing.hpp generate_weight"]}
{"id": "C96", "title": "Prediction can lose the uncertainty of the heading", "statement": "For every state, time step and parameters with q = alpha^2 (n+kappa) > 0 there is a positive definite covariance with heading variance (2 pi)^2/q that prediction turns into one whose heading row and column are zero: a heading about which nothing is known becomes one known exactly, and the result is singular. With the library's parameters the predicted heading variance never exceeds 50, however uncertain the heading was. For independent components with a heading variance below pi^2/q (with the library's parameters: up to 1.2) the predicted covariance is positive definite.", "quantifier": "for all CTRV and CTRA states on the circle, time steps and parameters, and for the bound all covariances", "why_tests_cant": "all states, covariances and time steps", "anchors": ["include/multiple_object_tracking/unscented_kalman_filter.hpp unscented_kalman_filter_predict", "include/multiple_object_tracking/unscented_transform.hpp generate_sigma_points", "include/multiple_object_tracking/unscented_transform.hpp compute_unscented_transform"]}
{"id": "C97", "title": "Clustering in double precision", "statement": "With every number finite and at most 2^500 in absolute value, cluster_detections (default metric) returns the clusters that exact arithmetic on the same numbers would give, as long as no squared distance is within a factor of about 1 + 2^-48 of the threshold; at the threshold it can differ. A detection with a number (position, velocity, heading or yaw rate) that is NaN or infinite is alone in its cluster, and the other detections are clustered as if it were not there. A threshold that is NaN, zero or negative puts every detection in its own cluster.", "quantifier": "for all lists of detections, thresholds and implementations of the trigonometric functions", "why_tests_cant": "all doubles, list lengths and thresholds", "anchors": ["include/multiple_object_tracking/clustering.hpp cluster_detections", "include/multiple_object_tracking/clustering.hpp squared_euclidean_distance_fn"]}
{"id": "C98", "title": "Linear components are predicted as by a Kalman filter", "statement": "For velocity, turn rate and acceleration the unscented prediction is the linear Kalman prediction: the means move by the matrix of the linear step, and their block of the covariance is A P A'. This is exact for all parameters with positive spread. With the library's parameters the heading joins them up to 1e-9 (the program's pi is not exact) as long as heading plus rate times time step, taken around zero, stays sqrt(7) (CTRV) or sqrt(8) (CTRA) predicted standard deviations away from 3.14; in particular headings on both sides of zero are averaged correctly.", "quantifier": "for all states, positive definite covariances, time steps and (except for the heading) parameters", "why_tests_cant": "all covariances, states and time steps", "anchors": ["include/multiple_object_tracking/unscented_kalman_filter.hpp unscented_kalman_filter_predict", "include/multiple_object_tracking/unscented_transform.hpp generate_sigma_points", "include/multiple_object_tracking/unscented_transform.hpp generate_weights", "include/multiple_object_tracking/unscented_transform.hpp compute_unscented_transform"]}
{"id": "C99", "title": "Accuracy of headings in double precision", "statement": "If sin, cos and arg are accurate to about one unit in the last place, an Angle gives back the angle it was made from, and sums and differences of angles are the sums and differences, each up to whole turns and 2^-48 rad; the results are finite and in [0, 2 pi]. After n CTRV predictions the heading has turned by n times rate times time step, up to whole turns and n 2^-47 rad; velocity and turn rate are unchanged. Correctly rounded functions satisfy the assumption.", "quantifier": "for all finite angles, all accurate implementations of the trigonometric functions, all numbers of predictions (less than 8 rad each)", "why_tests_cant": "all doubles and any number of steps", "anchors": ["include/multiple_object_tracking/angle.hpp get_angle", "include/multiple_object_tracking/angle.hpp operator+", "include/multiple_object_tracking/angle.hpp operator-", "src/ctrv_model.cpp get_next_state"]}
{"id": "C100", "title": "Accuracy of CTRV predictions in double precision", "statement": "With accurate trigonometric functions one CTRV prediction in double precision is within 2^-48 (|x| + q) + 2^-1000 of the exact one in each coordinate, where q is |v/w| for a turning object and |v dt| for one moving straight on; n predictions in a row (n up to 2^20) are within n 2^-47 (|x| + (n+4) q) + n 2^-990 of one exact prediction over the whole time. So rounding is harmless except for tiny turn rates, where |v/w| is large (see C58).", "quantifier": "for all finite states with |x|, |y| up to 2^60 (2^50 for n predictions), time steps and accurate implementations", "why_tests_cant": "all doubles; accumulated error over up to a million steps", "anchors": ["src/ctrv_model.cpp get_next_state"]}
{"id": "C101", "title": "Accuracy of CTRA predictions in double precision", "statement": "With accurate trigonometric functions one CTRA prediction in double precision is within 2^-45 (|x| + q) + 2^-500 of the exact one in each coordinate, where q is (|v| + |a dt|)/|w| + |a|/w^2 for an object turning at 2^-100 rad/s or more and |v dt| + |a| dt^2/2 for one moving straight on; velocity and heading are accurate too. With a turn rate between 2^-1022 and 2^-538 the predicted positions are not numbers. With one between 2^-500 and 2^-100 an accelerating object with a heading from 0 to 0.9 rad is predicted not to move along x at all or to be 2^136 m away, though it moves forward by at least v dt/3.", "quantifier": "for all finite states with numbers up to 2^60, time steps and accurate implementations (the failure without numbers: for any implementation)", "why_tests_cant": "all doubles; the failures need tiny turn rates that tests do not use", "anchors": ["src/ctra_model.cpp get_next_state"]}
{"id": "C102", "title": "dlib's solver is right when there are no more tracks than detections", "statement": "With the Hungarian algorithm of dlib::max_cost_assignment in 32-bit arithmetic instead of an assumed solver: for every matrix whose first rows have elements from 0 to 2^30 - 1 and whose other rows are padding, it ends, no addition or subtraction overflows, and the result is an assignment of maximal cost. So for every usable score map with no more tracks than detections gnn_associator with dlib's solver gives what it gives with a solver that meets the contract: it is defined, every track gets its own detection, and on complete maps the total score is minimal up to the rounding of C27. The same for scoring, gating and association in a row.", "quantifier": "for all matrices of any size and all usable score maps (scores, lists of tracks and detections, metrics and gates)", "why_tests_cant": "all matrix sizes and entries; tests use a handful of small score maps", "anchors": ["include/multiple_object_tracking/track_matching.hpp gnn_associator", "include/multiple_object_tracking/track_matching.hpp cost_matrix_from_score_matrix", "include/multiple_object_tracking/detail/dlib_extensions.hpp make_square_matrix"]}
{"id": "C103", "title": "dlib's solver overflows when there are more tracks than detections", "statement": "For every usable score map with more tracks than detections the call of dlib::max_cost_assignment is undefined: the padding std::numeric_limits<int>::lowest() is subtracted from a label that is not negative, and the first search overflows. If the overflow wraps around the association can be far from optimal: with two tracks near two detections and a third track ten times as far away, one of the detections goes to the far track.", "quantifier": "for all usable score maps with more tracks than detections; all matrices with a padded and a non-negative element in the first row", "why_tests_cant": "undefined behaviour that a test run does not show; holds for every such frame", "anchors": ["include/multiple_object_tracking/track_matching.hpp gnn_associator", "include/multiple_object_tracking/detail/dlib_extensions.hpp make_square_matrix"]}
{"id": "C104", "title": "The tracking cycle with dlib's own solver", "statement": "In a scene that the gate leaves unambiguous (C87) the whole cycle with dlib's algorithm on 32-bit ints does exactly what it does with any correct solver, so that no cycle fails and the life of every track is determined by the cycles in which it was within the gate of a detection; there may be more tracks than detections. In any other scene with ordinary scores, one of them positive, only the numbers of tracks and detections that pass the gate matter: with no more tracks than detections the cycle does what it does with some correct solver, with more tracks than detections it is undefined. In particular it is undefined whenever two tracks are within the gate of the only detection, as when one vehicle hides another.", "quantifier": "for all states of the manager, lists of detections, metrics, gates, fusion functions, thresholds and numbers of cycles", "why_tests_cant": "undefined behaviour that depends on the traffic scene; any number of cycles, tracks and detections", "anchors": ["include/multiple_object_tracking/track_matching.hpp gnn_associator", "include/multiple_object_tracking/gating.hpp prune_track_and_detection_scores_if", "include/multiple_object_tracking/track_management.hpp update_track_lists", "include/multiple_object_tracking/fusing.hpp fuse_associations"]}
{"id": "C105", "title": "Accuracy of predictions with process noise in double precision", "statement": "With accurate trigonometric functions process noise adds to a CTRV or CTRA prediction in double precision what it adds in exact arithmetic: the position is as far from the exact one as without noise, up to 2^-49 (|x'| + |la| dt^2/2) + 2^-700; velocity and turn rate change by la dt and aa dt, the acceleration of a CTRA state by la, each up to 2^-50 of the terms, and the heading by aa dt^2/2 up to whole turns and 2^-45 rad. For a turning CTRV state the predicted position is within 2^-46 (|x| + |v/w| + |la| dt^2/2) + 2^-600 of the exact formula.", "quantifier": "for all finite states of ordinary size, noises up to 2^60, time steps up to 2^30 s and accurate implementations", "why_tests_cant": "all doubles; the tests compare a few predictions with noise", "anchors": ["src/ctrv_model.cpp get_next_state", "src/ctra_model.cpp get_next_state"]}
{"id": "C106", "title": "Well separated objects keep their tracks", "statement": "If predictions are at most a and detections at most b from the true pose of their object, the gate is at least a + b, different objects are farther apart than a + b plus the gate (with the rounding error of the float score added in both), every object is detected at most once and two tracked objects are detected, then the cycle with dlib's solver succeeds, a track and a detection pass the gate exactly if they are of the same object, every track of a detected object is fused with the detection of that object, every other track is counted down, and a detected object without a track gets one. No object ever gets a second track, and over any number of cycles the presence, count and status of a track depend only on the cycles in which its own object was detected. Without the separation two tracks can change places.", "quantifier": "for all numbers of objects, cycles, true poses, time-dependent predictions, detections and error bounds a, b that satisfy the conditions, in the float arithmetic of euclidean_distance", "why_tests_cant": "all trajectories and any number of cycles; a test follows a few chosen objects", "anchors": ["include/multiple_object_tracking/track_matching.hpp gnn_associator", "include/multiple_object_tracking/gating.hpp prune_track_and_detection_scores_if", "include/multiple_object_tracking/ctrv_model.hpp euclidean_distance", "include/multiple_object_tracking/track_management.hpp update_track_lists"]}
{"id": "C107", "title": "Centroids in double precision", "statement": "For a cluster whose history has no clear and no uuid added twice, with at most 2^20 operations and values of at most the size M <= 2^900: position, velocity and turn rate of the centroid in double precision are finite and within K^2/n 2^-51 M + 2^-1075 of the mean of the n members (K the number of operations; n 2^-51 M for clusters made by cluster_detections). With accurate trigonometric functions the heading is the sum of the headings brought into one turn up to (K + 1) 2^-48, divided by n up to 2^-48, so it is near the mean if the headings add up to less than a turn. The error depends on everything that was ever in the cluster: after adding a, adding b and removing b the centroid is at 0 whenever |a| <= 2^-55 |b| and b is a power of two.", "quantifier": "for all histories of additions and removals, all finite values up to 2^900, all lists of detections, metrics and thresholds", "why_tests_cant": "all doubles and histories; the tests compare a few centroids of small clusters", "anchors": ["include/multiple_object_tracking/clustering.hpp Cluster::add_detection", "include/multiple_object_tracking/clustering.hpp Cluster::remove_detection", "include/multiple_object_tracking/clustering.hpp Cluster::get_centroid", "include/multiple_object_tracking/angle.hpp operator/"]}
{"id": "C108", "title": "Predictions along a sequence of times in double precision", "statement": "An object is propagated to ascending time stamps with propagate_to_time and a propagator that moves the state by get_next_state(CtrvState, duration); every difference of stamps is rounded, and exact if the stamps are within a factor of two. After n <= 2^20 stamps the stamp is the last one and the position is within n 2^-47 (|x| + (n + 4) |v/w|) + n 2^-990 + 2^-53 |v| T of where the exact motion leads in the time T from the first to the last stamp, the heading within n 2^-47 + 2^-53 |w| T; similarly for an object moving straight on. So intermediate predictions do not matter beyond rounding errors.", "quantifier": "for all sequences of ascending finite time stamps, ordinary states and accurate implementations of the trigonometric functions", "why_tests_cant": "all sequences of times and doubles; the tests make one prediction at a time", "anchors": ["include/multiple_object_tracking/temporal_alignment.hpp propagate_to_time", "src/ctrv_model.cpp get_next_state"]}
{"id": "C109", "title": "When prediction keeps a covariance invertible", "statement": "If the position is not correlated with the other components, prediction turns every positive definite covariance into a positive definite one, for both motion models, as long as q (P33 + 2 dt P34 + dt^2 P44) < pi^2, where q = alpha^2 (n + kappa) and the centre weight is not negative; with the library's parameters this is a predicted heading variance of at most 1.2. The condition on the position is needed: for a parked car with heading 0 and every eps > 0 there is a positive definite covariance with heading variance at most eps, in which the position is correlated with velocity and heading, whose prediction is singular, so that its inverse, which association and fusion need, does not exist.", "quantifier": "for all states, positive definite covariances, time steps and parameters with the stated conditions", "why_tests_cant": "all covariance matrices; the singular case has to be constructed", "anchors": ["include/multiple_object_tracking/unscented_kalman_filter.hpp unscented_kalman_filter_predict", "include/multiple_object_tracking/unscented_transform.hpp compute_unscented_transform"]}
{"id": "C110", "title": "Unscented weights and means in single precision", "statement": "generate_lambda and generate_weights compute in float. With the library's parameters (alpha = 1, beta = 1, kappa = 2) the weights of both models are correct to float accuracy and, in whatever order the products are added up, the mean of points bounded by M is within 15 M / 2^24 of the weighted mean. For other parameters with q = alpha^2 (n + kappa) between 2^-20 and 2^20 the weights are finite and add up to 1 up to (3 + 4 n / q) / 2^24, and a weight has a relative error of up to (14 + 2 n / q) / 2^24; so small alpha loses accuracy, and for the customary alpha = 0.001, kappa = 0 the weights add up to 65/64 and 33/32. For |alpha| <= 2^-13 and n + kappa between 0 and 8, n + lambda is zero, all sigma points coincide, all weights are infinite, and the mean of any component of any points is infinite or NaN.", "quantifier": "for all floats alpha, beta, kappa with the stated conditions, all points and all orders of the additions", "why_tests_cant": "all floats and orders of summation; the tests use one set of parameters", "anchors": ["include/multiple_object_tracking/unscented_transform.hpp generate_lambda", "include/multiple_object_tracking/unscented_transform.hpp generate_weights", "include/multiple_object_tracking/unscented_transform.hpp compute_unscented_transform"]}
{"id": "C111", "title": "Covariance of the unscented transform in single precision", "statement": "With the library's parameters, for points whose components j and k are at most Mj, Mk in absolute value (between 2^-40 and 2^40) and at most Dj, Dk from their weighted means: in whatever orders the products are added up, the entry of the covariance that compute_unscented_transform computes in float is within 100/2^24 (Mj Dk + Mk Dj) + 1000/2^48 Mj Mk of the weighted covariance with exact weights, and the covariance is symmetric up to twice that. With weights that are not negative no entry of the diagonal is negative unless something overflows. The error depends on the size of the components and not only on their spread: 5000 km from the origin eleven equal points get a variance of almost 2 when added up from the left. The covariance need not be symmetric.", "quantifier": "for all points, orders of the additions, sizes and spreads with the stated conditions", "why_tests_cant": "all floats and orders of summation; errors far from the origin do not show in tests near it", "anchors": ["include/multiple_object_tracking/unscented_transform.hpp compute_unscented_transform", "include/multiple_object_tracking/unscented_transform.hpp generate_weights"]}
{"id": "C112", "title": "Predictions from covariances that are not positive definite", "statement": "generate_sigma_points takes matrixL() from Eigen's LLT and never asks whether the factorisation succeeded. For a positive definite covariance the result is its lower triangular factor with positive diagonal. For every other symmetric covariance there is a first column k with a pivot that is not positive: left of it the result is a factor, and from column k on it holds the lower triangle of the covariance itself; k is the first pivot that is not positive in any factorisation U D U^T. Entries above the diagonal never play a part in a prediction. So a diagonal covariance predicted by zero seconds keeps its entries before the first one that is not positive and has all others squared, for both motion models, if the headings of the sigma points stay between 0 and pi; with a position x known exactly, a variance of 9 in y becomes 81 and one of 1/100 in the speed becomes 1/10000. The repository's own test CtraPrediction starts from a covariance with an acceleration variance of -0.8701, and the 289.23456 it expects afterwards is the result of the failed factorisation, for all states, times and parameters.", "quantifier": "for all symmetric matrices of every size, all states, diagonal covariances and parameters with the stated conditions", "why_tests_cant": "all symmetric matrices; the one test with a matrix that is not positive definite expects the wrong result as it is", "anchors": ["include/multiple_object_tracking/unscented_transform.hpp generate_sigma_points", "include/multiple_object_tracking/unscented_kalman_filter.hpp unscented_kalman_filter_predict"]}
{"id": "C113", "title": "Eigen's LLT in single precision", "statement": "generate_sigma_points factors the covariance with Eigen's LLT in float, for at most six components. In whatever order the terms of each entry are added up: (1) if LLT reports success and the factor L is finite, every entry of L L^T is within 18/2^24 sqrt(P_ii P_jj) of the entry of the covariance (the one of its lower triangle), for variances of at least 2^-100; (2) it does report success, with a finite factor, whenever the variances lie between 2^-80 and 2^80 and the correlation matrix has no eigenvalue below 2^-16. Positive definiteness alone is not enough: there is a positive definite covariance of five components, with variances between 1 and 1.001, for which LLT fails in every order, and the factor it leaves behind, which the library uses without asking, stands for a variance above 2.", "quantifier": "for all float matrices of up to six components with the stated conditions and all orders of the additions", "why_tests_cant": "all float matrices and orders of summation; failures need nearly singular matrices", "anchors": ["include/multiple_object_tracking/unscented_transform.hpp generate_sigma_points"]}
{"id": "C114", "title": "A whole prediction in the number types of the code", "statement": "UnscentedTransform()(CtrvState, covariance, duration) keeps and moves states in double, and factors the covariance, displaces the sigma points and takes means and covariances in float. For every covariance for which Eigen's LLT succeeds (C113) there is a positive definite Q whose entries differ from those of the covariance by at most 23/2^24 sqrt(P_ii P_jj), such that the predicted state and covariance are those which exact arithmetic yields from the same state and Q, up to 18/2^24 M_j in the components of the state (19/2^24 * 4 in the heading, modulo 2 pi) and 220/2^24 (M_j r_k + M_k r_j) + 2000/2^48 M_j M_k in the covariance, where the predicted sigma points have components within r_j of a centre and M_j of zero. M and r are stated by the vehicle's speed, position and standard deviations alone, r = 2.7 sigma + (|v| + 2.7 sigma_v) |dt| in x and y, for a vehicle that surely turns (its yaw rate exceeds 2.7 standard deviations by w0 > 0) and for one moving straight on (or turning by at least w0) whose yaw rate is not correlated with the rest of its state and has a standard deviation of at least (|w| + w0)/2.6; w0 only has to keep the turning radius (|v| + 2.7 sigma_v)/w0 below 2^17 M. In whatever order products are added up, and for all accurate implementations of the trigonometric functions. The predicted headings must not be just at the constant 3.14159265359 at which the code turns them.", "quantifier": "for all states, covariances, durations, orders of the additions and accurate trigonometric functions with the stated conditions", "why_tests_cant": "all doubles and floats, orders of summation and mathematical libraries; the tests compare a few digits of a few predictions", "anchors": ["include/multiple_object_tracking/unscented_kalman_filter.hpp unscented_kalman_filter_predict", "include/multiple_object_tracking/unscented_transform.hpp generate_sigma_points", "include/multiple_object_tracking/unscented_transform.hpp compute_unscented_transform", "src/ctrv_model.cpp get_next_state", "include/multiple_object_tracking/ctrv_model.hpp CtrvState"]}
{"id": "C115", "title": "Predictions far from the origin", "statement": "States are doubles, but the predicted sigma points enter the unscented transform as floats, which are half a metre apart 5000 km from the origin. If all places where a vehicle that turns or moves straight on as in C114 can be after the prediction, within 2.7 standard deviations, are nearer to one float m 2^k (2^23 < m < 2^24) than to any other, all points get that coordinate, and then the predicted coordinate and its variance are the same for all states, covariances and durations of which this holds: they no longer depend on the vehicle's covariance, speed, heading or on the time. At a northing of 5000 km, for every vehicle known well enough to stay within 0.249 m of it, adding up from left to right yields a predicted variance of at least 1.99 square metres, whereas exact arithmetic yields at most 0.5 for the same sigma points.", "quantifier": "for all states, covariances, durations and accurate trigonometric functions with the stated conditions; the first part for all orders of the additions", "why_tests_cant": "all floats, covariances and orders of summation; the tests stay near the origin", "anchors": ["include/multiple_object_tracking/unscented_kalman_filter.hpp unscented_kalman_filter_predict", "include/multiple_object_tracking/unscented_transform.hpp mean_and_sigma_points_to_matrix_xf", "include/multiple_object_tracking/ctrv_model.hpp to_eigen_vector"]}
{"id": "C116", "title": "Eigen's inverse in single precision", "statement": "covariance_intersection_visitor inverts both covariances, and compute_covariance_intersection the combined one, with Eigen's inverse() in float, for five or six states: LU decomposition with row exchanges and two triangular systems per column, and no check. If the entries of the matrix M are at most 2^e: (1) for every column X_j of the result that is finite, every entry of M X_j differs from the unit matrix by at most 2^(e+n-19) times the sum of the absolute values of X_j (plus 2^-80), whatever M is; (2) if x' M x >= a x' x for all x with a >= n 2^(e+n-17), the result is finite and every entry of column j is within 1.4 n 2^(e+n-19) / a |Y_j| of the exact inverse Y; (3) if M is singular, the result has an entry that is not finite or at least 2^(12-n-e), so that singular covariances do not go unnoticed; (4) the inverse of a symmetric positive definite matrix need not be symmetric.", "quantifier": "for all float matrices with five or six rows and entries of at most 2^e, -60 <= e <= 60 (in (2) -20 <= e <= 40)", "why_tests_cant": "all float matrices; the tests invert a few and compare some digits", "anchors": ["include/multiple_object_tracking/fusing.hpp compute_covariance_intersection", "include/multiple_object_tracking/fusing.hpp covariance_intersection_visitor"]}
{"id": "C117", "title": "The Mahalanobis distance in single precision", "statement": "mahalanobis_distance of CTRV and CTRA states converts positions and headings from double to float, inverts the 3 x 3 covariance of x, y and heading by cofactors and takes the root of diff' P^-1 diff, all in float. Let the covariance be symmetric and positive semidefinite, with variances between 2^-20 and 2^20 (and of at least sigma^2) and a determinant of at least delta times the product of the variances, delta >= 1/64, and let coordinates and headings be at most 2^e, 3 <= e <= 19. Then, in whatever order the terms are added up: (1) if some coordinate differs by at least 2^(e-20), the result is finite and differs from the exact distance of the two states by at most 400 / (2^24 delta^2) times that distance plus 7 * 2^(e-22) / (delta sigma); (2) two states with the same pose have distance exactly zero. The condition on the determinant cannot be dropped: there is a symmetric positive definite covariance with entries 0, 1 and two floats next to 1 for which the distance of any two states, also equal ones, is not a number.", "quantifier": "for all states of doubles, covariances of floats with the stated conditions and orders of the additions", "why_tests_cant": "all doubles, float matrices and orders of summation; failures need strongly correlated components", "anchors": ["include/multiple_object_tracking/ctrv_model.hpp mahalanobis_distance", "include/multiple_object_tracking/ctra_model.hpp mahalanobis_distance"]}
{"id": "C118", "title": "A whole fusion in the number types of the code", "statement": "covariance_intersection_visitor turns the states of doubles into vectors of floats and inverts, weights, adds and multiplies in float. Let the covariances of track and detection have no correlations and variances between 2^-20 and 2^20 and the states be at most 2^59. Then, in whatever order Eigen multiplies the diagonal and adds up products, and wherever it applies the weight: the computed weight is in [0, 1] and within 2^-18 of the exact one; the fused covariance has no correlations and each of its variances is within 6/2^24 of the one of exact covariance intersection with the computed weight, relatively; each component of the fused state is within 14/2^24 of the larger of the given absolute values (plus 2^-49) of the exact one, and the heading, for the headings as compute_covariance_intersection wraps them (C94), within 2^-18 modulo 2 pi, for all accurate trigonometric functions. So fused components lie between the given ones, and fused variances between the given ones, up to those errors. The exact values are those of covariance intersection in matrices of real numbers. Both for CTRV and CTRA.", "quantifier": "for all states of doubles and uncorrelated covariances of floats with the stated conditions, all orders of evaluation and all accurate trigonometric functions", "why_tests_cant": "all doubles, floats and orders of evaluation; the tests compare a few digits of a few fusions", "anchors": ["include/multiple_object_tracking/fusing.hpp compute_covariance_intersection", "include/multiple_object_tracking/fusing.hpp generate_weight", "include/multiple_object_tracking/fusing.hpp covariance_intersection_visitor"]}
{"id": "C119", "title": "Fusion in single precision with correlations", "statement": "For covariances with correlations (five or six states) compute_covariance_intersection and generate_weight, all in float, satisfy in whatever order Eigen multiplies and adds up: (1) determinant() of a matrix with entries of at most 2^e and x' M x >= a x' x, a >= n 2^(e+n-17), is finite, not zero, and within 6/2^24 relatively of the determinant of a matrix whose entries are within 2^(e+n-22) of those of M; (2) generate_weight of two such inverses is finite and within 7/2^24 (|S|+|D1|+|D2|)/|S| of (S-D2+D1)/(2S) for determinants D1, D2, S of matrices within 2^(e+n-22) of the inverses and 2^(e+n-20) of their sum; (3) for weights w between -2^-10 and 1+2^-10, every column of the fused covariance solves (w Y1 + (1-w) Y2) p = unit vector up to 1.1 * 2^(e+n-18) times the sum of its absolute entries, and is finite if 0 <= w <= 1 and Y1 and Y2 are positive definite enough; (4) each entry of the fused vector is that of the fused covariance times w Y1 x1 + (1-w) Y2 x2, up to 33/2^24 of the sum of the absolute values of all terms; (5) so for the visitor with the inverses it computes. The computed weight may exceed 1, though: there are a symmetric positive definite track covariance with correlations and a detection covariance of 32 times the unit matrix for which it does, so that the detection enters with a negative factor.", "quantifier": "for all float vectors and matrices with the stated conditions and all orders of evaluation", "why_tests_cant": "all floats and orders of evaluation; the weight above 1 needs a search over covariances", "anchors": ["include/multiple_object_tracking/fusing.hpp compute_covariance_intersection", "include/multiple_object_tracking/fusing.hpp generate_weight", "include/multiple_object_tracking/fusing.hpp covariance_intersection_visitor"]}
{"id": "C120", "title": "A whole CTRA prediction in the number types of the code", "statement": "UnscentedTransform()(CtraState, covariance, duration), whose position in a turn is (v' w sin psi' + a cos psi' - v w sin psi - a cos psi) / w^2 in double, has errors of the same size as the CTRV prediction (C114): for every 6x6 covariance for which Eigen's LLT succeeds there is a positive definite Q whose entries differ from those of the covariance by at most 23/2^24 sqrt(P_ii P_jj), such that the predicted state and covariance are those which exact arithmetic yields from the same state and Q, up to 18/2^24 M_j in the components of the state (19/2^24 * 4 in the heading, modulo 2 pi) and 220/2^24 (M_j r_k + M_k r_j) + 2000/2^48 M_j M_k in the covariance, where the predicted sigma points have components within r_j of a centre and M_j of zero. M and r are stated by the vehicle's state and standard deviations alone, with r = 2.9 sigma + V |dt| in x and y and 2.9 (sigma_v + sigma_a |dt|) in the velocity, V = |v| + 2.9 sigma_v + (|a| + 2.9 sigma_a) |dt| being its highest speed, for a vehicle that surely turns (its yaw rate exceeds 2.9 standard deviations by w0) and for one moving straight on (or turning by at least w0) whose yaw rate is not correlated with position, speed and heading and has a standard deviation of at least (|w| + w0)/2.8. w0 has to be at least 2^-99 (below, C101 shows double precision to fail) and to keep V/w0 + (|a| + 2.9 sigma_a)/w0^2 below 2^17 M, and V is below 2^18 M for the predicted velocity. In whatever order products are added up, and for all accurate implementations of the trigonometric functions; the predicted headings must not be just at the constant 3.14159265359.", "quantifier": "for all states, covariances, durations, orders of the additions and accurate trigonometric functions with the stated conditions", "why_tests_cant": "all doubles and floats, orders of summation and mathematical libraries; the tests compare a few digits of a few predictions", "anchors": ["include/multiple_object_tracking/unscented_kalman_filter.hpp unscented_kalman_filter_predict", "include/multiple_object_tracking/unscented_transform.hpp generate_sigma_points", "include/multiple_object_tracking/unscented_transform.hpp compute_unscented_transform", "src/ctra_model.cpp get_next_state", "include/multiple_object_tracking/ctra_model.hpp CtraState"]}
{"id": "C121", "title": "The containers as hash tables", "statement": "The library keeps tracks, statuses, counters and clustered detections in std::unordered_map with a std::hash<Uuid> of its own. With these as hash tables (one list of nodes, those of a bucket together, searched from the first node of the bucket; new nodes in front of their bucket; rehashing) and the iterators of the code, for every hash function of strings and every rehash policy: (1) after any sequence of t[k] = a, t[k], emplace, erase and clear a table has for every key exactly what was put there last, in one node, and finds it; (2) erasing by key or by iterator keeps the order of the other elements, and the iterator returned points to the next one; assigning to an element keeps the order; (3) after any history of calls the manager is in a state of the manager over finite maps (C01 - C18) after the same history and answers what that answers for some iteration order; (4) any two hash functions and policies give the same outcome of each call, never undefined behaviour (so that the loops which erase through iterators end), the same thresholds, tracks, statuses, counters, and the same lists of tracks up to order; (5) clusters have the same sums, detections, centroids and outcomes as over finite maps.", "quantifier": "for all hash functions, rehash policies, sequences of table operations, histories of calls and cluster calls", "why_tests_cant": "a test runs with one hash function, one policy and a few keys", "anchors": ["include/multiple_object_tracking/uuid.hpp std::hash<Uuid>", "include/multiple_object_tracking/track_management.hpp FixedThresholdTrackManager", "include/multiple_object_tracking/clustering.hpp Cluster"]}
{"id": "C122", "title": "A whole tracking cycle in the number types of the code keeps objects and tracks together", "statement": "Take the cycle made of the library's own functions: get_all_tracks, predict_to_time with default_unscented_transform, euclidean_distance_score in float, gating, gnn_associator with dlib's solver, update_track_lists, fuse_associations with covariance_intersection_visitor, update_track and add_tentative_track, on variants of CTRV and CTRA objects whose states and time stamps are doubles and whose covariances are floats. No function is left open but sine, cosine, argument and the orders in which Eigen adds up, which are arbitrary. Let the true poses of different objects be at least sep apart, predicted tracks and detections within a and b of them, the gate between a+b and sep-(a+b) up to the rounding of the score, each object be detected at most once and always in its motion model, and two tracked objects be detected. Then the cycle succeeds; the track of a detected object becomes its prediction fused with the detection of that object, with the uuid, class and motion model of the track and the time stamp of the detection, and is counted up; the track of an undetected object is counted down and otherwise left as it was; a detected object without track gets its detection as tentative track; no object gets a second track. Over any number of such cycles presence, count and status of a track depend on nothing but in which cycles its object was detected, and the tracks keep the motion models of their objects, so that no fusion meets different models.", "quantifier": "for all numbers of objects and cycles, all states, covariances, times, iteration orders, orders of summation and mathematical functions with the stated conditions", "why_tests_cant": "quantifies over all scenes, histories, doubles, floats and iteration orders; the tests call the functions one by one", "anchors": ["include/multiple_object_tracking/temporal_alignment.hpp predict_to_time", "include/multiple_object_tracking/scoring.hpp score_tracks_and_detections", "include/multiple_object_tracking/scoring.hpp euclidean_distance_score", "include/multiple_object_tracking/track_matching.hpp gnn_associator", "include/multiple_object_tracking/fusing.hpp covariance_intersection_visitor", "include/multiple_object_tracking/track_management.hpp FixedThresholdTrackManager"]}
{"id": "C123", "title": "The tracking cycle over hash tables", "statement": "With tracks, statuses and counters in hash tables (C121), whose hash function and rehash policy are arbitrary and whose nodes give the iteration orders: (1) for every prediction, association and fusion, a cycle after any history of calls ends as the cycle over finite maps does for some pair of iteration orders of these maps, with the same outcome, thresholds, tracks, statuses and counters; (2) with the library's own functions and well separated objects (C122) the whole state after the cycle is the same for all iteration orders; (3) so every cycle over tables has exactly the result of C122; (4) over any number of such cycles after any history of calls, any two hash functions and policies give success of every cycle, the state which such cycles over finite maps lead to, and the same thresholds, tracks, statuses and counters at the end.", "quantifier": "for all hash functions, rehash policies, histories of calls, numbers of cycles and scenes with the stated conditions", "why_tests_cant": "a test runs with one hash function and one rehash policy, so one iteration order per state", "anchors": ["include/multiple_object_tracking/track_management.hpp FixedThresholdTrackManager", "include/multiple_object_tracking/uuid.hpp std::hash<Uuid>", "include/multiple_object_tracking/track_matching.hpp gnn_associator", "include/multiple_object_tracking/fusing.hpp fuse_associations", "docs/multiple_object_tracking_overview.md"]}
