# Design

Formal model, in Rocq (Coq 8.16.1), of the C++ library *multiple_object_tracking*
(source in `/repo`, not modified, not built).  All Coq files are in
`rocq/theories`.  The properties are in `properties.jsonl`; `MANIFEST.json` maps
each property to its theorems; `seeded/LOG.jsonl` records mutation runs.

## How the code is modelled

* **Outcomes.** A C++ call is a function returning `Ok v`, `Throw e` (an exception,
  by kind) or `UB` (undefined behaviour: out-of-bounds access, conversion of a
  NaN or out-of-range float to `int`, Eigen/dlib precondition violation).
* **Uuid.** A byte string with byte-wise lexicographic order.
* **std::map / std::set.** Strictly sorted (association) lists.
* **std::unordered_map.** A finite map (std++ `gmap`) plus, for each traversal, an
  *iteration order* passed in as an argument: a list of keys that is a permutation
  of the key set.  Theorems quantify over all orders.  C121 shows that hash tables with
  iterators refine this.
* **size_t.** `N` with explicit `mod 2^64` in the counter arithmetic.
* **float / double in the assignment cost code.** IEEE-754 binary32/binary64 from
  Flocq (`BinarySingleNaN`), round to nearest even, with NaN and infinities.
* **Angles, motion models, clustering.** Written once over an abstract arithmetic
  (record of operations) and instantiated (a) with Coq's real numbers, (b) where a
  floating-point effect is the point, with binary64 and arbitrary `sin`, `cos`.
* **Eigen code (UKF, unscented transform, covariance intersection, Mahalanobis).**
  mathcomp matrices over the reals; rounding is not modelled.
* **External calls.** `dlib::max_cost_assignment`: any function result satisfying its
  documented contract (a permutation of maximal total cost) - theorems quantify over
  all such results.  `Eigen::LLT`: its algorithm, including what it leaves behind for
  matrices that are not positive definite.  `std::hash`, iteration order: arbitrary.
* JSON values are a datatype (the text parser of nlohmann::json is not modelled);
  printing functions are not modelled.

## Plan per property

| id | modelled | proof |
|---|---|---|
| C01 C02 | track manager, all calls, orders as arguments | invariant (equal key sets, key = uuid of track, count >= 1) by induction over the call list |
| C03 C04 C09 C11 C15 | single calls | pointwise characterisation (`lookup` of each map) from the invariant; loops by induction over the order |
| C05 | counters mod 2^64 | history invariant: count <= 1 + number of updates |
| C06 | call lists without promotion-threshold changes | induction over the list |
| C07 C08 | k-fold updates | induction on k using the pointwise characterisation |
| C10 C16 | concrete history | refutation by computation |
| C12 | two runs with different orders | equality of the resulting maps by induction |
| C13 | per-uuid automaton as spec | refinement: projection of the manager to one uuid simulates the automaton |
| C14 C17 C18 | corollaries | from the characterisation |
| C19 C20 C21 C22 | score map as sorted map; visitors; loop with erase | induction over lists |
| C23 C24 C25 | distances over R | real analysis / matrix algebra |
| C26 C33 C34 C35 | association pipeline, arbitrary optimal permutation | list and permutation reasoning |
| C27 C29 C32 | binary32/64 cost pipeline | Flocq error analysis + optimality exchange |
| C28 C30 C31 | concrete score maps | refutation; all optimal permutations handled symbolically |
| C36 | nested loops | induction; explicit comprehension as spec |
| C37 | dimension check in the visitor; pipeline | case analysis + refutation witness |
| C38 C39 C40 C41 | matrices over R | Schur complement induction for determinants; quadratic forms |
| C42 C43 | clustering loop with fuel = number of detections | induction on the remaining list; fuel never exhausted |
| C44 C45 C48 C49 | concrete inputs | refutation |
| C46 C47 | cluster operation histories | invariant by induction |
| C50 | angle over R (complex pair, atan2) | trigonometry |
| C51 C58 | binary64 | Flocq |
| C52 - C57 | motion models over R | derivatives, ring/trig identities |
| C59 C60 C61 | unscented transform over R | big sums |
| C62 C63 C64 | UKF prediction | unfolding + explicit witnesses |
| C65 C66 C67 C68 C69 C70 | small functions | direct |
| C71 | composition of one tracking cycle (`Pipeline.v`) | from the individual theorems |
| C72 | gated score maps with a missing pair | optimality of the permutation over two-valued costs |
| C73 | joint covariance of track and detection errors | quadratic forms |
| C74 | UKF prediction with shifted position | equivariance of sigma points, mean and covariance |
| C75 C76 C77 | concrete inputs | refutation |
| C78 | one track over a list of updates | induction over the history, closed form in `HistorySpec.v` |
| C79 C80 C81 | state arithmetic and equality | ring/trig identities; witnesses for the failures |
| C82 | empty `to_json` | direct |
| C83 C84 | Euclidean distance in binary32 | Flocq error analysis |
| C85 | associator on separated scores and unambiguous gates | C27/C28 bounds with equality of one-to-one sets |
| C86 | independence of list and hash orders | extensionality of ordered maps and of manager states |
| C87 | cycles in unambiguous scenes (`SceneSpec.v`) | C85 in every cycle, induction over cycles, C78 closed form |
| C88 | removal threshold of two or more | invariant over all call histories |
| C89 | clusters of separated groups | induction over the cluster loop with labels as invariant |
| C90 | symmetries of the motion models | closed forms with noise, trigonometric identities |
| C91 | fusion in other coordinates (`FrameSpec.v`) | congruence of information matrices |
| C92 | fusion weight in binary32 (`FloatWeight.v`) | Flocq error analysis over multiplication trees |
| C93 | associator and distance on scores that are not finite | loop lemmas; case analysis of IEEE values |
| C94 | heading wrap in binary32/binary64 (`FloatHeading.v`) | Flocq error analysis |
| C95 | repeated fusion (`RepeatSpec.v`) | induction; determinant bounds for the weights |
| C96 | prediction of the heading variance (`UnscentedLoss.v`, `UnscentedDefinite.v`) | sigma points a whole turn away; bound on wrapped headings; triangular differences of sigma points |
| C97 | clustering at the type of doubles | Flocq error analysis (`SumSquares64.v`); the grouping relation of `ClusteringSpec.v` |
| C98 | prediction of the linear components (`UnscentedLinear.v`) | sigma points as offsets A L up to an error per component; bound on the perturbed transform |
| C99 - C101 | motion models at the type of doubles with accurate trigonometric functions (`TrigSpec.v`) | Flocq error analysis (`AngleAccuracy.v`, `MotionAccuracy.v`, `Approx64.v`, `CtraAccuracy.v`), induction over the predictions (`MotionMany.v`); absorption and underflow for tiny rates (`CtraTiny.v`), compared with the exact motion by the mean value theorem |
| C102 C103 | dlib's assignment algorithm (`Assignment.v`) | loop invariants of the Hungarian method (`HungarianThms.v`): feasible labels, alternating tree, slacks, bounded labels; duality; the first overflow (`AssignmentThms.v`) |
| C104 | the cycle with dlib's solver (`PipelineDlib.v`) | counting the tracks and detections that pass the gate, C102, C103; uniqueness of the association in clear scenes (C85); induction over cycles |
| C105 | motion models with process noise at the type of doubles | the step-wise error bounds of C99 - C101 applied to the added terms (`NoiseAccuracy.v`) |
| C106 | well separated objects (`IdentitySpec.v`): gate between errors and distances, float scores | triangle inequality and C83 make the gate separate the objects, so the scene is clear (C87, C104); invariant one track per object; induction over cycles with predictions that differ from cycle to cycle (`IdentityThms.v`) |
| C107 | operation histories of a cluster at the type of doubles | invariant of the sum over histories: error at most K^2 2^-52 M after K operations; angles with C99; absorption by rounding to nearest (`CentroidDouble.v`) |
| C108 | propagate_to_time at the type of doubles along lists of time stamps | induction over the list with the step-wise error bounds of C99 and C100 for varying durations; relative error of the differences (`MotionTimes.v`); Sterbenz's lemma |
| C109 | prediction of covariances with uncorrelated positions (`UnscentedBlock.v`) | a functional that is constant on the sigma points vanishes: first on the position, then by the symmetry of each pair of points around the seam; uniqueness of the Cholesky factor for the singular case |
| C110 | weights of the unscented transform and the mean in binary32 (`FloatUnscented.v`) | Flocq error analysis; sums over trees of additions; absorption of alpha^2 (n + kappa) by n |
| C111 | `compute_unscented_transform` in binary32 (`FloatCovariance.v`) | error analysis over trees of additions: mean, deviations, products, sums |
| C112 | Eigen's LLT for any symmetric matrix (`EigenLlt.v`), predictions from it | loop invariant (finished and untouched columns); uniqueness of the factor; recovery of `L L^T` in zero time |
| C113 | Eigen's LLT in binary32 (`FloatLlt.v`) | backward error over trees of additions; Schur complements stay positive |
| C114 | a whole CTRV prediction in doubles and floats (`FloatPredict.v`) | backward error for the factor, forward error for motion and transform; bridge to `Unscented.v` |
| C115 | the same, far from the origin | all points round to one float, so nothing else enters the transform |
| C116 | Eigen's inverse in binary32 (`FloatLu.v`) | loop invariant (permuted rows, growth by 2 per pass), backward error of the triangular systems; pivots from below by a null vector of the rows above |
| C117 | `mahalanobis_distance` in binary32 (`FloatMahalanobis.v`) | relative errors against products of standard deviations (`near`), the form bounded below by Cauchy-Schwarz, triangle inequality for the errors of the differences |
| C118 | a whole fusion in doubles and floats (`FloatFusion.v`), without correlations | LU of a diagonal matrix is the matrix, so inverses and determinants are entrywise; relative errors, and bridge to `CovInt.v` |
| C119 | fusion in floats with correlations (`FloatFusion.v`, `FloatLu.v`) | backward errors: LU gives the determinant of a nearby matrix (`\det` of mathcomp), residuals of inverses, rounding of the sums; a weight above 1 by computing with tables (`FloatTables.v`) |
| C120 | a whole CTRA prediction in doubles and floats (`FloatPredict.v`) | as C114, with the perturbed CTRA motion (`CtraSigma.v`) and the length of its way by the mean value theorem (`CtraPredictInput.v`) |
| C121 | the containers as hash tables (`HashTable.v`, `HashManager.v`) | the nodes of a bucket stay together; refinement of the finite maps, step by step |
| C122 | the tracking cycle of the library's own functions in doubles and floats (`LibraryCycle.v`, `LibraryCycleSpec.v`) | an instance of C106; tracks keep the motion model of their object (invariant), so scores and fusions are defined |
| C123 | the tracking cycle over hash tables (`HashCycle.v`, `HashCycleSpec.v`) | refinement of the cycle over finite maps; where C122 applies its result determines the next state, so no iteration order matters |

## Trusted base

### Checker

* Coq 8.16.1's kernel, including its bytecode evaluation (`vm_compute` is used in
  some computations).  No kernel check is switched off.  There are no axioms, open
  `Variable`s/`Hypothesis`es, admitted proofs, functors or module types of our own.
* Libraries: Coq's standard library, std++, mathcomp (with its `ring`), Flocq.

### Axioms

Each `Properties_*.v` ends every theorem with `Print Assumptions`.  What it lists is
always a subset of these five axioms of the standard library:

| short name | full name |
|---|---|
| D1 | `ClassicalDedekindReals.sig_forall_dec` |
| D2 | `ClassicalDedekindReals.sig_not_dec` |
| FE | `FunctionalExtensionality.functional_extensionality_dep` |
| EM | `Classical_Prop.classic` |
| EPS | `ClassicalEpsilon.constructive_indefinite_description` |

| axioms | theorems (all theorems of the property unless a suffix is given) |
|---|---|
| none | C123_cycle, C121, C112_definite, C112_stops, C112_pivots, C01 - C18, C19 - C22, C26_contract_satisfiable, C31_empty_map_undefined, C33 - C35, C36_order, C36_failure, C38, C39_covariance, C39_mean, C39_self, C40, C42, C43, C46, C59, C61_symmetric, C65 - C68, C73, C78, C82, C86_scores, C86_fusion, C88, C89 (except C89_objects and C89_order_refuted), C91_weight, C91_coordinates, C92_spreads, C95_forget, C95_between, C95_mean, C95_average, C102_solver, C103_overflow |
| D1 | C63_frame, C63_predict, C63_variant |
| D1 FE | C63_twice, C69_idempotent, C69_matrix, C69_monotone, C69_nearest, C69_odd, C69_unique |
| D1 D2 FE EM | C26_one_to_one, C27 - C30, C31_all_zero_undefined, C32, C44, C45, C47 - C58, C69_float_*, C70_augmented, C71 (except C71_library), C72, C75 - C77, C79_ctrv_*, C79_ctra_*, C80, C81, C83, C84, C85, C86 (except C86_scores and C86_fusion), C87, C89_objects, C89_order_refuted, C90 (except C90_prediction_refuted), C92 (except C92_spreads and C92_accuracy), C93, C94, C97, C99 - C101, C102 (except C102_solver), C103 (except C103_overflow), C104 - C108, C110, C111, C113, C116, C117, C118 (except C118_exact), C119_covariance, C119_finite, C119_mean, C119_weight_refuted, C122, C123 (except C123_cycle) |
| D1 FE EM EPS | C25_block, C98_step, C118_exact |
| D1 D2 FE EM EPS | C23, C24, C25 (except C25_block), C36_fields, C37, C39_ctra, C39_ctrv, C39_objects, C41, C60, C61_default, C61_parameters, C62, C64, C70_state_*, C70_vector_*, C71_library, C74, C79_vector_*, C90_prediction_refuted, C91 (except C91_weight and C91_coordinates), C92_accuracy, C95_ctrv, C95_ctra, C95_never_learns, C96, C98 (except C98_step), C109, C112 (except C112_definite, C112_stops and C112_pivots), C114, C115, C120, C119_determinant, C119_weight, C119_visitor |

D1, D2 and FE come with the construction of Coq's real numbers; EM with real
analysis and Flocq; EPS is used only to give the real numbers the decidable
choice structure that mathcomp's matrices need (`RealField.v`).

### Modelled code

| source in `/repo` | Coq file | what is modelled |
|---|---|---|
| `uuid.hpp` | `Uuid.v`, `HashTable.v` | comparison operators, the order used by `std::map`, `std::hash<Uuid>` |
| libstdc++'s `unordered_map` (not in `/repo`) | `HashTable.v` | the operations the library uses, iterators, rehashing |
| `dynamic_object.hpp` | `DynObj.v` | records, variants, accessors, `set_*`, `copy_*`, `make_track` |
| `scoring.hpp`, `gating.hpp` | `Scoring.v`, `Distance.v`, `FloatDistance.v`, `FloatMahalanobis.v` | `score_tracks_and_detections`, the two distances (also in binary32), pruning |
| `detail/dlib_extensions.hpp`, `track_matching.hpp` | `DlibMatrix.v`, `Float.v`, `Matching.v` | all functions; costs in IEEE binary32/binary64 |
| dlib's `max_cost_assignment.h` (not in `/repo`) | `Assignment.v` | the algorithm, with 32-bit overflow |
| `track_management.hpp` | `TrackManager.v`, `HashManager.v` | the whole class, both `update_track` overloads; over finite maps and over hash tables |
| `fusing.hpp` | `Fusing.v`, `CovInt.v`, `FloatWeight.v`, `FloatHeading.v`, `FusionVisitor.v`, `MixedFusion.v`, `FloatLu.v`, `FloatFusion.v` | weight (for diagonal matrices also in binary32), heading wrap (also in binary32), covariance intersection and its visitor (also in binary32), visitors, `fuse_associations` |
| `clustering.hpp` | `Clustering.v` | points, distance, `Cluster`, `cluster_detections` |
| `angle.hpp`, `ctrv_model.*`, `ctra_model.*`, `augmented_state.hpp` | `Motion.v`, `StateVec.v`, `StateEq.v`, `Rounding.v` | `Angle`, state arithmetic and equality, `next_state`, vector conversions, rounding |
| `unscented_transform.hpp`, `unscented_kalman_filter.hpp`, `temporal_alignment.hpp` | `EigenLlt.v`, `Unscented.v`, `Propagation.v`, `FloatUnscented.v`, `FloatCovariance.v`, `FloatLlt.v`, `FloatPredict.v` | sigma points, weights, mean and covariance, prediction (these also in the number types of the code, binary32 and binary64), alignment |
| `utils.hpp` | `Rounding.v`, `RoundingFloat.v` | `round_to_decimal_place` overloads |
| `json_parsing.hpp` | `Json.v` | both loaders, from the parsed document on; the (empty) writers |
| `docs/multiple_object_tracking_overview.md:5-12` | `Pipeline.v`, `PipelineDlib.v`, `LibraryCycle.v`, `HashCycle.v` | one tracking cycle; the repository only describes it, so this composition is ours |

### Simplifications

* **Exact arithmetic.** Motion models, Eigen code, fusion, distances, clustering
  and the state rounding helpers are modelled over the real numbers.  Where IEEE
  effects are the point there are separate binary64/binary32 statements (C27 - C32,
  C51, C58, C69 float theorems, C81_double_*, C83, C84, C92 - C94, C97, C99 - C101, C105 - C108, C110, C111, C113 - C120, C122, C123).  The two
  distances, the unscented mean and covariance and LLT in binary32 allow any order of summation, but no fused multiply-add.  In `RoundingFloat.v` overflow is not modelled and
  `std::pow` is taken to be correctly rounded.
* **Trigonometry in binary64** is an arbitrary function where a theorem only needs
  that (C58); C51 says what it needs.  C99 to C101 and C105 assume errors of about one
  unit in the last place (`accurate` in `TrigSpec.v`) and prove that correctly rounded
  functions have them; the C++ standard promises no accuracy.
* **Cholesky.** `EigenLlt.v` models `Eigen::LLT` in exact arithmetic, with the
  failure report that the code does not read.  The inverse of a singular matrix is unspecified in
  Eigen; theorems that need the inverse assume positive definiteness.
* **Sizes.** Containers have fewer than 2^63 elements, so that conversions between
  `size_t`, `long` and `double` are exact; the dlib matrix extension assumes fewer
  than 2^32 rows and columns.  Allocation failure is not modelled.
* **User callbacks** (metrics, predicates, propagators, fusion callables) are pure
  functions.
* **Compile-time features** (tags, SFINAE, `Visitor`, `remove_cvref`, the unit
  library, variants with one alternative) have no run-time content and are not
  represented.  A variant of the two motion models is a two-constructor type.

### External contracts

* `dlib::max_cost_assignment`: any permutation of maximal total cost for a square
  integer matrix (`solver_ok`).  `Assignment.v` models dlib's algorithm itself, from
  its published source, which is not part of `/repo` and could not be compared here.
  For that model the contract is proved for the matrices that arise with no more
  tracks than detections (C102).  With more tracks than detections the padding
  `INT_MIN` overflows inside dlib (C103): theorems that assume `solver_ok` then speak
  about a correct solver, not about what dlib does.
* `Eigen::LLT`: modelled from Eigen's published source (`unblocked`, for sizes below
  32), which is not part of `/repo` and could not be compared here; C112_tested
  derives a value expected by the repository's own test from it.
* `inverse()` of a `Matrix3f`: modelled from Eigen's
  `compute_inverse` for size 3 (cofactors times one over the determinant, which is taken along
  the first column), in `FloatMahalanobis.v`.  The orders of summation are left open.
* `inverse()` of matrices of floats with five or six rows: modelled from Eigen's
  published source (`PartialPivLU`, unblocked for sizes up to 16, and the triangular
  solver with a single panel, as with packets of four floats), which is not part of
  `/repo` and could not be compared here.
* `determinant()` of a `MatrixXf` (sign of the row exchanges times the product of the diagonal
  of the same LU decomposition) and products with a scalar factor: the order of the
  multiplications and additions and the place of the factor are left open (`fusion_orders`).
* Iteration order of `std::unordered_map`: an arbitrary permutation per call.  In C121 the
  hash table of libstdc++ (from its published source, without cached hash codes and
  allocation failure), with arbitrary hash function of strings and rehash policy.
* `nlohmann::json`: the text parser and the number conversions are parameters;
  `get<double>`, `get<float>`, `at`, `operator[]` follow its documentation.

* The unit library's `operator==`: equal when the difference is below the smallest
  normal double or below 2^-52 times the size of the sum, as in its source.

### Not modelled

`print_*`/`operator<<` functions, the text part of JSON loading and
file access, `calibrate_covariance` (an empty stub), the test code, and thread-safety.
