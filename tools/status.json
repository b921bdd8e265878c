{
"C01": {"status": "proved", "note": "Scalars of any byte size, strings, vectors, pairs, maps with unsigned keys nested arbitrarily; containers also for arbitrary user item codecs with non-empty encodings. C01_zero_byte_pair_refuted records that zero-byte pairs at the end of a buffer trip an assertion."},
"C02": {"status": "proved", "note": ""},
"C03": {"status": "proved", "note": "Floats/doubles are covered as their bit patterns."},
"C04": {"status": "partial", "note": "Proved for builds with assertions; refuted for NDEBUG builds (C04_release_build_refuted)."},
"C05": {"status": "proved", "note": ""},
"C06": {"status": "proved", "note": ""},
"C07": {"status": "partial", "note": "REFUTED where char is signed: a character above 127 indexes outside the table (C07_decode_memory_safe_refuted). Proved that this is the only failure, for every string."},
"C08": {"status": "proved", "note": "Weights, validity, multiplicity and order agree; addNode with a value (a caller-made node with edges is outside)."},
"C09": {"status": "proved", "note": "The check compares endpoints only (C09_check_ignores_weights_refuted) and deserialization does not run it (C09_deserialize_unchecked_refuted)."},
"C10": {"status": "proved", "note": "Weights and distances as 64-bit patterns."},
"C100": {"status": "partial", "note": "REFUTED for rotations closer than the cutoff (C100_rigid_refuted: the interpolated transform is not rigid). Proved: clamping, ends, straight translation, constant speed and unit length above the cutoff, near unit length below. Over the reals."},
"C101": {"status": "partial", "note": "Proved: composition, rotations from their Euler angles, round trip of transforms. REFUTED: C101_angles_refuted (the angles themselves do not come back). Over the reals."},
"C102": {"status": "partial", "note": "REFUTED for the plane of a zero vector (C102_plane_zero_refuted: not refused). Proved: projection and rejection for all vectors, planes of non-zero vectors. Over the reals."},
"C103": {"status": "proved", "note": "Over the reals."},
"C104": {"status": "proved", "note": "Over the reals."},
"C105": {"status": "proved", "note": "Over the reals."},
"C106": {"status": "partial", "note": "Proved: angles of points, triangle sum, weighted angles for non-negative weights and vectors of non-zero weighted norm. REFUTED for zero vectors and negative weights in the release build (C106_zero_refuted, C106_negative_weight_refuted). Over the reals."},
"C107": {"status": "partial", "note": "Proved when some weight is non-zero and without weights. REFUTED for weights all zero (C107_zero_weights_refuted). Over the reals."},
"C108": {"status": "partial", "note": "Proved for fixed sizes. REFUTED for vectors of dynamic size (C108_dynamic_refuted)."},
"C109": {"status": "proved", "note": "Over the reals; the parallel loop as any order of its writes."},
"C11": {"status": "partial", "note": "REFUTED (C11_components_refuted, C11_isolated_refuted). Proved what holds: connected nodes share an id, nodes sharing a non-zero id are connected, connected graphs are labelled correctly."},
"C110": {"status": "partial", "note": "REFUTED for the diagonal direction and for angle 0 (C110_diagonal_refuted, C110_ray_refuted). Proved for directions away from the diagonal and angles strictly between 0 and a right angle (C110_pyramid_partial). Over the reals."},
"C111": {"status": "partial", "note": "Both solvers proved optimal under the Cholesky contract; REFUTED for square systems, which UnderdeterminedSolver refuses by assertion (C111_square_refuted)."},
"C112": {"status": "partial", "note": "Optimality and independence of signs proved; REFUTED that a weight of 2 equals listing twice: weights enter squared (C112_weights_refuted)."},
"C113": {"status": "proved", "note": "Under the contract of the singular value decomposition."},
"C114": {"status": "partial", "note": "Proved when each singular value is zero or above the cut-off; REFUTED otherwise: the cut-off is absolute (C114_absolute_refuted)."},
"C115": {"status": "partial", "note": "Limits, nearest value, idempotence and distances proved; REFUTED that the value is always finite (C115_finite_refuted)."},
"C116": {"status": "partial", "note": "Exact characterisation and termination proved for indices in range; REFUTED that an index out of range is refused (C116_index_refuted)."},
"C117": {"status": "partial", "note": "Proved for joints listed parent first; REFUTED for other orders the check accepts (C117_order_refuted) and for the stored inverse (C117_inverse_refuted)."},
"C118": {"status": "partial", "note": "Invariant, effect and refusal proved; REFUTED that an exception leaves the robot as it was (C118_exception_refuted)."},
"C119": {"status": "partial", "note": "Metric and interpolation proved; REFUTED that the average of angles is between them (C119_average_refuted)."},
"C12": {"status": "proved", "note": "General theorem for any lawful cost arithmetic; instances for exact costs and for IEEE doubles (Flocq; the double instance uses the standard library's real-number axioms). All tie-breaks: the queue is an arbitrary implementation."},
"C120": {"status": "partial", "note": "Proved for revolute joints and for joints off the path; REFUTED for prismatic joints (C120_prismatic_refuted), whose error is given exactly (C120_prismatic_partial)."},
"C121": {"status": "partial", "note": "Position, pose, metric, interpolation and Jacobian proved; REFUTED that the average of angles is between them (C121_average_refuted); what it is: C121_average_partial."},
"C122": {"status": "partial", "note": "Position, average and Jacobian proved in full; REFUTED that the distance is a metric (C122_distance_refuted): it is up to the cutoff, with the bounds in C122_distance_partial; interpolation is exact for rotations more than the cutoff apart (C122_interpolate_partial)."},
"C123": {"status": "proved", "note": "Doubles as bit patterns, uint32 and char fields; with assertions for the hostile part."},
"C124": {"status": "partial", "note": "REFUTED: for every message the wrapper reads four bytes past roscpp's array (C124_wrapper_refuted, roscpp contract stated), and the count reported when reading can pass the end of the buffer (C124_count_refuted). C124_round_trip_partial: when the stray read is let through the round trip is exact."},
"C125": {"status": "partial", "note": "C125_joint_round_trip proved. REFUTED for validity: a joint that has been read can have limits in the wrong order, a value outside them and no known type (C125_invalid_joint_refuted)."},
"C126": {"status": "partial", "note": "Interpolation, uniqueness, affine reproduction, linearity, similarity, history and errors proved for distinct (spanning) template points under Eigen's solver contract in exact arithmetic; REFUTED that repeated template points with different targets are noticed (C126_repeated_refuted) and that affine maps are reproduced from points on one line (C126_line_refuted)."},
"C127": {"status": "partial", "note": "int: multiplication, elementwise operations, sum and sizes proved exactly in binary64; REFUTED for division by a scalar (49 / 49 = 0, C127_divide_refuted; proved in C127_divide_partial: the quotient, or one less in absolute value and then only for exact divisions) and for int64_t (C127_int64_refuted)."},
"C128": {"status": "proved", "note": "Real arithmetic (rounding not modelled)."},
"C129": {"status": "partial", "note": "Moments, draws and nearest covariance proved over the reals with Eigen's decompositions by contract; REFUTED: an indefinite covariance is accepted silently (C129_indefinite_refuted; C129_nearest says what is sampled instead) and only the lower triangle of an asymmetric one is read (C129_asymmetric); sizes are checked by assert only (C129_sizes)."},
"C13": {"status": "proved", "note": ""},
"C130": {"status": "partial", "note": "Proved over the reals for all configurations; REFUTED that every link frame is exactly a rotation: the ABB tool is fixed with a quaternion of rounded numbers (C130_tool_refuted, within 1e-15); C130_rigid holds for all other links."},
"C131": {"status": "partial", "note": "Proved for all programs in which no log writes to a file of its making after another log has (C131_program_partial), and copies always append (C131_appends); REFUTED in general: the first log overwrites what its copy wrote (C131_copy_refuted), copies that fail to open and moved-from logs drop messages silently (C131_silent), and a bare file name is never accepted (C131_bare_name)."},
"C132": {"status": "proved", "note": "Over a model of files and directories without links, '.' and '..'."},
"C133": {"status": "partial", "note": "Order, provenance, wake-up and exceptions proved for all interleavings; REFUTED: the message may have been published before the call (C133_stale_refuted), get forgets when somebody waits (C133_forgets_refuted), and a second waiting thread can take the message from the first (C133_two_refuted)."},
"C134": {"status": "partial", "note": "Round trips proved over the reals; REFUTED: a quaternion that is not a unit gives an isometry that is none (C134_unnormalised_refuted), the scale of an Affine3d is lost (C134_scale_refuted), and Vector3f loses digits (C134_float_refuted, with the exact bound in C134_float)."},
"C135": {"status": "proved", "note": "Real arithmetic (rounding not modelled)."},
"C136": {"status": "partial", "note": "Proved with delimiters for all nestings and values of whole numbers and booleans, and without delimiters for one container of single values; REFUTED: an empty container prints no brackets (C136_empty_refuted), without delimiters nested containers collide (C136_nested_refuted), strings are not quoted, bytes are printed as characters, and a separator may be mistaken for digits."},
"C137": {"status": "partial", "note": "Proved for programs without in-place changes, and for the coordinates of programs with them. REFUTED in general: compound assignments and normalize() break the invariant that later readings assert; short vectors in doubles have length 0."},
"C138": {"status": "partial", "note": "Proved for updates (in the absence of conflicts, and that conflicts raise), both chunkings, uniqueness, and zips of at least two non-empty lists. REFUTED: a single list or an empty one beside others makes zip_repeat_shorter raise; a failing update leaves the base half changed."},
"C139": {"status": "partial", "note": "Proved for closest points, travelling, densifying, and times and positions of reversed trajectories. REFUTED for their velocities."},
"C14": {"status": "proved", "note": "PerformLazyAstar, its value-callback overload and PerformAstar terminate, and return a repetition-free path whose true cost does not exceed the reported cost, or (empty, infinity) exactly when there is no path; for every lawful cost structure, hence exact integers and IEEE doubles, every queue tie order and every heuristic. start = goal and bad indices throw."},
"C140": {"status": "proved", "note": "Over the real numbers; a duration of 0 is excluded. The cubic is also shown to be the only one."},
"C141": {"status": "partial", "note": "Proved for normalizing, composing and inverting, axis and angle, matrices, spherical coordinates of vectors longer than 1e-6, and angles above the cut-off, under a contract for tf and numpy.linalg. REFUTED for AngleBetweenQuaternionsRos, InvertMatrix, SubtractPoints, BuildMatrixFromDH and short vectors."},
"C142": {"status": "partial", "note": "Proved: RGB and XYZ, the CIE functions, Msh for positive a, ends and middle of interpolate_coolwarm, jet, hot-to-cold up to three quarters, clamping. REFUTED for Lab to XYZ, Msh in general, the last quarter of hot-to-cold and rad_diff beyond a full turn."},
"C143": {"status": "partial", "note": "Proved for directories whose links lead to files elsewhere, for lists, and for names that do not begin with a dot. REFUTED in general: rm_tree through links to directories or to files deleted before, generators of directories, mkdir_and_ask on a file, broken links, hidden files."},
"C144": {"status": "partial", "note": "Everything stated is proved but for two parts. REFUTED: normalize_quaternion of a list always raises; a list of seven numbers can give an orientation of length 0."},
"C145": {"status": "partial", "note": "REFUTED for nested calls (C145_nested_refuted, C145_caller_alarm_refuted), for functions that raise TimeoutError themselves (C145_own_timeout_refuted) and for skipping single items or yielding each item once (C145_skip_refuted, C145_retry_refuted). Proved: results and stopping of a single call, no alarm left, what retry and skip yield, conditional_try."},
"C146": {"status": "partial", "note": "REFUTED for messages that arrive during the constructor (C146_init_refuted), get(True) at shutdown (C146_shutdown_refuted), callbacks that change messages (C146_changed_refuted) and callbacks that call get (C146_deadlock_refuted). Proved in all other cases: C146_exclusive, C146_get, C146_get_changed, C146_called, C146_lost, C146_progress."},
"C147": {"status": "partial", "note": "REFUTED for get_3d_delta's documented axes and single message (C147_delta_doc_refuted, C147_delta_torn_refuted), wait_for_button at shutdown (C147_wait_button_refuted), late, private and remapped connections (C147_connected_refuted, C147_private_refuted, C147_remapped_refuted) and rospy failing to start (C147_with_ros_refuted). Proved: the rest."},
"C148": {"status": "partial", "note": "REFUTED for several wrappers in a process, poses used again and the size of static messages (C148_two_wrappers_refuted, C148_changed_refuted, C148_growth_refuted), other tf2 exceptions (C148_get_refuted), quaternions not of length 1, missing transforms and two parents (C148_start_refuted, C148_start_none_refuted, C148_two_parents_refuted). Proved: the rest, with tf.transformations as a contract that contract_met and normalizing_contract show can be met."},
"C149": {"status": "partial", "note": "REFUTED for a bias of 0 and one that is not a number (C149_bias_zero_refuted, C149_bias_nan_refuted). Proved: the rest."},
"C15": {"status": "proved", "note": "Admissible heuristic, exact arithmetic (the reported cost is the cost of the returned path and minimal). With doubles rounding can break the exact equality; C14 still holds there."},
"C150": {"status": "partial", "note": "REFUTED for parameters of another type (C150_wrong_type_refuted), messages for global names and the root namespace (C150_message_refuted, C150_root_message_refuted) and the text of GetVector (C150_line_refuted). Proved: the rest."},
"C151": {"status": "partial", "note": "REFUTED for the mean of reset names (C151_mean_refuted), printAllSummary (C151_print_all_refuted), names of both kinds (C151_both_refuted), no names and files that cannot be opened (C151_empty_refuted). Proved: the rest."},
"C152": {"status": "partial", "note": "Exact effect proved for different roots none inside another, with links below leading only to files outside (small: no links); REFUTED for repeated and nested roots, links to directories, and subfolders counting"},
"C153": {"status": "partial", "note": "Proved as far as stated in the theorems; REFUTED: the descriptor leak ends in wrong answers, program names with the tag, keys after a failed read, exceptions leaving the terminal changed, lines counting as several ENTERs, release builds of RequireAlignment, alignment 0"},
"C154": {"status": "partial", "note": "All of it proved, betweenness for channels that are 0 or at least 2^-100 and error at most 2^-22; REFUTED: NaN ratio gives transparent black, the smallest floats mixed with themselves become 0, alpha outside [0,1] is kept by Multiply"},
"C155": {"status": "partial", "note": "Exact result, exact rejection, agreement of constructors and the number of cells up to one rounding proved; REFUTED: exact number of cells, sizes above 0 always accepted, exceptions instead of undefined behaviour, usable results for all accepted sizes, failed reinitialization, IsInitialized of a default dynamic grid"},
"C156": {"status": "partial", "note": "Making, values, writes, lookups by location and location of an index within stated ranges, whole chunks and wrong kinds proved; REFUTED: writes after failed lookups have no effect, locations far from the origin, locations that are NaN"},
"C157": {"status": "partial", "note": "Nearest number with 12 (6) digits, exact for short decimals and whole numbers, labels and order, same text means values alike, sizes of vectors and matrices told by the text; REFUTED: different doubles have different texts, whole doubles in containers are printed exactly"},
"C158": {"status": "partial", "note": "Proved over the reals; with rounding, error bound, exact ends, order and closeness proved within stated ranges; REFUTED: rounded Interpolate stays between its ends, grows with the ratio, treats NaN and infinities"},
"C159": {"status": "proved", "note": "Over the real numbers, for joints with positive velocity limits and paths on which some joint limits the speed everywhere"},
"C16": {"status": "proved", "note": "The result is identical for both flag settings: the map of queue members only ever holds the start, so the limiting never takes effect (finding)."},
"C160": {"status": "proved", "note": "Over the real numbers"},
"C161": {"status": "partial", "note": "Proved for vectors and vectors of vectors of whole numbers, lines of strings and collision results; REFUTED for deeper nesting, characters, strings with newlines and an empty first list of contacts"},
"C162": {"status": "partial", "note": "Accessors, self-collisions and constructor proved after any use; REFUTED that a clone of a robot with points is independent"},
"C163": {"status": "partial", "note": "REFUTED as expected: with coarse time steps the speed limit is exceeded (C163_speed_refuted) and the deceleration at the crossing may exceed its limit (C163_acceleration_refuted); limits of zero (C163_zero_acceleration_refuted, C163_zero_velocity_refuted). Proved for all two-waypoint moves: the planner returns, and the exact slack for speeds and accelerations (C163_two_waypoints), under the hypothesis that the times of the steps increase (C81_backstep_refuted shows they may not)."},
"C164": {"status": "partial", "note": "the bounds are proved for all finite doubles (C164_enforce, C164_distance, C164_signed, C164_interpolate, C164_ends, C164_add); REFUTED expectations: different angles may be at distance 0 (C164_zero_refuted), ratio 1 may miss the second angle by the last bit (C164_end_refuted), and a sum that overflows gives NaN (C164_overflow_refuted)"},
"C165": {"status": "partial", "note": "REFUTED: names of files with a colon (C165_colon_refuted) and the interval shown for a joint at its upper limit (C165_interval_refuted). Proved: the rest (C165_exception, C165_version, C165_joint, C165_dict)."},
"C166": {"status": "proved", "note": ""},
"C167": {"status": "proved", "note": "The layout of objects with numbers that do not fit their types cannot occur in the program; the layout of values is that of the given serializer."},
"C168": {"status": "proved", "note": "NaN payloads and vectors with infinite or NaN entries are outside the statement, except that a finite Sum has only finite entries."},
"C169": {"status": "proved", "note": "The two negative parts of the statement are the refutations C169_weighted_refuted and C169_std_zero_refuted."},
"C17": {"status": "proved", "note": "No law on costs is assumed; holds for any queue, with and without assertions (they never fail)."},
"C170": {"status": "proved", "note": "The negative parts of the statement are C170_convert_refuted and C170_options_refuted."},
"C171": {"status": "proved", "note": "The negative parts of the claim are C171_close3_nan_refuted, C171_zero_refuted and C171_triangle_refuted."},
"C172": {"status": "proved", "note": "The negative part of the claim is C172_endless_refuted."},
"C173": {"status": "proved", "note": "The negative part of the claim is C173_range_refuted."},
"C174": {"status": "proved", "note": "Holds as stated; the negative parts of the statement are C174_same_refuted and C174_backwards_refuted."},
"C175": {"status": "proved", "note": "Holds as stated; the negative part of the statement is C175_half_refuted."},
"C176": {"status": "proved", "note": "Holds as stated; the last sentence is C176_order_refuted."},
"C177": {"status": "proved", "note": "Holds as stated; the last sentence is C177_self_refuted, C177_symmetric_refuted, C177_zero_vector and C177_zero_refuted."},
"C18": {"status": "partial", "note": "Proved for exact costs when the comparator treats only equal priorities as approximately equal. REFUTED for the comparator as written (relative tolerance 1e-10 with doubles): C18_tolerance_refuted returns a plan of cost 2^40+1 although one of cost 2^40 exists. C18_plan_near_optimal bounds the loss for that comparator with rounded doubles: with priorities below 2^k, at most (n+1) 2^(k-33) per step, n the number of comparisons from the entry popped to any other."},
"C19": {"status": "partial", "note": "Every completed walk is a loop-free walk along edges from start to goal; no exception or UB unless a dead end other than the goal is reachable; any finite draw history can be continued to completion when the goal stays reachable. REFUTED for graphs with dead ends: an empty range is passed to the random distribution (undefined behaviour)."},
"C20": {"status": "partial", "note": "Proved: every history of reads, writes, resets, raw loads refines a map, no UB. REFUTED parts: sizes whose product overflows int64_t are UB; ResetWithNewValue on a reference into the grid is UB."},
"C21": {"status": "partial", "note": "Proved over the reals for any rigid pose: centres map back, points of the volume lie in their cell; in IEEE doubles in the grid frame. REFUTED: in bounds also one cell before the volume on each axis (exact extent proved), far points are UB."},
"C22": {"status": "proved", "note": "All grids, any offset, byte counts, and identical later behaviour."},
"C23": {"status": "partial", "note": "Refinement to a map on space proved for real-number coordinates, all shapes, frames and histories; REFUTED in double arithmetic: rounding makes some locations belong to no cell and the write is lost."},
"C24": {"status": "partial", "note": "REFUTED for the overload taking three coordinates (it sets one cell); proved for the overload taking a location."},
"C25": {"status": "partial", "note": "Proved for finite distances (serial; parallel for every schedule and split; equal distance lists; also on doubles). REFUTED for infinite distances: the serial version returns index -1 and the parallel one fewer than min(K,n) results (C25_infinite_distance_refuted)."},
"C26": {"status": "proved", "note": "Every interleaving of the parallel loop gives the symmetric matrix; no two threads write the same cell."},
"C27": {"status": "partial", "note": "REFUTED: the two-set distance matrix writes the mirrored cell too, overwriting other entries (C27_overwritten_refuted) or running out of bounds (C27_out_of_bounds). Proved when both sets are the same size and the function is symmetric across them (C27_symmetric_partial)."},
"C28": {"status": "partial", "note": "Proved for the widths where the shifted literal is wide enough; REFUTED for bit indices 32..63 of 64-bit words (C28_high_bits_refuted, C28_high_bits_never_seen)."},
"C29": {"status": "partial", "note": "Proved for every totally ordered type and non-NaN doubles. REFUTED for NaN: ClampValue gives min, ClampValueAndWarn gives NaN (C29_nan_refuted)."},
"C30": {"status": "partial", "note": "Proved for SplitMix64 and XorShift128+. REFUTED for XorShift1024*: seed leaves the position p (C30_xorshift1024_refuted); reseeding is fresh exactly when the draws so far are a multiple of 16 (C30_xorshift1024_partial)."},
"C31": {"status": "partial", "note": "REFUTED: distinct codes share colours (C31_unique_refuted); proved for the first codes (C31_first_codes_partial)."},
"C32": {"status": "proved", "note": "Both linkages, serial and every parallel schedule; on doubles for every threshold: C32_every_threshold also says that Cluster returns exactly when the threshold is not +infinity."},
"C33": {"status": "proved", "note": "Symmetric distances, every threshold below infinity, serial and every parallel schedule."},
"C34": {"status": "partial", "note": "REFUTED for the infinite threshold on every data set: failed assertion, or index -1 used as subscript without assertions (C34_infinite_refuted). Proved for every threshold below infinity."},
"C35": {"status": "proved", "note": "For every distance and averaging function, given or random initial centers, with and without preliminary clustering."},
"C36": {"status": "partial", "note": "REFUTED: with more clusters than items the choice of distinct centers never ends; with an averaging function unrelated to the distance two items swap labels for ever. Proved: termination from given centers when the averaging function minimises the sum of (finite) distances."},
"C37": {"status": "partial", "note": "REFUTED for a query start with asymmetric distances (assertion failure, or zero weights without assertions) and for infinite distances with the serial search (throws, leaving an unconnected node). Proved in every other case: one node added (or an existing one at distance zero reused), old values and edges kept, connections validated, linkage kept; and for whole roadmaps built from any samples."},
"C38": {"status": "proved", "note": "For every order in which the threads perform their writes; both copies of every edge get the same weight; a roadmap with bad linkage throws."},
"C39": {"status": "partial", "note": "Proved: single-start A*, lazy A*, random-walk, multi-start and multi-goal queries return walks over roadmap edges between the nodes standing for start and goal (cheapest ones for multi-start and multi-goal). REFUTED when start and goal fall on the same node: the state is returned twice, or the query throws."},
"C40": {"status": "partial", "note": "REFUTED: a parent index past the end and cycles of parents are accepted (extraction then throws or never ends); a valid tree whose root is not node 0 is rejected. Proved: exactly what acceptance means, and acceptance of every linked tree rooted at node 0."},
"C41": {"status": "proved", "note": "Extraction returns exactly the line of ancestors, root first, whenever it is finite."},
"C42": {"status": "partial", "note": "REFUTED: on a tie between the two side neighbours that beat the diagonal one the evaluator takes the diagonal (C42_optimal_refuted: 3 instead of 2). Proved: a finite result is the cost of an alignment, and the least cost when no such tie occurs."},
"C43": {"status": "partial", "note": "REFUTED for exactly one empty sequence (0 from a new evaluator, infinity after larger use). Proved for all histories when both or neither sequence is empty; no call fails."},
"C44": {"status": "proved", "note": "for all schedules; value unique up to ==; empty sets characterised"},
"C45": {"status": "proved", "note": "all random sequences within the distributions' contract; at most max_iterations checks, at most max_failed of them failing"},
"C46": {"status": "partial", "note": "Proved over the reals for distances that are 0 only between equal states and geodesic interpolation (C46_resample). REFUTED for distances that ignore part of the state: a final state at distance 0 is dropped. Rounding of the quotient is not modelled."},
"C47": {"status": "partial", "note": "REFUTED when the portion already has the requested number of points or more (whole path returned) and for a single point (assertion / empty queue). Proved otherwise, including optimality, also for double lengths."},
"C48": {"status": "proved", "note": "over the reals, for any positive value of M_PI; also addition of angles"},
"C49": {"status": "partial", "note": "REFUTED: across the cut the sign is wrong (3 to -3 with a half turn of 4). Proved: the magnitude is the shortest angular distance and symmetric, and the sign is right exactly when no wrap is needed."},
"C50": {"status": "proved", "note": "over the reals; result in [-pi, pi], a share of a shortest way, ends reached"},
"C51": {"status": "partial", "note": "REFUTED across the cut: an angle off the arc is accepted. Proved when end and value are within pi of the start without wrapping."},
"C52": {"status": "proved", "note": "over the reals; all weights zero is an assertion failure or undefined behaviour (C52_zero_weights_refuted)"},
"C53": {"status": "partial", "note": "REFUTED for timers: reset restarts the timer, even one never started, and does not clear timed values. Proved: getData for all histories, independence of other names, and record relative to starts and effective resets."},
"C54": {"status": "partial", "note": "REFUTED for RESET, which always returns 0. Proved for READ and for the restart."},
"C55": {"status": "partial", "note": "REFUTED after other writes to the same path (a stale plain file hides slices; stale slices are appended) and on a disk failing at close. Proved: single files for any earlier files; slices when neither kind of leftover exists."},
"C56": {"status": "partial", "note": "Proved for all sizes with a coefficient, and for empty ones followed by a byte; hostile bytes stay in bounds with assertions on. REFUTED: an empty dynamic matrix at the end of a buffer indexes past the end."},
"C57": {"status": "partial", "note": "REFUTED for an invalid first cell, which is never checked. Proved for every queue order: soundness, completeness, no repetitions; with a valid first cell the full statement."},
"C58": {"status": "partial", "note": "REFUTED: prefixes of joint names accepted, fewer names read out of range, self-append undefined, partial append on overflow. Proved for equal names, and for different names of equal number."},
"C59": {"status": "proved", "note": "also when construction succeeds"},
"C60": {"status": "partial", "note": "REFUTED for every non-empty vector (reads 8 times too far); only the empty vector converts."},
"C61": {"status": "partial", "note": "Proved for finite closed spaces of non-negative ids. REFUTED for negative ids: ids are int64_t but a negative id on the path is taken for the end of the back-pointer chain, so a truncated path is returned."},
"C62": {"status": "proved", "note": ""},
"C63": {"status": "proved", "note": ""},
"C64": {"status": "proved", "note": "All 256 byte values, exact float32 arithmetic."},
"C65": {"status": "proved", "note": "For every totally ordered type; low = mid = v returns high, so the boundary case is stated separately."},
"C66": {"status": "partial", "note": "REFUTED with preliminary clustering: the subset is averaged with the weights of the first items. Proved for the run from given centers."},
"C67": {"status": "partial", "note": "REFUTED: with symmetric distances the reverse edge is stored without being checked. Proved: each stored edge was checked in one of its two directions."},
"C68": {"status": "proved", "note": "For the overload as it was evidently meant (it does not compile as written) and empty callbacks."},
"C69": {"status": "partial", "note": "REFUTED for directed connection tests: while the goal tree is active the arguments are swapped. Proved: everything else, with the bridge accepted in one of the two orders."},
"C70": {"status": "proved", "note": "Both endiannesses, with and without assertions."},
"C71": {"status": "partial", "note": "REFUTED for a name whose list of values is empty (undefined). Proved otherwise, for all histories."},
"C72": {"status": "partial", "note": "REFUTED for names carrying both kinds of data (lines twice) and for an empty profiler (undefined). Proved otherwise."},
"C73": {"status": "partial", "note": "REFUTED near the limit: incompressible data compresses to more than DecompressBytes accepts. Proved whenever the compressed form fits, for every deflate/inflate meeting zlib's contract, including termination."},
"C74": {"status": "proved", "note": "Hypothesis: the text size fits in size_t."},
"C75": {"status": "partial", "note": "Proved for waypoints more than 2e-6 apart and, with a positive deviation, without exact reversals. REFUTED for a repeated waypoint (C75_repeated_waypoint_refuted: NaN) and for fewer than two waypoints (C75_short_list_refuted: undefined behaviour). Doubles are reals."},
"C76": {"status": "proved", "note": "For waypoints more than 2e-6 apart and, with a positive deviation, without exact reversals (good_waypoints). Doubles are reals."},
"C77": {"status": "proved", "note": "For good_waypoints. Doubles are reals."},
"C78": {"status": "proved", "note": "For good_waypoints. Doubles are reals."},
"C79": {"status": "proved", "note": "For good_waypoints. Doubles are reals."},
"C80": {"status": "proved", "note": "Three equivalences over the reals for every dimension, direction, curvature and limit."},
"C81": {"status": "partial", "note": "Ends and steps proved for plans whose step times never decrease (empty intervals allowed but for the last) and a duration below the largest double. REFUTED that the times always increase (C81_backstep_refuted) and that planning returns for a zero time step (C81_zero_step_refuted)."},
"C82": {"status": "partial", "note": "REFUTED: after the duration the last interval is extrapolated, the robot moves back from the goal (C82_after_end_refuted). C82_after_end_partial gives position and velocity at every later time: back along the path from its end by half the last deceleration times the square of the time since."},
"C83": {"status": "proved", "note": "Proved for all histories of non-negative times; REFUTED for NaN (C83_nan_poisons_refuted, C83_nan_first_refuted) and negative times (C83_negative_time_refuted)."},
"C84": {"status": "partial", "note": "REFUTED for max_deviation 0: a corner is taken at full speed (C84_velocity_jump_refuted). C84_velocity_partial: with a positive max_deviation velocity jumps are at most one millionth of the speed, for plans whose steps stay on the path, do not go back and agree in speed when at the same time."},
"C85": {"status": "proved", "note": "For plans whose step times increase: the derivative at every time between the steps and off the discontinuities of the path."},
"C86": {"status": "proved", "note": "For nonnegative limits and time steps; over the reals."},
"C87": {"status": "proved", "note": "For nonnegative limits; over the reals."},
"C88": {"status": "partial", "note": "REFUTED as a user expects it: C88_outside_refuted (samples outside the bounds when the uniform proposals are used) and C88_zero_deviation_refuted. Proved: within the bounds whenever the mean is within them, a bound is infinite or the simple algorithm is chosen (C88_bounds_partial); what is returned otherwise (C88_tail_partial); the acceptance tests (C88_first_accepted, C88_acceptance). Over the reals."},
"C89": {"status": "proved", "note": "For positive deviations and lower bound below upper bound, over the reals; C89_point_refuted: with equal bounds the probability over the bounds is 0."},
"C90": {"status": "partial", "note": "REFUTED for bounds or configurations off the grid (C90_past_bound_refuted, C90_own_cell_refuted); proved for cells and bounds on the grid. Over the reals."},
"C91": {"status": "proved", "note": "For every strict weak order."},
"C92": {"status": "proved", "note": "Over the reals."},
"C93": {"status": "proved", "note": "Over the reals; rounding to float not modelled."},
"C94": {"status": "partial", "note": "REFUTED: C94_find_narrowing_refuted (index 2^32 - 1 is reported as absent), C94_mirror_refuted (mirrored complex numbers and vectors collide). Proved: Maybe histories, enumerate and find up to 2^31 items, injectivity of hash_combine."},
"C95": {"status": "partial", "note": "REFUTED with milliseconds: C95_sorted_refuted (no padding). Proved: without milliseconds order and distinctness, with milliseconds distinctness."},
"C96": {"status": "proved", "note": "Over the reals."},
"C97": {"status": "partial", "note": "REFUTED for rotations below 1e-100 (C97_tiny_rotation_refuted: the rotation is dropped while the translation stays). Proved for all other twists (C97_exponential_partial), change of frame (C97_conjugate), round trip under the contract of Eigen's matrix logarithm (C97_twist_between). Over the reals."},
"C98": {"status": "proved", "note": "For every quaternion except zero; C98_zero gives the result there. Over the reals."},
"C99": {"status": "partial", "note": "Matrices: proved (C99_matrix, C99_metric). Quaternions: REFUTED (C99_quaternion_refuted: two unseen steps add up to a seen one); proved equal to the matrix distance above the cutoff and 0 below (C99_quaternion_partial). Over the reals."}
}
