{"id": "C01", "title": "Serialization round-trips at any offset", "statement": "For every value built from fixed-size PODs, strings, pairs, vectors, vector-like containers and maps (nested arbitrarily, with any item codec that itself obeys this law and writes at least one byte), serializing it into a buffer and deserializing at the position where it was written returns the same value, whatever bytes precede it and whatever bytes follow it.", "quantifier": "all values, all nesting of containers, all item codecs obeying the law, all prefixes and suffixes of the buffer", "why_tests_cant": "nesting depth, sizes, surrounding bytes and item codecs are unbounded; a test can only sample literals", "anchors": ["include/arc_utilities/serialization.hpp: SerializeFixedSizePOD, DeserializeFixedSizePOD, SerializeString, DeserializeString, SerializeVector, DeserializeVector, SerializeVectorLike, DeserializeVectorLike, SerializeMap, DeserializeMap, SerializePair, DeserializePair"]}
{"id": "C02", "title": "Serialization byte accounting", "statement": "Every serializer only appends to the buffer (all bytes already present are untouched) and returns exactly the number of bytes appended; the matching deserializer returns exactly that number as bytes read, so consecutive values can be chained by adding the returned counts.", "quantifier": "all values, all pre-existing buffers, all item codecs with the same contract", "why_tests_cant": "requires the count and framing to be right for every value and every existing buffer", "anchors": ["include/arc_utilities/serialization.hpp: Serialize*, Deserialize*"]}
{"id": "C03", "title": "Network-order serialization", "statement": "The network variants write each 1/2/4/8-byte scalar most significant byte first, independent of the host byte order, and round-trip at any offset like the host-order variants.", "quantifier": "all scalars, strings, pairs, vectors and maps, all offsets and surrounding bytes, both host byte orders", "why_tests_cant": "tests run on one host endianness only; value space is 2^64", "anchors": ["include/arc_utilities/serialization.hpp: Serialize/DeserializeNetwork*"]}
{"id": "C04", "title": "Deserialization of hostile bytes stays in bounds", "statement": "With assertions enabled, deserializing any byte buffer at any offset either yields a value computed from bytes inside the buffer or stops with a failed assertion / thrown exception; it never reads outside the buffer.", "quantifier": "all byte buffers, all offsets, in a build with assertions and in a build without", "why_tests_cant": "quantifies over all malformed inputs, including length headers chosen to overflow 64-bit arithmetic", "anchors": ["include/arc_utilities/serialization.hpp: DeserializeFixedSizePOD, DeserializeString, DeserializeVector, DeserializeMap"]}
{"id": "C05", "title": "Base64 decode inverts encode", "statement": "Decode(Encode(bytes)) returns exactly the original bytes.", "quantifier": "all byte vectors of every length", "why_tests_cant": "all lengths modulo 3 with all byte values", "anchors": ["src/arc_utilities/base64_helpers.cpp: Encode, Decode"]}
{"id": "C06", "title": "Base64 output is well formed RFC 4648", "statement": "Encode produces ceil(n/3)*4 characters, all from the 64-character alphabet except for the trailing padding, of which there are exactly (3 - n mod 3) mod 3; and the output is the 6-bit big-endian regrouping of the input.", "quantifier": "all byte vectors", "why_tests_cant": "structure must hold for every length and content", "anchors": ["src/arc_utilities/base64_helpers.cpp: Encode"]}
{"id": "C07", "title": "Base64 decode is memory safe for every input string", "statement": "Decode applied to any string returns a byte vector without out-of-bounds table access.", "quantifier": "all strings, including non-ASCII characters and wrong padding", "why_tests_cant": "needs every string, including chars that are negative as signed char", "anchors": ["src/arc_utilities/base64_helpers.cpp: Decode"]}
{"id": "C08", "title": "Graph linkage is an invariant", "statement": "After any sequence of addNode / addEdgeBetweenNodes / addEdgesBetweenNodes calls (including ones that throw), every out-edge of a node appears with the same endpoints and weight as an in-edge of the other node and vice versa, all endpoints are valid node indices, no node has an edge to itself, and a call that throws leaves the graph unchanged.", "quantifier": "all histories of graph-building calls with all arguments", "why_tests_cant": "a property of every reachable graph", "anchors": ["include/arc_utilities/graph.hpp: Graph::addNode, addEdgeBetweenNodes, addEdgesBetweenNodes, GraphNode::AddOutEdge/AddInEdge"]}
{"id": "C09", "title": "Linkage check decides linkage", "statement": "checkGraphLinkage returns true exactly on graphs where every out-edge is matched by an in-edge at its destination and every in-edge by an out-edge at its source, with valid indices and no self edges; in particular every graph built through the API or obtained by deserializing a serialized one passes.", "quantifier": "all graphs", "why_tests_cant": "an iff over all graphs", "anchors": ["include/arc_utilities/graph.hpp: Graph::CheckGraphLinkage, checkGraphLinkage"]}
{"id": "C10", "title": "Graph serialization round-trips", "statement": "Serializing a graph and deserializing it with matching value codecs gives an identical graph (node values, distances, edge lists in order, weights, validity) and the same byte count.", "quantifier": "all graphs, all value codecs obeying the round-trip law, all surrounding bytes", "why_tests_cant": "unbounded structures", "anchors": ["include/arc_utilities/graph.hpp: GraphEdge/GraphNode/Graph serializeSelf, deserializeSelf"]}
{"id": "C11", "title": "Connected components labelling", "statement": "getConnectedComponentsUndirected gives two nodes the same component id exactly when they are connected ignoring direction, and returns the number of components.", "quantifier": "all graphs with consistent linkage", "why_tests_cant": "needs every graph shape", "anchors": ["include/arc_utilities/graph.hpp: getConnectedComponentsUndirected, markConnectedComponentUndirected"]}
{"id": "C12", "title": "Dijkstra computes shortest distances", "statement": "On a graph with non-negative weights the reported distance of every node is the cost of some path from the node to the start (or infinity when none exists) and no path is cheaper; holds also when costs are added in double precision, for every tie-breaking order of the priority queue.", "quantifier": "all graphs, all start nodes, all non-negative weights (exact and IEEE double), all queue tie-breaks", "why_tests_cant": "optimality is a for-all-paths statement; tie-breaking is unspecified by the standard library", "anchors": ["include/arc_utilities/dijkstras.hpp: SimpleDijkstrasAlgorithm::PerformDijkstrasAlgorithm"]}
{"id": "C13", "title": "Dijkstra back-pointers reconstruct shortest paths", "statement": "Following the returned previous-index from any node with finite distance reaches the start in finitely many steps along existing edges, and the edge costs added along the way equal the reported distance; the start points to itself and unreachable nodes report -1 and infinity.", "quantifier": "all graphs, all nodes", "why_tests_cant": "needs every graph and every node", "anchors": ["include/arc_utilities/dijkstras.hpp: PerformDijkstrasAlgorithm"]}
{"id": "C14", "title": "A* returns a real path of the reported cost", "statement": "If A* (lazy or not) reports a path, it starts at the start index, ends at the goal index, uses only existing valid edges of finite cost, does not repeat a node when costs are non-negative, and the true cost of the path is no more than the reported cost; otherwise it reports an empty path with infinite cost and no usable path exists.", "quantifier": "all graphs, edge-validity functions, distance functions, heuristics (even inadmissible), both duplicate-limiting settings, all tie-breaks", "why_tests_cant": "requires all graphs and all user-supplied functions", "anchors": ["include/arc_utilities/dijkstras.hpp: SimpleGraphAstar::PerformLazyAstar, PerformAstar"]}
{"id": "C15", "title": "A* is optimal with an admissible heuristic", "statement": "With non-negative edge costs added without rounding and a heuristic that never overestimates the cost to the goal, A* returns a cheapest path and its exact cost, even when the heuristic is not consistent.", "quantifier": "all graphs, all admissible heuristics, all tie-breaks", "why_tests_cant": "optimality over all paths for all heuristics", "anchors": ["include/arc_utilities/dijkstras.hpp: PerformLazyAstar"]}
{"id": "C16", "title": "A* duplicate limiting never changes the answer", "statement": "Setting limit_pqueue_duplicates returns the same cost as leaving it off.", "quantifier": "all graphs and heuristics", "why_tests_cant": "compares two runs over all inputs", "anchors": ["include/arc_utilities/dijkstras.hpp: PerformLazyAstar"]}
{"id": "C17", "title": "Generic A* planner soundness and completeness", "statement": "SimpleAStarPlanner::Plan returns either a sequence of states from the start to a state accepted by the goal test in which each state was produced by the neighbour function from its predecessor, or an empty plan only when no goal state is reachable; regardless of which of several nearly equal entries the queue pops. The number of nodes explored that it reports counts distinct reachable states, on success all those of the plan but the last among them and no goal, on failure all reachable states.", "quantifier": "all neighbour functions, distance functions, heuristics, goal tests, queue pop orders on a finite reachable set", "why_tests_cant": "user callbacks and unspecified queue order range over infinite spaces", "anchors": ["include/arc_utilities/simple_astar_planner.hpp: SimpleAStarPlanner::Plan, ExtractPathBasic"]}
{"id": "C18", "title": "Generic A* planner optimality", "statement": "With a consistent heuristic and a queue that pops a least entry, the plan returned has the least cost among all plans.", "quantifier": "all finite-reachable problems with consistent heuristic", "why_tests_cant": "optimality over all plans", "anchors": ["include/arc_utilities/simple_astar_planner.hpp: SimpleAStarPlanner::Plan"]}
{"id": "C19", "title": "Random walk is loop free and connected", "statement": "GraphRandomWalk returns a walk that begins at the start node, ends at the goal node, moves only along existing edges and visits no node twice, for every sequence of random draws on which it terminates.", "quantifier": "all graphs, all random number sequences", "why_tests_cant": "random draws cannot be enumerated", "anchors": ["include/arc_utilities/dijkstras.hpp: GraphRandomWalk"]}
{"id": "C20", "title": "Voxel grid behaves as a total map on its cells", "statement": "After any sequence of SetValue calls, Get on an in-bounds index returns the last value successfully set at that index or the default, Get out of bounds returns the out-of-bounds value flagged false, an out-of-bounds Set changes nothing and reports false, and distinct in-bounds indices never alias.", "quantifier": "all grid sizes, all histories of sets, all indices", "why_tests_cant": "all histories and all sizes", "anchors": ["include/arc_utilities/voxel_grid.hpp: GetImmutable, GetMutable, SetValue, GetDataIndex, IndexInBounds"]}
{"id": "C21", "title": "Voxel grid index and location agree", "statement": "The centre location of every in-bounds cell maps back to that cell's index, and a location is reported in bounds exactly when it lies inside the grid volume.", "quantifier": "all grids (origin transform, cell sizes, counts), all indices, all real locations", "why_tests_cant": "continuous inputs", "anchors": ["include/arc_utilities/voxel_grid.hpp: LocationToGridIndex, PointInFrameToGridIndex, GridIndexToLocation"]}
{"id": "C22", "title": "Voxel grid serialization round-trips", "statement": "Serializing any voxel grid and deserializing it reproduces the same grid (contents, sizes, transforms, default and out-of-bounds values) and byte count.", "quantifier": "all grids and value codecs obeying the law", "why_tests_cant": "unbounded contents", "anchors": ["include/arc_utilities/voxel_grid.hpp: SerializeSelf, DeserializeSelf"]}
{"id": "C23", "title": "Dynamic spatial hashed grid behaves as a map on space", "statement": "After any sequence of cell and chunk writes, reading a location returns the most recent value written to the cell (or the chunk) containing it, otherwise the default, and the reported status says whether the value comes from a cell, a chunk or nothing.", "quantifier": "all grid geometries, all histories of SetCellValue/SetChunkValue, all query locations", "why_tests_cant": "histories that alternate chunk and cell writes at arbitrary positions", "anchors": ["include/arc_utilities/dynamic_spatial_hashed_voxel_grid.hpp: GetImmutable, SetCellValue, SetChunkValue, DSHVGChunk"]}
{"id": "C24", "title": "SetChunkValue by coordinates sets the whole chunk", "statement": "SetChunkValue(x, y, z, value) has the same effect as SetChunkValue(Vector3d(x, y, z), value): every location in the chunk reads the value.", "quantifier": "all coordinates, all grids", "why_tests_cant": "needs every other cell of the chunk to be compared", "anchors": ["include/arc_utilities/dynamic_spatial_hashed_voxel_grid.hpp: SetChunkValue(double,double,double,...)"]}
{"id": "C25", "title": "K nearest neighbours, serial and parallel", "statement": "The returned neighbours are min(K, n) distinct items of the data set whose distances are reported exactly and such that no item left out is strictly closer than one returned; the parallel version gives the same multiset of distances whatever the thread count and assignment of items to threads.", "quantifier": "all data sets, distance functions, K, thread counts and schedules", "why_tests_cant": "schedules and ties cannot be enumerated by testing", "anchors": ["include/arc_utilities/arc_helpers.hpp: GetKNearestNeighborsSerial, GetKNearestNeighborsParallel"]}
{"id": "C26", "title": "Distance matrix of one data set", "statement": "BuildDistanceMatrix(data, d) is the square matrix whose (i, j) entry is d(item i, item j) for i < j, mirrored below the diagonal and zero on it; the parallel version writes the same matrix under every schedule and no two threads write the same entry.", "quantifier": "all data sets, distance functions, schedules", "why_tests_cant": "schedules", "anchors": ["include/arc_utilities/arc_helpers.hpp: BuildDistanceMatrixParallel/Serial (one data set)"]}
{"id": "C27", "title": "Distance matrix between two data sets", "statement": "BuildDistanceMatrix(data1, data2, d) is the |data1| x |data2| matrix whose (i, j) entry is d(data1[i], data2[j]).", "quantifier": "all pairs of data sets", "why_tests_cant": "sizes must vary independently", "anchors": ["include/arc_utilities/arc_helpers.hpp: BuildDistanceMatrixParallel/Serial (two data sets)"]}
{"id": "C28", "title": "Bit get after set", "statement": "For every unsigned type up to 64 bits, GetBit(SetBit(v, i, b), j) is b when i = j and GetBit(v, j) otherwise, and SetBit alters no other bit.", "quantifier": "all words, all bit positions", "why_tests_cant": "2^64 values times 64 positions", "anchors": ["include/arc_utilities/arc_helpers.hpp: SetBit, GetBit"]}
{"id": "C29", "title": "Clamping", "statement": "ClampValue returns a value within the bounds, equal to its argument when that is already within them, and otherwise the nearer bound; clamping is idempotent and monotone.", "quantifier": "all values and bounds", "why_tests_cant": "order-theoretic laws over all inputs", "anchors": ["include/arc_utilities/arc_helpers.hpp: ClampValue, ClampValueAndWarn"]}
{"id": "C30", "title": "Pseudo-random generators are reproducible", "statement": "Two generators of the same kind seeded alike produce the same sequence forever, discard(n) is the same as drawing n numbers, and calling seed(s) on a used generator makes it equal to a fresh generator built with s.", "quantifier": "all seeds, all prior histories, all n", "why_tests_cant": "infinite sequences and histories", "anchors": ["include/arc_utilities/arc_helpers.hpp: SplitMix64PRNG, XorShift128PlusPRNG, XorShift1024StarPRNG"]}
{"id": "C31", "title": "Unique colours are unique", "statement": "GenerateUniqueColor returns different colours for different colour codes; the codes 1 to 20 have the colours of a fixed palette, 0xff00b3 to 0x23162c.", "quantifier": "all pairs of codes", "why_tests_cant": "for-all pairs of 32-bit codes", "anchors": ["include/arc_utilities/arc_helpers.hpp: GenerateUniqueColor, UniqueColorGenerator"]}
{"id": "C32", "title": "Hierarchical clustering yields a partition", "statement": "Whatever Cluster returns are clusters that contain every input item exactly once and none that are empty.", "quantifier": "all data sets, distance matrices, thresholds, linkages, schedules", "why_tests_cant": "needs all inputs and all thread schedules", "anchors": ["include/arc_utilities/simple_hierarchical_clustering.hpp: Cluster, GetClosestPair"]}
{"id": "C33", "title": "Complete-link clusters respect the threshold, and merging is maximal", "statement": "For every threshold below infinity (at infinity Cluster does not return, see C34): with complete linkage any two items in one output cluster are within max_cluster_distance, and any two output clusters contain a pair of items further apart than the threshold; with single linkage and a symmetric distance the clusters are exactly the connected components of the relation 'distance at most the threshold'.", "quantifier": "all symmetric distance matrices and thresholds", "why_tests_cant": "for-all pairs and all merge orders", "anchors": ["include/arc_utilities/simple_hierarchical_clustering.hpp: Cluster"]}
{"id": "C34", "title": "Clustering terminates for every threshold", "statement": "Cluster returns for every data set and every threshold including infinity.", "quantifier": "all data sets and thresholds", "why_tests_cant": "non-termination is not observable by a finite test", "anchors": ["include/arc_utilities/simple_hierarchical_clustering.hpp: Cluster, GetClosestPair"]}
{"id": "C35", "title": "K-means output labels are nearest centres", "statement": "When k-means returns (also for one cluster), every item carries the label of a centre at minimal distance among the final centres, labels are below the number of clusters, and each final centre is the average of the items bearing its label.", "quantifier": "all data sets, distance and averaging functions, initial centres, random draws", "why_tests_cant": "fixed point statement over all user functions", "anchors": ["include/arc_utilities/simple_kmeans_clustering.hpp: Cluster, GetClosestCluster, ComputeClusterCenters"]}
{"id": "C36", "title": "K-means always terminates on valid input", "statement": "Cluster returns for every non-empty data set and every positive number of clusters.", "quantifier": "all data sets, cluster counts, random draws", "why_tests_cant": "non-termination", "anchors": ["include/arc_utilities/simple_kmeans_clustering.hpp: Cluster"]}
{"id": "C37", "title": "PRM node insertion keeps the roadmap consistent", "statement": "AddNodeToRoadmap adds exactly one node, never changes existing nodes' values or existing edges, only adds edges between the new node and existing nodes for which the edge validity check succeeded, and keeps the graph linkage valid.", "quantifier": "all roadmaps, states, distance and validity functions, K, schedules", "why_tests_cant": "user functions and roadmaps unbounded", "anchors": ["include/arc_utilities/simple_prm_planner.hpp: AddNodeToRoadmap, ExtendRoadMap"]}
{"id": "C38", "title": "PRM edge update", "statement": "UpdateRoadMapEdges sets the weight of every edge to the current distance when the edge is valid and infinity otherwise, updating both copies of each edge so that the linkage stays valid, for every thread schedule.", "quantifier": "all linked graphs, validity and distance functions, schedules", "why_tests_cant": "schedules and graph shapes", "anchors": ["include/arc_utilities/simple_prm_planner.hpp: UpdateRoadMapEdges"]}
{"id": "C39", "title": "PRM queries connect start and goal through the roadmap", "statement": "A path returned by a roadmap query starts at the start state, ends at the goal state and every consecutive pair is an edge of the roadmap or a validated connection; the cost returned with a random walk is the sum of the distances of consecutive states.", "quantifier": "all roadmaps and queries", "why_tests_cant": "all graphs", "anchors": ["include/arc_utilities/simple_prm_planner.hpp: QueryPath*"]}
{"id": "C40", "title": "RRT tree linkage check is sound", "statement": "If CheckTreeLinkage accepts a tree then every parent index and child index is valid, parent and child records agree, and following parent indices from any node reaches the root, so path extraction terminates.", "quantifier": "all planner trees", "why_tests_cant": "all trees, including malformed ones", "anchors": ["include/arc_utilities/simple_rrt_planner.hpp: CheckTreeLinkage, ExtractSolutionPath"]}
{"id": "C41", "title": "RRT path extraction", "statement": "On a well-formed tree ExtractSolutionPath(i) returns the values from the root to node i along parent links, each consecutive pair being parent and child.", "quantifier": "all well-formed trees, all goal indices", "why_tests_cant": "all tree shapes", "anchors": ["include/arc_utilities/simple_rrt_planner.hpp: ExtractSolutionPath, ExtractSolutionPaths"]}
{"id": "C42", "title": "DTW cost is the optimal warping cost", "statement": "EvaluateWarpingCost returns the minimum over all monotone alignments of the two sequences of the summed pair distances.", "quantifier": "all pairs of sequences, all non-negative distance functions", "why_tests_cant": "optimality over all alignments", "anchors": ["include/arc_utilities/simple_dtw.hpp: SimpleDTW::EvaluateWarpingCost, ComputeDTWDistance"]}
{"id": "C43", "title": "DTW evaluator reuse", "statement": "The result of EvaluateWarpingCost does not depend on what the evaluator was used for before: for all histories it equals the result of a fresh evaluator.", "quantifier": "all histories of calls with sequences of any sizes, including empty ones", "why_tests_cant": "histories", "anchors": ["include/arc_utilities/simple_dtw.hpp: SimpleDTW::InitializeMatrix, EvaluateWarpingCost"]}
{"id": "C44", "title": "Hausdorff distance", "statement": "ComputeDistance(A, B) is the maximum over a in A of the minimum over b in B of the distance, independent of the number of threads and the schedule.", "quantifier": "all point sets, non-negative distance functions, schedules", "why_tests_cant": "schedules, all inputs", "anchors": ["include/arc_utilities/simple_hausdorff_distance.hpp: ComputeDistance"]}
{"id": "C45", "title": "Shortcut smoothing preserves path validity", "statement": "ShortcutSmoothPath returns a subsequence of the input with the same first and last configuration, never longer than the input, in which each consecutive pair is either consecutive in the input or was accepted by the edge check; it terminates within max_iterations checks, for every random sequence.", "quantifier": "all paths, parameters, edge checks and random sequences", "why_tests_cant": "random draws", "anchors": ["include/arc_utilities/path_utils.hpp: ShortcutSmoothPath"]}
{"id": "C46", "title": "Resampling keeps waypoints and bounds the spacing", "statement": "ResamplePath returns a path with the same first state, that ends at the last state, contains the original waypoints in order, and has consecutive states at most the requested distance apart (for geodesic interpolation).", "quantifier": "all paths, resolutions, interpolations", "why_tests_cant": "real-valued inputs", "anchors": ["include/arc_utilities/path_utils.hpp: ResamplePathPartial, ResamplePath"]}
{"id": "C47", "title": "Upsampling returns the requested number of points, split evenly", "statement": "UpsamplePathPartial returns the portion [start, end) of the path upsampled to exactly num_points points starting at path[start] and ending at path[end-1], splitting segments so that the longest sub-segment is as short as possible.", "quantifier": "all paths, index ranges, point counts", "why_tests_cant": "optimality over all ways of splitting; all ranges", "anchors": ["include/arc_utilities/path_utils.hpp: UpsamplePathPartial, UpsamplePath"]}
{"id": "C48", "title": "Revolute angle wrapping", "statement": "EnforceContinuousRevoluteBounds returns an angle in (-pi, pi] that differs from its argument by a whole number of turns, and leaves angles already in that interval unchanged.", "quantifier": "all real angles (rounding not modelled)", "why_tests_cant": "real-valued", "anchors": ["include/arc_utilities/math_helpers.hpp: EnforceContinuousRevoluteBounds"]}
{"id": "C49", "title": "Revolute signed distance points from start to end", "statement": "ContinuousRevoluteSignedDistance(a, b) has magnitude at most pi, equal to the shortest angular distance, and a plus it equals b up to whole turns.", "quantifier": "all angles", "why_tests_cant": "real-valued; wrap-around", "anchors": ["include/arc_utilities/math_helpers.hpp: ContinuousRevoluteSignedDistance, ContinuousRevoluteDistance"]}
{"id": "C50", "title": "Revolute interpolation follows the short arc", "statement": "InterpolateContinuousRevolute(a, b, r) is at r of the way along the shortest arc from a to b, within [-pi, pi], hits both ends, and rejects ratios outside [0, 1] by clamping.", "quantifier": "all real angles and ratios (rounding not modelled)", "why_tests_cant": "real-valued", "anchors": ["include/arc_utilities/math_helpers.hpp: InterpolateContinuousRevolute, SafetyCheckUnitInterval"]}
{"id": "C51", "title": "Revolute range membership", "statement": "CheckInContinuousRevoluteBounds(start, end, val) accepts exactly the angles on the arc travelled from start to end.", "quantifier": "all triples of angles", "why_tests_cant": "real-valued", "anchors": ["include/arc_utilities/math_helpers.hpp: GetContinuousRevoluteRange, CheckInContinuousRevoluteRange, CheckInContinuousRevoluteBounds"]}
{"id": "C52", "title": "Weighted average", "statement": "AverageStdVectorDouble returns the sum of |w_i| x_i over the sum of |w_i|, which lies between the least and greatest value with non-zero weight, whenever some weight is non-zero; equal weights give the mean.", "quantifier": "all real value and weight vectors (rounding not modelled)", "why_tests_cant": "real-valued, all lengths", "anchors": ["include/arc_utilities/math_helpers.hpp: AverageStdVectorDouble"]}
{"id": "C53", "title": "Profiler histories", "statement": "getData(name) returns exactly the values recorded under name since its last reset, in order, unaffected by operations on other names; record returns the time since the last start of that timer and throws when it was never started.", "quantifier": "all histories of profiler calls and clock readings", "why_tests_cant": "histories", "anchors": ["src/arc_utilities/timing.cpp: Profiler::addData, record, recordDouble, getData, reset, reset_and_preallocate, startTimer"]}
{"id": "C54", "title": "Stopwatch reset returns the elapsed time", "statement": "Calling a stopwatch with RESET returns the time since the previous reset and restarts it; calling it with READ returns the time since the last reset without restarting it.", "quantifier": "all clock sequences and call histories", "why_tests_cant": "histories of clock values", "anchors": ["include/arc_utilities/timing.hpp: Stopwatch::operator()"]}
{"id": "C55", "title": "Compressed file round-trip", "statement": "LoadFromFileAndDecompress(path) after CompressAndWriteToFile(bytes, path) returns bytes, whatever earlier writes were made to the same path; success is reported only if every file could be opened and its stream was not bad after closing.", "quantifier": "all byte vectors, all earlier contents of the file system, all slice limits", "why_tests_cant": "data beyond 4 GiB and earlier histories of files", "anchors": ["src/arc_utilities/zlib_helpers.cpp: CompressAndWriteToFile, LoadFromFileAndDecompress, CompressBytes, DecompressBytes"]}
{"id": "C56", "title": "Eigen matrix serialization", "statement": "SerializeEigen/DeserializeEigen round-trip every fixed or dynamic size vector, matrix and isometry, at any offset, with exact byte counts equal to SerializedSizeEigen.", "quantifier": "all sizes and contents", "why_tests_cant": "all sizes", "anchors": ["include/arc_utilities/serialization_eigen.hpp: SerializedSizeEigen, SerializeEigen, DeserializeEigen"]}
{"id": "C57", "title": "First order deformation search", "statement": "GetFirstOrderDeformation returns a chain of 8-connected in-range cells from (0,0) to (rows-1, cols-1), all valid, whenever such a chain exists and an empty result otherwise, for every tie-breaking of its queue.", "quantifier": "all grid sizes, validity functions, tie-breaks", "why_tests_cant": "all validity functions", "anchors": ["src/arc_utilities/first_order_deformation.cpp: GetFirstOrderDeformation, GetNeighbours"]}
{"id": "C58", "title": "Trajectory append", "statement": "append(t1, t2) keeps t1's points, adds t2's points shifted by the last time of t1, throws when joint names differ and leaves t1 unchanged then; if both were time-ordered with non-negative times the result is time-ordered.", "quantifier": "all trajectories", "why_tests_cant": "all joint name lists", "anchors": ["src/arc_utilities/trajectory_utils.cpp: append"]}
{"id": "C59", "title": "Self-collision map", "statement": "CheckIfSelfCollisionAllowed(i, j) is true exactly when i = j or the pair was listed in either order, is symmetric, and throws for out-of-range indices.", "quantifier": "all link counts and allowed lists", "why_tests_cant": "all lists", "anchors": ["include/arc_utilities/simple_robot_models.hpp: GenerateAllowedSelfColllisionMap, CheckIfSelfCollisionAllowed"]}
{"id": "C60", "title": "Eigen to std vector conversion", "statement": "ConvertTo<std::vector<double>>(v) returns the coefficients of v in order.", "quantifier": "all vectors", "why_tests_cant": "memory safety for all sizes", "anchors": ["include/arc_utilities/eigen_std_conversions.hpp: ConvertTo"]}
{"id": "C61", "title": "Generic A* search over callbacks", "statement": "GenericAstarSearch on a finite search space returns a repetition-free path of valid generated edges from start to goal whose true cost does not exceed the reported cost, or the empty path and infinity exactly when the goal cannot be reached; the reported cost is optimal for an admissible heuristic; the duplicate-limiting flag does not change the result.", "quantifier": "all child generators, validity checks, distances and heuristics over finite spaces of ids, all queue tie orders", "why_tests_cant": "all graphs, heuristics and tie orders", "anchors": ["include/arc_utilities/arc_helpers.hpp: GenericAstarSearch, ExtractAstarResult"]}
{"id": "C64", "title": "Colour channel hex round trip", "statement": "ColorChannelToHex(ColorChannelFromHex(h)) = h for every byte h (float division and rounding lose nothing), so GetRHex after SetRHex returns the value set; ColorChannelToHex of any float gives the nearest byte up to the rounding of one float product, saturating at 0 and 255.", "quantifier": "all 256 channel values and all floats, including infinities and NaN", "why_tests_cant": "exhaustive over the channel; a reader relies on it for every value", "anchors": ["include/arc_utilities/arc_helpers.hpp: ColorChannelFromHex, ColorChannelToHex"]}
{"id": "C65", "title": "SpreadValue leaves no value between the thresholds", "statement": "SpreadValue(v, low, mid, high) with low <= mid <= high never returns a value strictly between low and high; values below low or not below high are returned unchanged; values strictly between become low if below mid and high otherwise.", "quantifier": "all values of any totally ordered type, in particular all non-NaN doubles", "why_tests_cant": "all values and thresholds", "anchors": ["include/arc_utilities/arc_helpers.hpp: SpreadValue"]}
{"id": "C62", "title": "SplitMix64 draws every word once per period", "statement": "In any 2^64 consecutive draws from SplitMix64PRNG no value repeats and every 64-bit value occurs, and the generator is then back in its starting state.", "quantifier": "all seeds", "why_tests_cant": "a period of 2^64 cannot be enumerated", "anchors": ["include/arc_utilities/arc_helpers.hpp: SplitMix64PRNG"]}
{"id": "C63", "title": "Xorshift generators never reach the all-zero state", "statement": "XorShift128PlusPRNG and XorShift1024StarPRNG, whatever the seed and whatever history of draws, discards and reseeds follows, are never in the all-zero state (which would draw zeros for ever), and two different states never step to the same state.", "quantifier": "all seeds, all histories", "why_tests_cant": "all seeds and infinite sequences", "anchors": ["include/arc_utilities/arc_helpers.hpp: XorShift128PlusPRNG, XorShift1024StarPRNG"]}
{"id": "C66", "title": "Weighted k-means uses each item's own weight", "statement": "ClusterWeighted only ever averages an item with the weight given for that item, with and without preliminary clustering.", "quantifier": "all items, weights, averaging functions, random draws", "why_tests_cant": "alignment of two vectors over all subsets drawn", "anchors": ["include/arc_utilities/simple_kmeans_clustering.hpp: ClusterWeighted"]}
{"id": "C67", "title": "PRM stores a directed edge only if it was checked in that direction", "statement": "When the roadmap stores an edge from state a to state b, the edge validity check accepted the motion from a to b and the weight is the distance from a to b.", "quantifier": "all roadmaps, states, validity and distance functions", "why_tests_cant": "directed validity functions are not what tests use; all insertion orders", "anchors": ["include/arc_utilities/simple_prm_planner.hpp: AddNodeToRoadmap"]}
{"id": "C68", "title": "RRT planner returns goal-reaching paths of extensions", "statement": "Plan and PlanMultiPath return exactly one path for every tree node that reaches the goal; each path runs from the start state, each step being a state forward propagation produced from the previous one, to a state that reaches the goal; the tree stays correctly linked, the sample statistics add up and successful samples are those that added states, and exceptions are thrown only when a user function breaks its contract.", "quantifier": "all start states and trees, all sampling, nearest neighbour, propagation and goal functions, any number of iterations", "why_tests_cant": "unbounded iterations over arbitrary user functions", "anchors": ["include/arc_utilities/simple_rrt_planner.hpp: SimpleHybridRRTPlanner::Plan, PlanMultiPath"]}
{"id": "C69", "title": "Bidirectional RRT joins start and goal through an accepted bridge", "statement": "SimpleHybridBiRRTPlanner returns paths from the start state to the goal state: forward through the start tree, across a bridge for which states_connected_fn(start side, goal side) was true, and back through the goal tree; its statistics count samples, successes and swaps truthfully.", "quantifier": "all start and goal states, user functions, random draws and switches", "why_tests_cant": "all interleavings of the two trees", "anchors": ["include/arc_utilities/simple_rrt_planner.hpp: SimpleHybridBiRRTPlanner::Plan, PlanMultiPath"]}
{"id": "C70", "title": "RRT planner state round-trip", "statement": "SerializeSelf followed by DeserializeSelf gives back the same planner state and byte count at any buffer offset, for every value codec that round-trips.", "quantifier": "all states, codecs, buffers and offsets", "why_tests_cant": "unbounded child lists and user codecs", "anchors": ["include/arc_utilities/simple_rrt_planner.hpp: SimpleRRTPlannerState::SerializeSelf, DeserializeSelf"]}
{"id": "C71", "title": "Profiler summaries", "statement": "printSingleSummary prints the number of values recorded under a name, their sum, least, greatest and mean, or that it was never called.", "quantifier": "all histories of profiler calls", "why_tests_cant": "histories of calls", "anchors": ["src/arc_utilities/timing.cpp: Profiler::printSingleSummary"]}
{"id": "C72", "title": "Profiler dump", "statement": "writeAll writes every recorded value and timed value exactly once, in recording order per name, leaving out those with at least the limit of entries.", "quantifier": "all histories, all limits", "why_tests_cant": "histories of calls", "anchors": ["src/arc_utilities/timing.cpp: Profiler::writeAll"]}
{"id": "C73", "title": "Compression round-trip in memory", "statement": "DecompressBytes(CompressBytes(bytes)) returns bytes for every byte vector the compressed form of which zlib can address.", "quantifier": "all byte vectors, all ways deflate and inflate may split their work", "why_tests_cant": "data larger than the buffers; every chunking", "anchors": ["src/arc_utilities/zlib_helpers.cpp: CompressBytes, DecompressBytes"]}
{"id": "C74", "title": "Decoding accepts the base64 variants", "statement": "Decode of a text that differs from Encode(bytes) only in using the URL-safe or other alternative characters for the digits 62 and 63 (- . for +, _ , for /) and in missing padding characters returns the same bytes.", "quantifier": "all byte vectors, all choices of alternative characters at each position, any number of the padding characters dropped", "why_tests_cant": "The variants multiply with every position; tests try a few texts.", "anchors": ["src/arc_utilities/base64_helpers.cpp:27-48"]}
{"id": "C75", "title": "Path through waypoints: the ends", "statement": "A Path built from two or more waypoints has positive length; GetConfig at or before 0 is the first waypoint and GetConfig at or past GetLength() is the last one.", "quantifier": "all dimensions, waypoint lists and deviations", "why_tests_cant": "Blends change the segments at every waypoint; tests try a few lists.", "anchors": ["src/arc_utilities/time_optimal_trajectory_parametrization.cpp:111-200"]}
{"id": "C76", "title": "Path through waypoints: deviation", "statement": "Every configuration on the path is within max_deviation of the polyline through the waypoints, and for every waypoint some configuration of the path is within max_deviation of it (0 when max_deviation is negative).", "quantifier": "all dimensions, deviations and positions along the path, all waypoint lists with successive waypoints more than 2e-6 apart and, for a positive max_deviation, without exact reversals (over the reals)", "why_tests_cant": "The claim is about every position on every blend.", "anchors": ["src/arc_utilities/time_optimal_trajectory_parametrization.cpp:38-155"]}
{"id": "C77", "title": "Path derivatives and continuity", "statement": "GetTangent is the derivative of GetConfig and GetCurvature that of GetTangent at every position that is not a listed discontinuity; the tangent has length 1; the position never jumps by more than 1e-6, and with a positive max_deviation neither does the tangent.", "quantifier": "all positions on all paths through waypoint lists with successive waypoints more than 2e-6 apart and, for a positive max_deviation, without exact reversals (over the reals)", "why_tests_cant": "A derivative at every point and the absence of jumps are limits; samples cannot show them.", "anchors": ["src/arc_utilities/time_optimal_trajectory_parametrization.cpp:12-25", "src/arc_utilities/time_optimal_trajectory_parametrization.cpp:70-83", "src/arc_utilities/time_optimal_trajectory_parametrization.cpp:111-200"]}
{"id": "C78", "title": "Switching points of a path", "statement": "The switching points are in order and inside the path; at every position inside the path where some joint's tangent entry is zero and its curvature entry is not, there is one; a switching point that is not a discontinuity has a joint whose tangent entry is zero there.", "quantifier": "all positions and joints on all paths through waypoint lists with successive waypoints more than 2e-6 apart and, for a positive max_deviation, without exact reversals (over the reals)", "why_tests_cant": "Every arc in every orientation; missing one breaks the planner's limit search.", "anchors": ["src/arc_utilities/time_optimal_trajectory_parametrization.cpp:85-100", "src/arc_utilities/time_optimal_trajectory_parametrization.cpp:141-155"]}
{"id": "C79", "title": "Next switching point", "statement": "GetNextSwitchingPoint(s) is the first listed switching point after s, or the end of the path (a discontinuity) when there is none.", "quantifier": "all positions on all paths through waypoint lists with successive waypoints more than 2e-6 apart and, for a positive max_deviation, without exact reversals (over the reals)", "why_tests_cant": "every position against every list", "anchors": ["src/arc_utilities/time_optimal_trajectory_parametrization.cpp:202-214"]}
{"id": "C80", "title": "Joint limits as limits on the path", "statement": "A path acceleration is between the planner's minimum and maximum exactly when every moving joint stays within its acceleration limit; a path speed is at most the velocity limit exactly when every joint stays within its velocity limit; it is at most the acceleration limit exactly when some path acceleration keeps every joint within its acceleration limit.", "quantifier": "all dimensions, tangents, curvatures, limits, speeds and accelerations", "why_tests_cant": "The limits come from minima over all joints and all pairs of joints; tests sample a few.", "anchors": ["src/arc_utilities/time_optimal_trajectory_parametrization.cpp:545-595"]}
{"id": "C81", "title": "Trajectory: start, end and steps", "statement": "The planned trajectory begins at rest at the first waypoint at time 0 and is at rest at the last waypoint at Duration(); the times of the steps increase, and at the time of each step the robot has that step's position and speed.", "quantifier": "all paths, limits and time steps", "why_tests_cant": "The planner is an iterative search; tests follow a few paths.", "anchors": ["src/arc_utilities/time_optimal_trajectory_parametrization.cpp:218-284", "src/arc_utilities/time_optimal_trajectory_parametrization.cpp:422-543"]}
{"id": "C82", "title": "Trajectory: after the end", "statement": "At times after Duration() the trajectory stays at the last waypoint.", "quantifier": "all times after the duration", "why_tests_cant": "Every later time.", "anchors": ["src/arc_utilities/time_optimal_trajectory_parametrization.cpp:619-655"]}
{"id": "C83", "title": "Trajectory queries do not depend on earlier queries", "statement": "GetPositionVelocity at a non-negative time gives the same answer whatever non-negative times were asked before, although a cached segment is kept between calls.", "quantifier": "all histories of queries at non-negative times, all plans with finite times that do not decrease", "why_tests_cant": "The cached iterator moves only forward between resets; tests try few orders of queries.", "anchors": ["src/arc_utilities/time_optimal_trajectory_parametrization.cpp:619-634"]}
{"id": "C84", "title": "Joint velocities do not jump", "statement": "The joint velocity of a planned trajectory is continuous in time, as it must be for the accelerations to stay within the limits.", "quantifier": "all paths and times", "why_tests_cant": "A limit statement at every time.", "anchors": ["src/arc_utilities/time_optimal_trajectory_parametrization.cpp:422-543"]}
{"id": "C85", "title": "The returned velocity is the derivative of the returned position", "statement": "Between the steps, and off the discontinuities of the path, the velocity returned for a time is the derivative of the returned position.", "quantifier": "all trajectories whose step times do not decrease, all times", "why_tests_cant": "A derivative is a limit.", "anchors": ["src/arc_utilities/time_optimal_trajectory_parametrization.cpp:636-655"]}
{"id": "C86", "title": "Forward integration respects the limits", "statement": "Every step that IntegrateForward adds on the path keeps the joints within their velocity limits and leaves an acceleration that keeps them within their acceleration limits; the steps never go back; it stops only past the end of the path or within 1e-6 of a point where a limit is exceeded.", "quantifier": "all paths, limits, time steps and starting steps", "why_tests_cant": "Every step of every integration, including the bisection at the limits.", "anchors": ["src/arc_utilities/time_optimal_trajectory_parametrization.cpp:422-496"]}
{"id": "C87", "title": "Next switching point of the trajectory", "statement": "A switching point returned by GetNextSwitchingPoint lies before the end, keeps the joints within their velocity limits, and is either a listed point after the current position around which the acceleration limits can be met, or a point where the velocity limits are reached.", "quantifier": "all paths, limits and positions", "why_tests_cant": "The search scans and bisects; tests see a few outcomes.", "anchors": ["src/arc_utilities/time_optimal_trajectory_parametrization.cpp:305-419"]}
{"id": "C88", "title": "Truncated normal samples stay within the bounds", "statement": "Whatever the generator draws, a TruncatedNormalDistribution with a positive standard deviation returns values between its bounds, each made from the first draw its acceptance test accepts, and the test accepts in proportion to the normal density.", "quantifier": "all means, deviations, bounds (possibly infinite) and streams of draws", "why_tests_cant": "Random draws: a test sees some samples of some parameters, never the rare ones.", "anchors": ["include/arc_utilities/arc_helpers.hpp:1007-1151"]}
{"id": "C89", "title": "Gaussian distribution and density functions agree", "statement": "EvaluateGaussianCDF is a distribution function with EvaluateGaussianPDF as its density; the truncated pair likewise on the bounds; the integrals are the integrals of the densities and over the bounds the probability is 1.", "quantifier": "all means, positive deviations, lower bounds below upper bounds, and limits", "why_tests_cant": "Equality of an integral and a difference for all reals.", "anchors": ["include/arc_utilities/arc_helpers.hpp:935-1005"]}
{"id": "C90", "title": "Grid neighbours", "statement": "The neighbours of a grid cell are exactly the valid cells inside the bounds that touch it, each once, and being a neighbour is symmetric.", "quantifier": "all grids, cells, bounds, rounding and validity functions", "why_tests_cant": "All cells of all grids, including those at and outside the bounds.", "anchors": ["include/arc_utilities/get_neighbours.hpp:10-87"]}
{"id": "C91", "title": "Map helpers", "statement": "GetKeys, GetKeysAndValues and MakeFromKeysAndValues are inverse to each other; the last of several values for a key is kept; CheckAllStringsForSubstring holds exactly when each string has the substring. RetrieveOrDefault gives the value of the entry with an equivalent (or equal) key, and the default exactly if there is none.", "quantifier": "all maps, comparison functions, vectors and strings", "why_tests_cant": "All maps over any strict weak order.", "anchors": ["include/arc_utilities/arc_helpers.hpp:1283-1348", "include/arc_utilities/arc_helpers.hpp:179-199"]}
{"id": "C92", "title": "Random rotations", "statement": "Random quaternions have unit length and reach every rotation except those about the third axis, which they never are; random Euler angles lie in their ranges with the sine of the pitch spread evenly.", "quantifier": "all draws", "why_tests_cant": "All draws; coverage is an existence statement.", "anchors": ["include/arc_utilities/arc_helpers.hpp:1207-1262"]}
{"id": "C93", "title": "Colour interpolation", "statement": "The hot-to-cold colours run from blue through cyan, green and yellow to red without jumps and stay within [0, 1]; interpolated colours lie between their ends.", "quantifier": "all values, ranges, colours and ratios", "why_tests_cant": "Continuity and monotonicity for all values.", "anchors": ["include/arc_utilities/arc_helpers.hpp:352-378", "include/arc_utilities/arc_helpers.hpp:441-469"]}
{"id": "C94", "title": "Small containers and hashes", "statement": "Maybe returns the last value given and throws before; enumerate pairs items with positions; find returns the first index or -1; combining hashes keeps different hashes apart.", "quantifier": "all histories, lists and hash values", "why_tests_cant": "All histories and lists, including those longer than an int can count.", "anchors": ["include/arc_utilities/maybe.hpp:23-73", "include/arc_utilities/enumerate.h:6-21", "include/arc_utilities/stl_wrappers.hpp:14-20", "include/arc_utilities/hash.hpp:5-49"]}
{"id": "C95", "title": "Time strings sort by time", "statement": "Different times give different strings and the strings sort as the times do.", "quantifier": "all calendar times with four digit years", "why_tests_cant": "All pairs of times; a test would need the right two milliseconds.", "anchors": ["include/arc_utilities/arc_helpers.hpp:1350-1374"]}
{"id": "C96", "title": "Twists and their matrices", "statement": "Skew and Unskew, TwistHat and TwistUnhat are inverse to each other; a skew matrix acts as the cross product; AdjointFromTransform carries a twist from one frame to another so that the velocity of every point is the same in both.", "quantifier": "all vectors, twists, rigid transforms and points", "why_tests_cant": "Identities between matrices for all transforms.", "anchors": ["include/arc_utilities/eigen_helpers.hpp:125-190"]}
{"id": "C97", "title": "The exponential of a twist", "statement": "ExpTwist is the motion with constant body velocity: it starts at the identity, adds up over time, its derivative is the motion times the twist, and it is always rigid; TwistBetweenTransforms recovers the motion between two transforms. The four by four matrices of transforms and twists move points and give their velocities.", "quantifier": "all twists, times and rigid transforms", "why_tests_cant": "A differential equation for all twists.", "anchors": ["include/arc_utilities/eigen_helpers.hpp:192-264"]}
{"id": "C98", "title": "Rotating vectors by quaternions", "statement": "RotateVector keeps lengths, angles and orientation, is undone by RotateVectorReverse, and does not depend on the length or sign of the quaternion.", "quantifier": "all non-zero quaternions and vectors", "why_tests_cant": "All quaternions, not only unit ones.", "anchors": ["include/arc_utilities/eigen_helpers.hpp:125-146"]}
{"id": "C99", "title": "Distances between rotations", "statement": "Distance between rotation matrices is the least angle that takes one to the other, symmetric, zero only for equal rotations, at most pi, with the triangle inequality and independent of the frame; quaternions and isometries agree with it.", "quantifier": "all rotations, unit quaternions, isometries and weights", "why_tests_cant": "The least angle and the triangle inequality quantify over all rotations.", "anchors": ["include/arc_utilities/eigen_helpers.hpp:333-363"]}
{"id": "C100", "title": "Interpolation of poses", "statement": "Interpolate starts at the first and ends at the second pose, clamps the ratio, moves the translation on a straight line and the rotation at constant speed along the shortest way; results are poses.", "quantifier": "all pairs of poses and all ratios", "why_tests_cant": "Constant speed for all ratios and all rotations.", "anchors": ["include/arc_utilities/eigen_helpers.hpp:270-303", "include/arc_utilities/math_helpers.hpp:70-81"]}
{"id": "C101", "title": "Roll, pitch and yaw", "statement": "QuaternionFromRPY and QuaternionFromUrdfRPY compose the three axis rotations in their order; the Euler angles of a rotation matrix or unit quaternion give that rotation back; TransformFromRPY undoes TransformToRPY.", "quantifier": "all angles and rotations, gimbal lock included", "why_tests_cant": "All rotations, including the singular ones.", "anchors": ["include/arc_utilities/eigen_helpers.hpp:522-580"]}
{"id": "C102", "title": "Projections of vectors", "statement": "VectorProjection and VectorRejection split a vector into a multiple of the base and a part perpendicular to it, the nearest multiple; VectorProjectionToPlane gives the nearest point of the plane spanned by two vectors and refuses vectors that span no plane.", "quantifier": "all vectors of all sizes", "why_tests_cant": "Nearest among infinitely many points, for all vectors.", "anchors": ["include/arc_utilities/eigen_helpers.hpp:817-865"]}
{"id": "C103", "title": "Hyperplanes", "statement": "GetDistanceToPlane is the distance to the nearest point of the plane, ProjectPointOntoPlane is that point; vectors split into the parts along and across the plane.", "quantifier": "all planes, points and vectors of all sizes", "why_tests_cant": "The nearest point quantifies over the plane.", "anchors": ["include/arc_utilities/eigen_helpers.hpp:992-1051"]}
{"id": "C104", "title": "Distance to a line", "statement": "DistanceToLine returns the distance to the nearest point of the line and the displacement of that point along it; the assertion in it never fails.", "quantifier": "all lines and points", "why_tests_cant": "The nearest point quantifies over the line; the assertion over all inputs.", "anchors": ["include/arc_utilities/eigen_helpers.hpp:882-901"]}
{"id": "C105", "title": "Clamping norms", "statement": "ClampNorm returns a vector of the same direction, no longer than the limit, unchanged when within it; SafeNormal returns the unit vector except for tiny vectors.", "quantifier": "all vectors, limits and sizes", "why_tests_cant": "All vectors and limits.", "anchors": ["include/arc_utilities/eigen_helpers.hpp:96-104", "include/arc_utilities/eigen_helpers.hpp:137-144"]}
{"id": "C106", "title": "Angles between vectors", "statement": "AngleDefinedByPoints is the angle at the middle point, does not depend on order, position or scale, and the angles of a triangle add up to pi; the weighted angle is the angle of the weighted inner product, with all weights 1 the plain angle.", "quantifier": "all points and vectors of all sizes, all non-negative weights", "why_tests_cant": "The angle sum quantifies over all triangles of any dimension.", "anchors": ["include/arc_utilities/eigen_helpers.hpp:945-986"]}
{"id": "C107", "title": "Averages of vectors", "statement": "AverageEigenVector is the weighted mean: in the convex hull of the vectors of non-zero weight and the only minimizer of the weighted sum of squared distances.", "quantifier": "all lists of vectors and weights, all sizes", "why_tests_cant": "The minimum quantifies over all points.", "anchors": ["include/arc_utilities/eigen_helpers.hpp:699-741"]}
{"id": "C108", "title": "Conversions of vectors", "statement": "Converting to a std::vector and back, or joining vectors and cutting them again, gives back what was there; quaternions are stored as x, y, z, w.", "quantifier": "all vectors and sizes", "why_tests_cant": "All sizes and contents.", "anchors": ["include/arc_utilities/eigen_helpers.hpp:594-687"]}
{"id": "C109", "title": "Path lengths, distance matrices and closest points", "statement": "Individual, cumulative and total distances describe the same path, at least as long as the straight line; every entry of a distance matrix is the distance of its two points whatever the order of the parallel writes; ClosestPointInSet returns the first point at the least distance.", "quantifier": "all lists of points, all orders of the writes", "why_tests_cant": "All interleavings of the parallel loop.", "anchors": ["include/arc_utilities/eigen_helpers.hpp:365-516"]}
{"id": "C110", "title": "Pyramid inside a cone", "statement": "The normals of ConvertConeToPyramid describe a pyramid inside the cone that touches it along four rays.", "quantifier": "all unit directions and angles", "why_tests_cant": "All directions and angles.", "anchors": ["include/arc_utilities/eigen_helpers.hpp:903-938"]}
{"id": "C111", "title": "Least squares solvers", "statement": "WeightedLeastSquaresSolver returns the only minimizer of the weighted squared residual plus the damping term, whichever of its two branches is taken; UnderdeterminedSolver returns the shortest exact solution when undamped and the minimizer of residual plus damping otherwise.", "quantifier": "all matrices, right sides, weights and damping values for which the normal matrix is positive definite", "why_tests_cant": "A minimum over all vectors, for all systems.", "anchors": ["include/arc_utilities/eigen_helpers.hpp:1141-1178"]}
{"id": "C112", "title": "Averages of rotations", "statement": "AverageEigenQuaterniond returns a unit quaternion that maximises the weighted sum of squared products with the given ones, and does not depend on the signs of the given quaternions.", "quantifier": "all lists of unit quaternions and weights, all eigenvalue solvers meeting the contract", "why_tests_cant": "A maximum over all unit quaternions, all signs.", "anchors": ["include/arc_utilities/eigen_helpers.hpp:744-785"]}
{"id": "C113", "title": "Fitting a plane", "statement": "FitPlaneToPoints returns the centroid and a unit normal; no other plane has a smaller sum of squared distances to the points.", "quantifier": "all lists of points of all sizes, all decompositions meeting the contract", "why_tests_cant": "A minimum over all planes.", "anchors": ["include/arc_utilities/eigen_helpers.hpp:1056-1085"]}
{"id": "C114", "title": "Pseudo inverse", "statement": "Pinv times a vector is the shortest of the vectors that minimise the residual.", "quantifier": "all matrices and right sides whose singular values are zero or above the cut-off, all decompositions meeting the contract", "why_tests_cant": "A minimum over all vectors.", "anchors": ["include/arc_utilities/eigen_helpers.hpp:1087-1128"]}
{"id": "C115", "title": "Joint values and limits", "statement": "A SimpleJointModel always holds a value within its limits: the nearest one to what was asked for, or the same angle for a continuous joint; setting the value it has changes nothing; distances are the shortest way.", "quantifier": "all limits, types and values, finite or not", "why_tests_cant": "All doubles including infinities and NaN.", "anchors": ["include/arc_utilities/simple_linked_robot_model.hpp:17-213"]}
{"id": "C116", "title": "Only kinematic trees are accepted", "statement": "SanityCheckRobotModel always ends with an answer, and says yes exactly when names are unique, axes have length 1 and the joints make a tree of all links rooted at link 0; the skeleton then names the parent, the joint and the children of each link.", "quantifier": "all lists of links and joints whose indices are in range", "why_tests_cant": "A claim over all graphs; termination.", "anchors": ["include/arc_utilities/simple_linked_robot_model.hpp:413-567"]}
{"id": "C117", "title": "Forward kinematics", "statement": "UpdateTransforms puts the root at the base and each child where its joint puts it relative to its parent; all transforms are rigid; a new base moves all links along.", "quantifier": "all accepted trees with joints listed parent first, all values, all bases", "why_tests_cant": "All trees of all depths, all real values.", "anchors": ["include/arc_utilities/simple_linked_robot_model.hpp:332-367", "include/arc_utilities/simple_linked_robot_model.hpp:618-627"]}
{"id": "C118", "title": "Setting the position", "statement": "The constructor makes a robot whose links, joints and position agree, and SetPosition and UpdateBaseTransform keep it so; each joint takes its value as SetValue does; a position of the wrong size is refused without change; setting the current position changes nothing.", "quantifier": "all robots in order, all positions", "why_tests_cant": "An invariant over all sequences of calls.", "anchors": ["include/arc_utilities/simple_linked_robot_model.hpp:369-411", "include/arc_utilities/simple_linked_robot_model.hpp:569-632"]}
{"id": "C119", "title": "Distance and interpolation of configurations", "statement": "ComputeConfigurationDistance is a metric; InterpolateBetweenConfigurations returns a configuration at the given share of the distance along a shortest way, within limits; AverageConfigurations averages each joint.", "quantifier": "all configurations of the same joint types, all ratios", "why_tests_cant": "Quantifies over all pairs and triples of configurations.", "anchors": ["include/arc_utilities/simple_linked_robot_model.hpp:671-786"]}
{"id": "C120", "title": "Jacobian of a point", "statement": "Each column of ComputeLinkPointJacobian is how the point moves and how the link turns when that joint alone moves; joints that do not carry the link have zero columns.", "quantifier": "all robots in order, all links, points, joints and values", "why_tests_cant": "A derivative, for all trees.", "anchors": ["include/arc_utilities/simple_linked_robot_model.hpp:788-857"]}
{"id": "C121", "title": "The planar robot", "statement": "After SetPosition a SimpleSE2Robot is at the given place and angle (the latter as its representative in (-pi, pi]) and its link has that pose; configuration distance is a weighted metric of the poses; interpolation divides it in the given ratio; averages are between the configurations; the Jacobian columns are how a point moves.", "quantifier": "all configurations, weights, ratios, points", "why_tests_cant": "All real angles; derivatives; triples of configurations.", "anchors": ["include/arc_utilities/simple_se2_robot_model.hpp:42-83", "include/arc_utilities/simple_se2_robot_model.hpp:103-153", "include/arc_utilities/simple_se2_robot_model.hpp:155-179"]}
{"id": "C122", "title": "The free robot", "statement": "A SimpleSE3Robot is where it is put; configuration distance is a weighted metric of poses; interpolation divides it in the given ratio; the average of poses is a rigid pose at the mean position with the rotation that agrees best; the Jacobian maps a body velocity to the velocity of a point.", "quantifier": "all rigid poses, weights, ratios, points, twists", "why_tests_cant": "All poses; derivatives; an optimum over all rotations.", "anchors": ["include/arc_utilities/simple_se3_robot_model.hpp:41-85", "include/arc_utilities/simple_se3_robot_model.hpp:87-126", "include/arc_utilities/simple_se3_robot_model.hpp:128-144", "include/arc_utilities/eigen_helpers.hpp:787-810"]}
{"id": "C123", "title": "ROS messages are read back exactly", "statement": "A header, point, vector, quaternion, pose, transform or stamped pose or transform written by a Serialize function is read back exactly by the matching Deserialize function, anywhere in a buffer, with the same byte count; the layout is fixed; hostile bytes never make a read leave the buffer.", "quantifier": "all field values (including NaN patterns and empty names), buffers, positions, byte orders", "why_tests_cant": "All 64-bit patterns, all names, all surrounding bytes, all hostile buffers.", "anchors": ["include/arc_utilities/serialization_ros.hpp:12-200"]}
{"id": "C124", "title": "The generic ROS wrapper", "statement": "RosMessageSerializationWrapper appends a message that RosMessageDeserializationWrapper reads back, reading and reporting only bytes that exist.", "quantifier": "all messages, buffers", "why_tests_cant": "An out of bounds read need not be visible in a test; all messages.", "anchors": ["include/arc_utilities/serialization_ros.hpp:202-227"]}
{"id": "C125", "title": "Serialized joints", "statement": "A joint of the linked robot is read back exactly with 28 bytes on the wire, hostile bytes never make the read leave the buffer, and what has been read is a joint that could have been constructed.", "quantifier": "all joints, buffers", "why_tests_cant": "All bit patterns and hostile buffers.", "anchors": ["include/arc_utilities/simple_linked_robot_model.hpp:26-37", "include/arc_utilities/simple_linked_robot_model.hpp:60-92"]}
{"id": "C126", "title": "Thin plate splines", "statement": "A ThinPlateSpline in two or three dimensions maps each template point to its target when the template points are distinct; elsewhere it is the one thin plate spline (affine map plus balanced bending kernels) through them when they are not all on one line (plane), so affine maps are reproduced, the result is linear in the targets and does not change when the template and the points are moved, turned or scaled alike; whatever was called before, interpolate uses the points set last; empty sets and sets of different sizes are refused.", "quantifier": "all point sets of any size, all points, all histories of calls", "why_tests_cant": "Solvability for every set of distinct points is a theorem of analysis (conditional positive definiteness); all histories of the lazily solved object.", "anchors": ["include/arc_utilities/thin_plate_spline.hpp:24-43", "include/arc_utilities/thin_plate_spline.hpp:48-74", "include/arc_utilities/thin_plate_spline.hpp:76-106", "include/arc_utilities/thin_plate_spline.hpp:108-149"]}
{"id": "C127", "title": "Vector arithmetic on integers", "statement": "The vector arithmetic (Abs, Multiply, Divide, Add, Sub, Sum) on vectors of signed integers gives, element by element, the same result as the integer operator, or undefined behaviour exactly where the integer operator overflows or divides by zero; two vectors of different sizes give an empty vector.", "quantifier": "all vectors of int (32 bits) and int64_t", "why_tests_cant": "The functions go through double and, for division, through a rounded reciprocal; which of the 2^64 pairs come out wrong cannot be tested.", "anchors": ["include/arc_utilities/vector_math.hpp:54-61", "include/arc_utilities/vector_math.hpp:63-92", "include/arc_utilities/vector_math.hpp:94-116", "include/arc_utilities/vector_math.hpp:133-165"]}
{"id": "C128", "title": "Standard deviation", "statement": "ComputeStdDevStdVectorDouble is the sample standard deviation (n - 1): zero for one value and otherwise exactly when all values are equal, unchanged by order and by adding a constant, scaled by the absolute factor, and no other centre gives a smaller one; no values are stopped by the assert.", "quantifier": "all lists of real numbers, all centres", "why_tests_cant": "All lists, all factors and all centres.", "anchors": ["include/arc_utilities/math_helpers.hpp:281-294", "include/arc_utilities/math_helpers.hpp:296-299"]}
{"id": "C129", "title": "Samples of a multivariate Gaussian", "statement": "A MultivariteGaussianDistribution built from a mean and a positive semi-definite covariance gives samples with that mean and that covariance, whichever of the two decompositions is used; each sample consumes one draw per dimension in order; a covariance that is not positive semi-definite or not symmetric, or sizes that do not fit, are rejected.", "quantifier": "all dimensions, means, covariances and generators", "why_tests_cant": "The mean and covariance of a distribution are statements about all draws, for all covariances.", "anchors": ["include/arc_utilities/arc_helpers.hpp:1161-1170", "include/arc_utilities/arc_helpers.hpp:1172-1187", "include/arc_utilities/arc_helpers.hpp:1190-1204"]}
{"id": "C130", "title": "Fast forward kinematics", "statement": "The fast forward kinematics of the UR10, iiwa 7, iiwa 14 and ABB IRB1600: every link pose is a rigid motion of the base, turning one joint moves exactly the links after it, about that joint's axis, a full turn changes nothing, the distance of consecutive link origins never depends on the configuration, the zero configuration gives the documented poses, names and maps agree with the vector form, and a wrong number of joints is rejected; the poses are those of simple_linked_robot_model on the same chain.", "quantifier": "all configurations and base poses", "why_tests_cant": "All real joint vectors and all rigid base poses.", "anchors": ["include/arc_utilities/ur_10_fk_fast.hpp:15-149", "include/arc_utilities/iiwa_7_fk_fast.hpp:15-160", "include/arc_utilities/iiwa_14_fk_fast.hpp:15-160", "include/arc_utilities/abb_irb1600_145_fk_fast.hpp:15-165"]}
{"id": "C131", "title": "Log files keep every message", "statement": "Every message given to a Log is in its file, one per line and in order, after the header if asked for, whatever copying, moving, assigning and destroying of Log objects happens in between; a Log that cannot be written to says so.", "quantifier": "all programs of constructions, copies, moves, assignments, destructions and messages, over any file system", "why_tests_cant": "The interleavings of writes through several objects on one file are unbounded.", "anchors": ["include/arc_utilities/log.hpp:32-56", "include/arc_utilities/log.hpp:58-92", "include/arc_utilities/log.hpp:94-97"]}
{"id": "C132", "title": "CreateDirectory", "statement": "CreateDirectory(p) returns exactly when every leading part of p is a directory or can be made one, and then p is a directory and nothing else has changed but missing leading parts; otherwise it throws std::runtime_error.", "quantifier": "all file systems and paths", "why_tests_cant": "All file systems and paths.", "anchors": ["include/arc_utilities/filesystem.hpp:10-28"]}
{"id": "C133", "title": "Listener", "statement": "Listener::get returns the last message received; waitForNew returns a message that is new, the last one received, and throws only after shutdown; messages are received in the order of publication, none twice.", "quantifier": "all interleavings of publications, spinner steps, shutdown and any number of calling threads", "why_tests_cant": "Interleavings of threads cannot be enumerated or forced by tests.", "anchors": ["include/arc_utilities/listener.hpp:19-33", "include/arc_utilities/listener.hpp:35-42", "include/arc_utilities/listener.hpp:44-59"]}
{"id": "C134", "title": "Eigen and ROS conversions", "statement": "Converting points, vectors, quaternions, rigid motions and vectors of them from Eigen to ROS messages and back, or the other way, gives back the same value (a pose message with a unit quaternion up to its sign); stamped messages carry the frame.", "quantifier": "all values", "why_tests_cant": "All real numbers, rotations and quaternions; which branch of the matrix to quaternion conversion is taken depends on them.", "anchors": ["include/arc_utilities/eigen_ros_conversions.hpp:24-235", "include/arc_utilities/eigen_helpers_conversions.hpp:22-355", "include/arc_utilities/geometry_msgs_builders.hpp:9-70"]}
{"id": "C135", "title": "Transforming pairs and vectors", "statement": "Transform(pose, pair) and Transform(pose, vector) move every element by the pose: composition, identity and inverse act as expected, distances are kept and lengths and order too.", "quantifier": "all rigid poses, pairs and vectors", "why_tests_cant": "All rigid motions and lists of any length.", "anchors": ["include/arc_utilities/eigen_transforms.hpp:7-25"]}
{"id": "C136", "title": "Pretty printing is unambiguous", "statement": "PrettyPrint with delimiters of whole numbers, booleans, and pairs and containers of them nested in any way gives different text for different values of the same type; the elements appear in order, joined by the separator and within the brackets of the container.", "quantifier": "all types built from pairs and containers, all values, all separators not beginning with a letter, digit, minus sign or bracket", "why_tests_cant": "Nesting and values are unbounded, and a collision is a property of two values.", "anchors": ["include/arc_utilities/pretty_print.hpp:21-30", "include/arc_utilities/pretty_print.hpp:135-144", "include/arc_utilities/pretty_print.hpp:258-653"]}
{"id": "C137", "title": "Aligned4Vector3 computes with 3D vectors", "statement": "A program that works with Aligned4Vector3 objects gets the coordinates, sums, dot products, cross products and lengths that the same program gets from plain 3D vectors, and no assertion of the class fails.", "quantifier": "all programs of constructions, copies, operators, compound assignments, cross products and normalizations on any number of variables", "why_tests_cant": "The class keeps a fourth entry that must stay 1 through every operation; whether it does depends on the whole history of an object.", "anchors": ["include/arc_utilities/aligned_eigen_types.hpp:45-190"]}
{"id": "C138", "title": "Nested updates, chunks and zips of algorithms.py", "statement": "nested_dict_update changes exactly the entries its second argument names, at every depth, or raises and leaves the base unchanged; chunked_drop_last and reversed_chunked split a list into chunks of the given size in order, dropping fewer than one chunk at the end or at the beginning; zip_repeat_shorter yields as many rows as the longest list has elements, shorter lists repeating their last element; is_list_unique says whether an element occurs twice.", "quantifier": "all nested dictionaries, lists, sizes and numbers of lists", "why_tests_cant": "Depth, lengths and the number of arguments are unbounded.", "anchors": ["src/arc_utilities/algorithms.py:6-79"]}
{"id": "C139", "title": "Paths and trajectories of path_utils.py", "statement": "closest_point gives a point of the path, with its index and fraction, to which no point of the path is closer; travel_along gives the part of the path that starts there and has the length asked for, or all that is left in that direction; densify keeps the path and its length and no two consecutive points are further apart than asked; reverse_trajectory gives the same motion backwards.", "quantifier": "all paths of any number of points in any dimension, all query points, distances, and trajectories", "why_tests_cant": "Optimality over all points of a path and lengths of paths are not testable by cases.", "anchors": ["src/arc_utilities/path_utils.py:17-172"]}
{"id": "C140", "title": "Polynomial trajectories of trajectory_planning.py", "statement": "The linear, quadratic and cubic trajectories have the positions and velocities asked for at both ends, and at every time and in every coordinate the velocity is the derivative of the position and the acceleration that of the velocity.", "quantifier": "all boundary conditions of any dimension, all durations but 0, all times", "why_tests_cant": "Derivatives and identities between polynomials hold for infinitely many inputs.", "anchors": ["src/arc_utilities/trajectory_planning.py:7-49"]}
{"id": "C141", "title": "Rotations and transforms of transformation_helper.py", "statement": "Composing and inverting transforms, quaternions and matrices compose and invert the motions; conversions from and to axis and angle, matrices, D-H parameters and spherical coordinates keep rotation, motion and point; angles between quaternions are angles between the rotations; differences of points are differences.", "quantifier": "all quaternions but zero, all points, transforms with unit quaternions, angles and parameters", "why_tests_cant": "Identities of rotations hold for infinitely many inputs; a case with the identity, or with equal arguments, hides a wrong component.", "anchors": ["src/arc_utilities/transformation_helper.py:85-446"]}
{"id": "C142", "title": "Colour spaces and colour maps of color.py", "statement": "XYZ of a colour is its sRGB-weighted sum; converting a colour from RGB to XYZ, Lab and Msh and back gives the colour; interpolating starts and ends with the two colours and passes white between different hues; the colour maps run through their colours continuously with components from 0 to 1; differences of hues are angles.", "quantifier": "all colours, fractions, values and limits", "why_tests_cant": "Inverse functions and piecewise formulas hold or fail on whole ranges of real numbers.", "anchors": ["src/arc_utilities/color.py:11-230"]}
{"id": "C143", "title": "Deleting, counting and naming in filesystem_utils.py", "statement": "rm_tree deletes a directory and everything below it and nothing else; asking deletes exactly the listed directories after a yes and nothing otherwise; counting counts every file once and the size is the sum of the sizes; mkdir_and_ask only adds directories on the way to the path and its result says whether it can be used; no_overwrite_path ends with the first free version and keeps the extensions; a name that begins with dots loses the dots and its first part; append_str_to_path stays in the directory and adds the string to the name.", "quantifier": "all file systems, paths, lists of directories and answers", "why_tests_cant": "Trees can have any depth and width, and links can lead anywhere.", "anchors": ["src/arc_utilities/filesystem_utils.py:7-103"]}
{"id": "C144", "title": "Sizes of files, poses, points and markers of the Python package", "statement": "parse_file_size takes exactly the texts of digits with an optional fraction, unit and b, and gives the number of bytes they say: exactly if it is whole, else to the nearest byte; lists of six numbers become the pose with these roll, pitch and yaw, lists of seven the pose with this quaternion, other lengths are refused; normalizing keeps directions and gives length 1; arrays of points hold every transformed point; scaling markers multiplies every extent.", "quantifier": "all strings, numbers, lists and transformations", "why_tests_cant": "The accepted strings are an infinite language and the results pass through two roundings; the angles are real numbers.", "anchors": ["src/arc_utilities/conversions.py:11-105", "src/arc_utilities/normalize_point_msg.py:6-17", "src/arc_utilities/numpy_conversions.py:3-19", "src/arc_utilities/marker_utils.py:4-10"]}
{"id": "C145", "title": "Timeouts and caught exceptions of the Python package", "statement": "catch_timeout gives the result of a function that is done before the timeout and stops one that is not, exactly at the timeout, and leaves no alarm behind; retry_on_timeout yields everything the successive generators gave before they were slow and ends with the first that is fast enough; skip_on_timeout yields the items before the first slow one; conditional_try catches every Exception and no interrupt.", "quantifier": "all functions, durations, generators, numbers of attempts", "why_tests_cant": "Which items come late depends on the clock; the number of attempts has no bound.", "anchors": ["src/arc_utilities/catches.py:5-60", "src/arc_utilities/conditional_try.py:4-15"]}
{"id": "C146", "title": "Listener: the newest message, under a lock", "statement": "At most one thread is between taking and releasing the lock of a Listener; get returns the message stored last, and one that waits returns a message unless ROS shuts down; the custom callback gets every stored message once and in the order of storing; a get that has data can always finish.", "quantifier": "all interleavings of message threads, gets and shutdown, all messages", "why_tests_cant": "The threads interleave in any order and number; tests see a few of the orders.", "anchors": ["src/arc_utilities/listener.py:9-49"]}
{"id": "C147", "title": "Waiting, connecting, controllers and nodes of the Python package", "statement": "wait_for ends at the first poll with the condition true or ROS shut down and warns exactly at the late polls before; joy_to_xbox and get_button give every button and axis under its name and refuse other messages; get_3d_delta gives the sticks without their dead zones; get_connected_publisher and try_to_connect succeed exactly if the connections are there at one of their polls, for the topic published; with_ros shuts both nodes down after the function, whether it raises or not.", "quantifier": "all sequences of polls, messages, names of topics, remappings, results of the wrapped function", "why_tests_cant": "What the polls see depends on the other nodes and on time; tests see one sequence.", "anchors": ["src/arc_utilities/ros_helpers.py:10-100", "src/arc_utilities/xbox.py:10-84", "src/arc_utilities/ros_init.py:9-70"]}
{"id": "C148", "title": "Transforms got and sent from Python", "statement": "get_transform waits until the transform can be had and gives its matrix; what is sent has the frames, time and motion asked for, and is the motion read back; later subscribers get every static transform sent; ReliableTF has exactly one thread sending the last content for each pair of frames that was started and not stopped, and none after close; start_send returns only when a near transform was received, and does when what is sent arrives.", "quantifier": "all contents, sequences of sends and of calls, answers of the buffer", "why_tests_cant": "Sequences of calls and threads have no bound; rotations are real numbers.", "anchors": ["src/arc_utilities/tf2wrapper.py:13-142", "src/arc_utilities/reliable_tf.py:15-116"]}
{"id": "C149", "title": "RRT with a goal bias and a time limit", "statement": "With a goal bias, a round aims at a fresh goal sample exactly when its draw is at most the bias and otherwise at a fresh state sample, a bias of 1 or more never samples a state and a negative one never a goal; with a time limit only rounds begun within the limit are made, and the path returned, if any, leads from the start by propagations towards what those rounds aimed at to a state that reaches the goal.", "quantifier": "all biases, draws, samples, clocks, user functions keeping their contracts", "why_tests_cant": "Draws and clocks differ from run to run; the number of rounds has no bound.", "anchors": ["include/arc_utilities/simple_rrt_planner.hpp:133-303"]}
{"id": "C150", "title": "Parameters of a ROS node", "statement": "GetParam and GetVector return the value on the server if it is there and has the type asked for, and otherwise exactly the default; the optional versions return the value or nothing, the required versions the value or throw std::invalid_argument with a message naming the parameter; the versions for debugging return the same and log at the lowest level. A value that is found is logged at the level info, in the versions for debugging at the level debug, and a vector by the number of its elements.", "quantifier": "all servers, namespaces, names, values, conversions, contents of uninitialized variables", "why_tests_cant": "The value of an uninitialized variable and what a failed conversion leaves in it cannot be chosen by a test.", "anchors": ["include/arc_utilities/ros_helpers.hpp:9-190"]}
{"id": "C151", "title": "Tables of the Profiler", "statement": "printGroupSummary prints a box with the title Profile Summary and for every name asked for its total, number of calls and mean since it was last reset (0 without calls), all lines of the same length; writeGroupSummary appends the same to a file with the sums and means of recordDouble's values, and warns about names of both kinds; isTimerStarted tells whether the timer was started.", "quantifier": "all histories of calls, lists of names, formats of numbers of at most 15 characters, contents of the file", "why_tests_cant": "Histories and names have no bound.", "anchors": ["src/arc_utilities/timing.cpp:63-66", "src/arc_utilities/timing.cpp:129-282"]}
{"id": "C152", "title": "The scripts that delete directories", "statement": "After the answer yes, remove_directories_with_few_files deletes exactly the directories directly in the given roots that have fewer files below them than the count, and remove_small_directories exactly those whose files together are smaller than the given size, with everything below them; after any other answer, for a root that is not a directory and for a size that cannot be read nothing is deleted.", "quantifier": "all file systems, roots, counts, sizes and answers", "why_tests_cant": "File trees have no bound, and a test that deletes shows nothing about other trees.", "anchors": ["scripts/remove_directories_with_few_files.py", "scripts/remove_small_directories.py"]}
{"id": "C153", "title": "Console helpers", "statement": "IsDebuggerPresent tells whether the process is traced; GetChar returns the next key, takes only it and restores the terminal; WaitForInput returns the line typed; leveled messages are printed exactly up to the level of the program, with both levels; CheckAlignment tells whether the address is a multiple of the alignment.", "quantifier": "all status files, inputs, stream states, terminals, messages, levels and addresses", "why_tests_cant": "Terminals, the end of the input and the limit of descriptors are not in reach of unit tests.", "anchors": ["include/arc_utilities/arc_helpers.hpp:60-153", "include/arc_utilities/arc_helpers.hpp:1267-1281"]}
{"id": "C154", "title": "Colours", "statement": "Every RGBAColor has channels from 0 to 1 after any constructor and any setters; a constructor puts the nearest number from 0 to 1 into each channel, and alpha is 1 when it is not given; a byte that was set is read back; Multiply and ConvertColor stay in the range, and a factor from 0 to 1 makes no channel brighter; InterpolateColor returns exactly the first colour for ratios up to 0, exactly the second from 1 on, and for ratios between them channels between those of the two colours, near the exact mixture.", "quantifier": "all colours, floats, bytes, factors, ratios and sequences of setters, with the rounding of floats and doubles", "why_tests_cant": "The claims are about all pairs of 2^30 floats and their roundings.", "anchors": ["include/arc_utilities/arc_helpers.hpp:263-332", "include/arc_utilities/arc_helpers.hpp:379-388", "include/arc_utilities/arc_helpers.hpp:425-469"]}
{"id": "C155", "title": "Making voxel grids", "statement": "A VoxelGrid is made with the cell sizes, counts, origin and values given, all cells with the default value, centred if no origin is given, or std::invalid_argument is thrown and an object that is initialized again stays as it was, exactly when a size or count is not a finite number above 0; from sizes it has as many cells as they need; the constructors agree; the dynamic grid likewise.", "quantifier": "all sizes, counts, values and earlier objects, with the rounding of doubles", "why_tests_cant": "Sizes are doubles, and the rounding of the quotient decides about a cell; failed allocations are hard to make in a test.", "anchors": ["include/arc_utilities/voxel_grid.hpp:79-203", "include/arc_utilities/voxel_grid.hpp:221-388", "include/arc_utilities/dynamic_spatial_hashed_voxel_grid.hpp:387-515", "include/arc_utilities/dynamic_spatial_hashed_voxel_grid.hpp:549-563"]}
{"id": "C156", "title": "One chunk of a dynamic grid", "statement": "A chunk of cells is made, or std::invalid_argument thrown, as its sizes and counts demand; a new chunk has the initial value at every index; assigning through GetMutableByIndex changes the cell of that index only, and one outside the chunk changes no cell; lookups by location and by index find the same cell, for which the location given out for an index lies in the cell of that index; a chunk that is one whole value has it at every location; lookups of the wrong kind are refused; on a default-constructed chunk every access fails an assertion, and without assertions whatever needs its contents is undefined.", "quantifier": "all chunks, sizes, counts, values, indices and locations, debug and release builds, with the rounding of doubles", "why_tests_cant": "The rounding of a location decides about its cell, and there are as many locations as doubles.", "anchors": ["include/arc_utilities/dynamic_spatial_hashed_voxel_grid.hpp:39-361"]}
{"id": "C157", "title": "Printing of doubles, vectors, matrices and transforms", "statement": "PrettyPrint of a double, an Eigen vector, matrix, quaternion or transform gives a text in which each coefficient stands in its place with its label, and the number printed is the nearest one with so many significant digits (12, or 6 for a double by itself or in a container), so whole numbers of at most that many digits are printed exactly; two values with the same text differ by less than the digits show, and the text of a vector or matrix tells its size.", "quantifier": "all doubles, also subnormal and very large ones, infinities and NaN; all vector and matrix sizes, with and without delimiters", "why_tests_cant": "The decimal text depends on all bits of a double; each of 2^64 doubles has its own rounding.", "anchors": ["include/arc_utilities/pretty_print.hpp:21-30", "include/arc_utilities/pretty_print.hpp:145-256"]}
{"id": "C158", "title": "Closeness, interpolation and distances of numbers and vectors", "statement": "CloseEnough tells whether two numbers, or all coefficients of two vectors of the same length, are at most the threshold apart; IsApprox compares with the smaller of the two; Sign is the sign; Interpolate gives the share asked for of the way from the first to the second, never outside of them and exact at the ends, for numbers, pairs and vectors, with a ratio limited to 0 to 1; Distance is the Euclidean distance, a metric, infinite for different lengths; CalculateTotalDistance is the sum over consecutive states, no less than the distance of the ends.", "quantifier": "all real numbers, vectors and paths; CloseEnough and Interpolate also for all doubles with their rounding", "why_tests_cant": "Rounding moves a result out of its range at isolated values only; metric laws quantify over triples of vectors.", "anchors": ["include/arc_utilities/math_helpers.hpp:16-46", "include/arc_utilities/math_helpers.hpp:70-89", "include/arc_utilities/math_helpers.hpp:121-173", "include/arc_utilities/math_helpers.hpp:235-244"]}
{"id": "C159", "title": "Slope of the velocity limit and switching points on it", "statement": "Where one joint alone limits the speed, GetVelocityMaxPathVelocityDeriv is the derivative of GetVelocityMaxPathVelocity along the path. GetNextVelocitySwitchingPoint looks every thousandth of the path for the first place where the limit stops falling faster than the strongest braking, and returns a position at which the limit can be followed, at most 1e-6 after one at which it cannot, with the limit as speed and the strongest braking before and acceleration after; it reports the end only when there is no such place among the positions it looks at; and it always ends.", "quantifier": "all paths, limits and positions, over the reals", "why_tests_cant": "The derivative is a limit; the search compares two functions of the path at every thousandth and bisects.", "anchors": ["src/arc_utilities/time_optimal_trajectory_parametrization.cpp:385-419", "src/arc_utilities/time_optimal_trajectory_parametrization.cpp:588-615"]}
{"id": "C160", "title": "Switching points on the acceleration limit, and one step of the integration", "statement": "GetNextAccelerationSwitchingPoint returns the first switching point of the path after the given position and at least 1e-6 before the end at which the trajectory can switch from braking to accelerating: at a jump of the curvature when the limit drops or falls faster than braking before, and rises or rises faster than accelerating after; elsewhere when the slope of the limit turns from negative to positive. It returns nothing only when there is no such point. The slope used is the difference quotient over 1e-6 to either side. Each step of IntegrateForward moves with the given acceleration for the time step, up to the next jump; the speed is lowered to the velocity limit if it exceeds that and the limit can be followed; a step that stays within the limits is added; else the integration stops at the limit unless it can go on beyond.", "quantifier": "all paths, limits, positions and time steps, over the reals with infinite and undefined slopes", "why_tests_cant": "The conditions compare slopes that can be infinite or NaN on both sides of every switching point.", "anchors": ["src/arc_utilities/time_optimal_trajectory_parametrization.cpp:347-383", "src/arc_utilities/time_optimal_trajectory_parametrization.cpp:422-496", "src/arc_utilities/time_optimal_trajectory_parametrization.cpp:560-562", "src/arc_utilities/time_optimal_trajectory_parametrization.cpp:597-600"]}
{"id": "C161", "title": "Text of vectors and collision results", "statement": "The text that operator<< writes for a vector of whole numbers, or for a vector of vectors of whole numbers, tells which value it was; read as blank-separated words, that of a vector gives the numbers in order. A vector of strings is written one per line, so strings without newlines can be read back. The same is expected of deeper nesting, characters and all strings. A CollisionResult is written as no collision, as a collision without contacts, or with the bodies of its first contact and whether there are others; every collision gives some text. MakeMeshTriangle keeps the three indices in order.", "quantifier": "all vectors, strings and collision results", "why_tests_cant": "Ambiguity is about all pairs of values with one text.", "anchors": ["include/arc_utilities/ostream_operators.hpp:7-18", "include/arc_utilities/moveit_ostream_operators.hpp:6-28", "include/arc_utilities/shape_msgs_builders.hpp:8-12"]}
{"id": "C162", "title": "The links of a robot as its accessors show them, with geometry", "statement": "GetLinkNames, GetLinkTransforms and GetLinkGeometries of a LinkedRobotWithGeometry are lists side by side in the order the links were given. The transform beside a name is what GetLinkTransform and GetLinkTransformsMap give for that name, and names of no link are refused or absent. This holds after any sequence of SetPosition, returned or thrown, UpdateBaseTransform and Clone. CheckIfSelfCollisionAllowed answers as given to the constructor throughout. The constructor refuses exactly geometries that do not carry the names of the links in order, and self-collisions of links that do not exist. The robots of one link carry one geometry under its name and allow every self-collision. A clone is expected to be independent.", "quantifier": "all robots accepted by the constructor, geometries and sequences of calls", "why_tests_cant": "All sequences of calls, with exceptions in the middle of SetPosition.", "anchors": ["include/arc_utilities/simple_linked_robot_model.hpp:634-669", "include/arc_utilities/simple_robot_models.hpp:19-219"]}
{"id": "C163", "title": "A timed motion between two waypoints keeps the limits", "statement": "For two different waypoints, positive limits and a positive time step the constructor of Trajectory returns, with finite times. If the times increase, every joint velocity that GetPositionVelocity reports from 0 to GetDuration exceeds its limit by at most one time step of its acceleration; if a joint needs at least five steps to reach its speed limit and then moves at least 8e-6 per step, it does not exceed it at all. Between any two times a joint velocity changes by at most the elapsed time multiplied by its acceleration limit plus 2e-6 divided by the square of the time step. The limits are expected to be kept exactly for every time step, and the constructor to return when a limit is zero.", "quantifier": "all numbers of joints, waypoints, positive limits, positive time steps and times", "why_tests_cant": "The planner integrates for as many steps as the move takes and the crossing of the two integrations may fall anywhere; tests see a few moves.", "anchors": ["src/arc_utilities/time_optimal_trajectory_parametrization.cpp:217-284", "src/arc_utilities/time_optimal_trajectory_parametrization.cpp:422-543", "src/arc_utilities/time_optimal_trajectory_parametrization.cpp:617-649"]}
{"id": "C164", "title": "Revolute angles with rounding", "statement": "For finite doubles EnforceContinuousRevoluteBounds gives a double in (-M_PI, M_PI] that is a whole number of turns 2.0 * M_PI away without any rounding, the same double if it was there already, and at most 2^-53 of its argument away from the angle counted in turns of 2 pi. ContinuousRevoluteDistance is in [0, M_PI], the same both ways, 0 for the same angle, and within 2^-51 of the shortest way. Where no cut lies between, ContinuousRevoluteSignedDistance leads from the first angle to the second within 2^-52. InterpolateContinuousRevolute is in [-M_PI, M_PI] and within 2^-49 of the given share, clamped, of a way that is at most 2^-51 longer than the shortest; at ratio 0 or less it is exactly the first angle. CheckInContinuousRevoluteBounds accepts both its ends, whatever turns they are given with. AddContinuousRevoluteValues is the sum with the error of one addition, brought into bounds. It is expected that different angles have a positive distance, that ratio 1 gives the second angle, and that sums of all finite doubles have an angle.", "quantifier": "all finite doubles", "why_tests_cant": "The properties depend on the last bit: whether M_PI rounds back to M_PI, whether fmod and the corrections by whole turns lose bits, whether the end of a range passes its own test. There are 2^128 pairs of doubles.", "anchors": ["include/arc_utilities/math_helpers.hpp:52-65", "include/arc_utilities/math_helpers.hpp:91-119", "include/arc_utilities/math_helpers.hpp:175-233"]}
{"id": "C165", "title": "Short texts, version tests and rounded dicts", "statement": "throw_arc_exception never returns: it throws the type asked for, and what() tells message, file and line apart for names of files without a colon; it is expected to for all names. MOVEIT_VERSION_AT_LEAST is the order of versions, a total order, and Pose is Isometry3d exactly from 1.0.1 on. The text of a joint shows its value and limits to the digits of the stream and joints with the same text are alike to those digits; it is expected that the interval shown contains the value. dict_round keeps the keys in their order, rounds each value, and raises what the first value that cannot be rounded raises.", "quantifier": "all messages, file names and lines; all versions; all doubles, infinities and NaN among them, and precisions; all dicts and rounding functions", "why_tests_cant": "Texts and versions are infinitely many; a test compares a few.", "anchors": ["include/arc_utilities/arc_exceptions.hpp:8-17", "include/arc_utilities/moveit_pose_type.hpp:11-20", "include/arc_utilities/simple_linked_robot_model.hpp:216-220", "src/arc_utilities/dict_tools.py:4-5"]}
{"id": "C166", "title": "Braking back from a point meets the trajectory", "statement": "IntegrateBackward keeps the steps of the trajectory up to the one it meets, adds the point where the braking line and the trajectory cross, and ends with braking steps that lead to the given point: each step of the given length of time, no speed negative, and each but the last with the strongest braking the acceleration limits allow at its end. It throws exactly when the given position is before the last step but one, does nothing undefined on a trajectory that begins at 0, and ends, having met the trajectory, when it begins at rest at 0, the point is on or under it, and the braking is nowhere under it an acceleration.", "quantifier": "all paths, limits, time steps, trajectories, points and accelerations, over the reals", "why_tests_cant": "Trajectories and time steps are infinitely many, and that the loop ends is a statement about all of them.", "anchors": ["src/arc_utilities/time_optimal_trajectory_parametrization.cpp:498-543"]}
{"id": "C167", "title": "Bytes of serialized graphs, matrices, grids and planner states", "statement": "A serialized graph is the number of nodes, then per node its value, distance, number of in edges, in edges, number of out edges and out edges; an edge is the start, end, weight (eight bytes each) and four bytes with 0 for a valid, 1 for an invalid and 2 for an unknown edge. An Eigen matrix is the sizes that its type leaves open, then its entries. A voxel grid is the flag, origin and inverse origin (16 entries each), number of cells, cells, cell sizes, inverse cell sizes, grid sizes, strides, cell counts, default and out-of-bounds value. A planner state is the flag, parent, number of children, children and value. All numbers are in the byte order of the host, negative ones in two's complement, and the returned number is the number of bytes appended. When a grid or a planner state is read, every flag byte but 0 means true.", "quantifier": "all graphs, matrices, grids and planner states whose numbers fit their types, both byte orders, every serializer of values, any buffer before", "why_tests_cant": "A round trip passes for any layout that is written and read the same way, also for a layout no other program can read, and the objects are infinitely many.", "anchors": ["include/arc_utilities/graph.hpp:41-51,150-172,327-351", "include/arc_utilities/serialization_eigen.hpp:32-52", "include/arc_utilities/voxel_grid.hpp:390-426", "include/arc_utilities/simple_rrt_planner.hpp:55-70"]}
{"id": "C168", "title": "Vectors and pairs of doubles with rounding", "statement": "On finite doubles, every entry of Abs, Multiply, Add, Sub and of the division of two vectors or two pairs is the double nearest to the exact result, infinite exactly when that overflows; functions of two vectors give an empty vector when the sizes differ. Dividing a vector by a scalar has a relative error of at most 2^-52 + 2^-106 when the scalar and the quotient are in the normal range; it is not the nearest double, differs from the division of a pair by the same scalar, and is infinite where the quotient is 1. Dividing by zero gives no finite entry. When Sum is finite, all entries are, and its error is at most ((1 + 2^-53)^(n-1) - 1) times the sum of the absolute values; it is exact on whole numbers whose absolute values add up to at most 2^53.", "quantifier": "all vectors and pairs of finite doubles of any size, all scalars", "why_tests_cant": "Doubles are too many to enumerate even in pairs, the length of the vector is unbounded, and an error bound is a statement about all of them.", "anchors": ["include/arc_utilities/vector_math.hpp:15-48,54-165"]}
{"id": "C169", "title": "Averages and standard deviations of doubles with rounding", "statement": "AverageStdVectorDouble without weights of finite doubles of at most 2^1022 is finite and lies between two of the values, whatever their number; for up to 2^53 values of at most M it differs from the true mean by at most n (5 * 2^-53 M + 2^-1074). With weights it lies between the values when the first weight is not zero and the largest, also when the sum of the weights overflows, and equals the value when all values are equal, whatever the weights; with other weights it can leave the range of the values. The standard deviation of up to 2^53 values of at most 2^480 is finite and not negative, and 0 when all values are equal; it can be 0 for values that differ. Without values, with weights of another number or with only zero weights an assertion fails, or values are read out of bounds.", "quantifier": "all vectors of finite doubles within the bounds, all finite weights, assertions on or off", "why_tests_cant": "That a rounded result never leaves an interval is a statement about all doubles and all lengths; the counterexamples are rare.", "anchors": ["include/arc_utilities/math_helpers.hpp:251-299"]}
{"id": "C170", "title": "Vectors of Eigen as vectors of the standard library, and starting a node from Python", "statement": "ConvertTo<std::vector<double>> gives the entries only for the empty vector; for every other one it reads beyond the end. init_node refuses a log level outside 0 to 4 before anything happens; otherwise it sets the level of the logger of that name, calls ros::init once with as many arguments as given, each the text before its first NUL, and never writes outside of a buffer; if ros::init refuses the name nothing else happens, otherwise a new spinner with one thread replaces the old one and is started. In any program of init_node and shutdown exactly the spinner of the last successful init_node is alive. The switches anonymous, disable_rosout and disable_signals change nothing.", "quantifier": "all vectors of up to 2^60 entries, all names, arguments, levels, switches, and all sequences of calls", "why_tests_cant": "Out of bounds reads often return plausible data, and ignored switches show only under signals or with several nodes; sequences of calls have no bound.", "anchors": ["include/arc_utilities/eigen_std_conversions.hpp:11-14", "src/roscpp_initializer.cpp:15-64"]}
{"id": "C171", "title": "Comparing and measuring points with the rounding of doubles", "statement": "Equal3d and Equal4d are true exactly if all coordinates are the same numbers, so never with a NaN. CloseEnough of points is true if no coordinates are further apart than the threshold, false if some are further apart than the threshold times 1 + 2^-52, and symmetric; for vectors there must be as many points, and each must be close. CloseEnough of a Vector2d with a NaN is false, but that of a Vector3d passes over coordinates with a NaN and is always true for a NaN as the threshold. SquaredDistance and Distance of points with coordinates up to 2^508 are finite, not negative, the same in both directions, 0 for a point and itself, and never smaller for points further apart in each coordinate; the square is off by at most 6 * 2^-53 of itself and 2^-1073, the distance of points at least 2^-500 apart by at most 5 * 2^-53 of itself. Different points can have the distance 0, and the triangle inequality can fail. TransformData gives as many items, each transformed, in order.", "quantifier": "all doubles including NaN and infinities for the comparisons (numbers up to 2^1022 for thresholds), all coordinates up to 2^508 for the distances, all lists", "why_tests_cant": "Rounding errors, NaN and overflow depend on the bits of the coordinates; there are 2^384 pairs of points.", "anchors": ["include/arc_utilities/eigen_helpers.hpp:33-94", "include/arc_utilities/eigen_helpers.hpp:110-118", "include/arc_utilities/eigen_helpers.hpp:309-324"]}
{"id": "C172", "title": "The table of speed limits along a path", "statement": "OutputPhasePlaneTrajectory writes 100000 or 100001 rows for every path whose length is between 2^-1000 and 2^1000, despite the rounding of the position that is added up: row k is within a part in 10^9 of k hundredthousandths of the length, the positions increase and lie before the end, and each row has the limits at its position, with 10 for an infinite limit of the acceleration only. An infinite length gives one row; a length that is not positive, or NaN, gives none; for a positive length of at most 2^-1060 the distance of the rows is rounded to 0 and the function never returns. The files have a line for every row, and for every step of the trajectory.", "quantifier": "all lengths and all functions for the limits", "why_tests_cant": "A loop that adds a rounded step in doubles can run once more or once less, or forever, depending on the bits of the length.", "anchors": ["src/arc_utilities/time_optimal_trajectory_parametrization.cpp:286-303"]}
{"id": "C173", "title": "Unit points with the rounding of doubles", "statement": "make_unit_point and normalize_point: for coordinates of at most 2^500, one of them at least 2^-500, every coordinate of the result is within 8 * 2^-53 of itself (and 2^-1075) of the exact one, and the sum of their squares is within 18 * 2^-53 of 1. The origin raises AssertionError (ZeroDivisionError without assertions), and a NaN raises. Outside of these bounds a tiny point can give a point of length 0.75 or an AssertionError, a large one the origin or an OverflowError, and an infinite coordinate a NaN.", "quantifier": "all coordinates that are floats within the bounds, and every C library whose pow(x, 2) is within a unit in the last place", "why_tests_cant": "The error depends on the bits of the coordinates, and the failures on their exponents.", "anchors": ["src/arc_utilities/normalize_point_msg.py:6-17"]}
{"id": "C174", "title": "Lengths of paths of points with the rounding of doubles", "statement": "CalculateIndividualDistances and CalculateCumulativeDistances return one double for every point, 0 for the first; every other cumulative distance is the rounded sum of the one before and the single distance, and CalculateTotalDistance is the last cumulative distance bit by bit (0 without points). For coordinates of at most 2^508 all of them are numbers, not negative, and the cumulative distances never decrease; a single distance is the same in both directions. If every step is 0 or at least 2^-500 long, a single distance is within 5 * 2^-53 of itself of the exact one, and the total of n points within the factor (1 +- 2^-53)^(n-1) (1 +- 5 * 2^-53). Cumulative distances need not grow between different points, and the total of the reversed path can be another one.", "quantifier": "all lists of points; the bounds for coordinates of at most 2^508 and at most 2^53 points", "why_tests_cant": "The number of points has no bound, and the errors depend on the bits of the coordinates.", "anchors": ["include/arc_utilities/eigen_helpers.hpp:365-401"]}
{"id": "C175", "title": "Rounded dicts of numbers", "statement": "dict_round of a dict of int and float keeps the keys in their order and replaces each value by its rounding: a finite float by the double nearest to the nearest whole number of units 10^-places (both ties to even), with the sign of the float; infinities and NaN stay; an int stays unless places is negative, and then becomes the nearest multiple of 10^-places. With places of at least 0 it never raises; otherwise it raises exactly if such a decimal of some float is beyond the doubles, and then OverflowError. A rounded float is within 10^-places of the float, rounding keeps the order of floats, and rounding the dict again with the same places changes nothing. The double written 2.675 becomes 2.67 with 2 places, not 2.68.", "quantifier": "all dicts of integers and doubles, infinities and NaN among them, and all numbers of places", "why_tests_cant": "Doubles and places are too many to try; whether rounding again changes a value depends on two ties at once.", "anchors": ["src/arc_utilities/dict_tools.py:4-5"]}
{"id": "C176", "title": "Distances of vectors of any size with the rounding of doubles", "statement": "SquaredDistance and Distance of two VectorXd of n coordinates, at most 2^20 of them and each at most 2^500: in whatever order the squares are added up, the results are numbers, not negative, the same bit by bit in both directions, and 0 for a vector and itself; with S the exact square of the distance, SquaredDistance is between (1 - 2^-53)^(n+2) S - n 2^-1075 and (1 + 2^-53)^(n+2) (S + n 2^-1075), and the square of Distance within the same bounds with n+4; vectors 2^-500 or more apart have a distance above 0. Vectors of different sizes fail an assertion, and without assertions the behaviour is undefined. Different orders can give different results.", "quantifier": "all vectors of doubles; the bounds for at most 2^20 coordinates of at most 2^500; all orders of the additions that use each square once", "why_tests_cant": "The size and the order of the additions have no bound; the errors depend on the bits of the coordinates.", "anchors": ["include/arc_utilities/eigen_helpers.hpp:326-331"]}
{"id": "C177", "title": "Weighted norms and cosines with the rounding of doubles", "statement": "WeightedDotProduct, WeightedSquaredNorm, WeightedNorm and WeightedCosineAngleBetweenVectors in doubles, in whatever order the products are added up. A cosine that is returned is a number from -1 to 1, whatever the vectors and weights; it is the weighted product over the product of the norms, clamped, to within 2^-50 where the norms and their product are moderate. The cosine of a vector with itself is between 1 - 2^-51 and 1 for coordinates and weights that are 0 or between 2^-200 and 2^200 in size, weights not negative, not all products 0, at most 2^20 of them; the weighted square is then within n+2 relative rounding errors of the exact one. Products of vectors of whole numbers up to 1024 are exact. With assertions the call fails exactly if a norm is not above 0 or the sizes differ; without, different sizes are undefined behaviour. The cosine of a vector with itself need not be 1, the cosine may change when the vectors are exchanged, and without assertions a vector of zeros (of at most 2^20 coordinates) has the cosine -1 with every vector of finite coordinates whose weighted norm is finite, for finite weights.", "quantifier": "all vectors and weights of doubles of any size for the range and the assertions; the bounds as stated; all orders of the additions that use each product once", "why_tests_cant": "The size and the order of the additions have no bound; the errors depend on the bits of coordinates and weights.", "anchors": ["include/arc_utilities/eigen_helpers.hpp:961-981"]}
