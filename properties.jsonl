{"id": "C01", "title": "Priority list behaves like a sorted list without duplicates", "statement": "After any sequence of Clear, Push, Remove and Pop, a Frontier holds exactly the elements pushed and not yet removed or popped, in the order a stable sorted list would hold them. It never holds two equal elements. Push reports success exactly when no equal element was present. Remove reports 1 and removes exactly the element equal to its argument, or reports 0 and changes nothing. Find returns the stored element equal to its argument. Top and Pop give an element that no stored element outranks, the most recently pushed one among equals.", "quantifier": "every element type, every strict weak order, every equality, every finite sequence of operations", "why_tests_cant": "The binary searches have boundary cases at every size and for every pattern of equal priorities; a test fixes a few.", "anchors": ["planner/src/utils/frontier.h: Frontier::Push, Remove, Pop, Top, Find, Clear, FindFirstCompareIsFalse, FindLastCompareIsTrue"]}
{"id": "C02", "title": "A* success returns a real path with its real cost", "statement": "When SearchPath returns Success, GetPath starts with the initial state, ends with a state accepted as goal, every consecutive pair is a transition offered by the state propagator, GetActions lists the actions of these transitions, and GetOptimalCost is the sum of their costs in path order.", "quantifier": "every propagator, heuristic, cost arithmetic, state equality, initial and goal state", "why_tests_cant": "Only finitely many graphs can be run; the claim concerns any user propagator.", "anchors": ["planner/src/algo/a_star.h: AStar::SearchPath, GetPath, GetActions, GetOptimalCost, Expand, ProcessPossibleShortcut"]}
{"id": "C03", "title": "A* failure means the goal is unreachable", "statement": "When an initialized A* search returns Failure, no finite sequence of propagator transitions leads from the initial state to the goal state, GetPath is empty and GetOptimalCost is infinite.", "quantifier": "every propagator graph, finite or infinite, whenever the search returns", "why_tests_cant": "Absence of a path cannot be observed by sampling.", "anchors": ["planner/src/algo/a_star.h: AStar::SearchPath, Expand, InitializeSearch"]}
{"id": "C04", "title": "A* graph search is optimal with a consistent heuristic", "statement": "If the heuristic is consistent and SearchPath returns Success, the cost reported by GetOptimalCost is not larger than the cost of any path from the initial state to the goal state.", "quantifier": "every propagator with a consistent heuristic, every path of every length", "why_tests_cant": "The claim compares against all paths of the graph, in all graphs.", "anchors": ["planner/src/algo/a_star.h: AStar::SearchPath, Expand, ProcessPossibleShortcut, Initialize"]}
{"id": "C05", "title": "A* terminates on finite state spaces and expands each state once", "statement": "If finitely many states are reachable, SearchPath terminates after at most that many expansions, and the propagator is never queried twice for equal states.", "quantifier": "every propagator with finitely many reachable states, any heuristic, even inconsistent", "why_tests_cant": "Termination for all graphs is not testable.", "anchors": ["planner/src/algo/a_star.h: AStar::SearchPath, Expand, Explored"]}
{"id": "C06", "title": "A* tree search is optimal with an admissible heuristic", "statement": "With GraphSearch set to false and an admissible heuristic, a returned solution has minimal cost, as the documentation of Initialize states (admissibility alone suffices for tree search).", "quantifier": "every propagator with an admissible heuristic", "why_tests_cant": "A counterexample needs a particular expansion order with two paths into one state.", "anchors": ["planner/src/algo/a_star.h: AStar (GraphSearch=false), Expand, Initialize", "planner/src/utils/frontier.h: Frontier::Push"]}
{"id": "C07", "title": "Results always belong to the last search", "statement": "After any history of SetInitState, SetGoalState, Initialize and SearchPath calls on an AStar object, GetPath is non-empty exactly when the most recent SearchPath returned Success, and then it starts at the initial state and ends at the goal that were set when that search ran.", "quantifier": "every history of API calls", "why_tests_cant": "Stale results appear only after particular call orders.", "anchors": ["planner/src/algo/a_star.h: AStar::Initialize, SearchPath, InitializeSearch, GetPath", "planner/src/algo/path_planner.h: PathPlanner"]}
{"id": "C08", "title": "Combining heuristics preserves admissibility and consistency", "statement": "AStarCombinedHeuristic returns the largest of its parts: it is at least each part, equals one of them, and is admissible (consistent) whenever all parts are admissible (consistent).", "quantifier": "every non-empty list of heuristics, every state", "why_tests_cant": "The claim ranges over all heuristics.", "anchors": ["planner/src/algo/a_star.h: AStarCombinedHeuristic::GetHeuristicValue, Add"]}
{"id": "C09", "title": "Grid A* paths avoid obstacles", "statement": "A path returned by A* on an occupancy grid only contains cells inside the grid, consecutive cells are 8-neighbours, no cell after the first is occupied, and no diagonal step passes between two occupied corner cells.", "quantifier": "every grid size, every occupancy, every cost function", "why_tests_cant": "The number of occupancy grids is unbounded.", "anchors": ["planner/src/algo/a_star_n2.cpp: AStarStatePropagatorFcnN2::GetNeighborStates", "planner/src/utils/grid.cpp: GridCellPosition::GetNeighbors, IsDiagonalTo"]}
{"id": "C10", "title": "Grid A* finds a shortest obstacle-free path or proves there is none", "statement": "On an occupancy grid, A* with a consistent heuristic always terminates; it returns a path of minimal cost among all obstacle-avoiding grid paths, and it fails only when no such path exists.", "quantifier": "every grid size, occupancy and non-negative cost function", "why_tests_cant": "Needs all grids and all competing paths.", "anchors": ["planner/src/algo/a_star_n2.cpp: AStarStatePropagatorFcnN2::GetNeighborStates", "planner/src/algo/a_star.h: AStar::SearchPath"]}
{"id": "C11", "title": "Bidirectional A* success returns a connected path with its real cost", "statement": "When BidirectionalAStar::SearchPath returns Success, the forward half is a path from the initial state to a meeting state, the reverse half is a path of the reverse propagator from the goal to the same meeting state, GetPath is the first followed by the second reversed, and GetOptimalCost is the sum of the two path costs.", "quantifier": "every pair of propagators and heuristics", "why_tests_cant": "Depends on all interleavings of the two searches over all graphs.", "anchors": ["planner/src/algo/bidirectional_a_star.h: BidirectionalAStar::SearchPath, FindIntersection, GetPath, GetOptimalCost"]}
{"id": "C12", "title": "Bidirectional A* path lists each state of the path once", "statement": "The path returned by a successful bidirectional search is a sequence of transitions: consecutive states are distinct states joined by a propagator transition.", "quantifier": "every successful bidirectional search", "why_tests_cant": "The defect is at the junction, which tests on path end points do not see.", "anchors": ["planner/src/algo/bidirectional_a_star.h: BidirectionalAStar::GetPath"]}
{"id": "C13", "title": "Bidirectional A* failure means the goal is unreachable", "statement": "If the reverse propagator describes the same transitions backwards and SearchPath returns Failure, there is no path from the initial state to the goal.", "quantifier": "every graph and pair of heuristics", "why_tests_cant": "Absence of a path cannot be sampled.", "anchors": ["planner/src/algo/bidirectional_a_star.h: BidirectionalAStar::SearchPath, FindIntersection"]}
{"id": "C14", "title": "Bidirectional A* is optimal with a consistent pair of heuristics", "statement": "With admissible, consistent heuristics whose sum is constant (zero heuristics in particular), the cost reported after Success is minimal among all paths from the initial state to the goal.", "quantifier": "every graph with non-negative costs, every consistent pair", "why_tests_cant": "The stopping rule fails only on particular cost patterns.", "anchors": ["planner/src/algo/bidirectional_a_star.h: BidirectionalAStar::SearchPath, FindIntersection, Initialize"]}
{"id": "C15", "title": "Averaged heuristics form a consistent pair", "statement": "The two heuristics made by GetAverageHeuristicPair have a constant sum over all states, and each is consistent when both wrapped heuristics are consistent.", "quantifier": "every pair of heuristics, every state", "why_tests_cant": "Universally quantified over states and heuristics.", "anchors": ["planner/src/algo/bidirectional_a_star.h: AverageHeuristic::GetHeuristicValue, Update, BidirectionalAStar::GetAverageHeuristicPair"]}
{"id": "C16", "title": "Cell neighbours are exactly the eight surrounding cells inside the grid", "statement": "GetNeighbors of a cell of the grid lists exactly the cells of the grid at Chebyshev distance one, each once; IsAdjacentTo agrees with that relation and it is symmetric.", "quantifier": "every grid size and cell", "why_tests_cant": "Border cases for all sizes.", "anchors": ["planner/src/utils/grid.cpp: GridCellPosition::GetNeighbors, IsAdjacentTo"]}
{"id": "C17", "title": "Grid storage addresses are in bounds and distinct", "statement": "For every cell inside a grid, the storage location used for it lies inside the allocated array, and different cells use different locations; reading a cell returns the last value written to it.", "quantifier": "every grid size, every sequence of writes", "why_tests_cant": "All sizes and histories.", "anchors": ["planner/src/utils/grid.h: Grid"]}
{"id": "C18", "title": "Rasterized edges are gap-free and close to the edge", "statement": "Rasterizing an edge between two points visits one cell per column (or row) of the major axis from one end cell to the other, both end cells included; consecutive cells are 8-neighbours, each cell deviates from the exact line by at most half a cell in the minor axis (one half plus rounding), and only cells inside the map are produced.", "quantifier": "every pair of integer end cells, inside or outside the map, every map size", "why_tests_cant": "Bresenham error accumulation over unbounded lengths.", "anchors": ["planner/src/state_validator/obstacle.cpp: Shape::RasterizeLine"]}
{"id": "C19", "title": "Obstacle identifiers are unique and minimal", "statement": "After any sequence of AddObstacle and RemoveObstacle, registered obstacles have pairwise different identifiers, a newly added obstacle gets the smallest unused one, adding a registered obstacle or removing an unregistered one changes nothing and returns false, and GetNumObstacles equals the number of registered obstacles.", "quantifier": "every sequence of additions and removals", "why_tests_cant": "Histories are unbounded.", "anchors": ["planner/src/state_validator/obstacle_list_occupancy_map.cpp: FindSmallestIDAvailable, AddObstacle, RemoveObstacle"]}
{"id": "C20", "title": "A cell is occupied exactly when some registered obstacle covers it", "statement": "After any sequence of AddObstacle and RemoveObstacle, IsOccupied holds for a cell exactly when it is a boundary cell of a currently registered obstacle.", "quantifier": "every set of obstacles including overlapping ones, every history", "why_tests_cant": "Violations need overlapping obstacles or moves between calls.", "anchors": ["planner/src/state_validator/obstacle_list_occupancy_map.cpp: AddObstacle, RemoveObstacle, IsOccupied"]}
{"id": "C21", "title": "World, local and grid coordinates convert consistently", "statement": "Converting a cell to a position and back gives the same cell; local and world conversions are inverse to each other; a position converts to the same cell through the local and world frames; and the bounded conversion reports invalid exactly when the cell is outside the grid.", "quantifier": "every resolution, size, map position and cell", "why_tests_cant": "Continuous domain.", "anchors": ["planner/src/state_validator/occupancy_map.h: OccupancyMap conversions", "planner/src/state_validator/occupancy_map.cpp: InitializeSize, IsInsideMap"]}
{"id": "C22", "title": "A position is reported inside the map only if it is inside the map rectangle", "statement": "IsInsideMap of a position holds exactly when the position lies in the rectangle covered by the grid cells.", "quantifier": "every position", "why_tests_cant": "The error is confined to a strip of one cell outside two borders.", "anchors": ["planner/src/state_validator/occupancy_map.h: GridPositionToGridCell", "planner/src/state_validator/occupancy_map.cpp: IsInsideMap"]}
{"id": "C23", "title": "Distance map bookkeeping is always consistent and in bounds", "statement": "After any sequence of obstacle additions, removals and updates on cells of the map, each cell reports either no obstacle and an infinite distance, or an obstacle cell inside the map and exactly the squared distance to that cell; no access leaves the map; obstacle cells report themselves at distance zero.", "quantifier": "every map size, every history of SetObstacle, UnsetObstacle and Update", "why_tests_cant": "Histories and priority-queue orders are unbounded.", "anchors": ["planner/src/state_validator/gvd.cpp: GVD::ObstacleDistanceMap::Update, SetObstacle, UnsetObstacle, IsOccupied"]}
{"id": "C24", "title": "Distance map update terminates", "statement": "Update always terminates, whatever obstacles were added or removed before, and leaves nothing pending.", "quantifier": "every map size and history, every resolution of ties in the queue", "why_tests_cant": "Termination over all histories.", "anchors": ["planner/src/state_validator/gvd.cpp: GVD::ObstacleDistanceMap::Update"]}
{"id": "C25", "title": "After an update every cell refers to an existing obstacle", "statement": "After Update, every cell that reports an obstacle reports a cell that currently is an obstacle, and if at least one obstacle exists every cell of the map reports one; a reported distance is therefore never smaller than the true distance to the nearest obstacle.", "quantifier": "every map size and history", "why_tests_cant": "Removal waves interact with addition waves in history-dependent ways.", "anchors": ["planner/src/state_validator/gvd.cpp: GVD::ObstacleDistanceMap::Update, UnsetObstacle"]}
{"id": "C26", "title": "Distance map reports the exact nearest obstacle distance", "statement": "After Update, the reported distance of each cell is the Euclidean distance to the nearest obstacle cell.", "quantifier": "every map size and set of obstacles", "why_tests_cant": "The propagation is exact for almost all configurations; failures are rare geometric coincidences.", "anchors": ["planner/src/state_validator/gvd.cpp: GVD::ObstacleDistanceMap::Update, GetDistanceToNearestObstacle"]}
{"id": "C27", "title": "The Voronoi path cost lies between zero and one", "statement": "After Update, GetPathCost of each cell lies in [0,1], is 0 at cells farther than the influence distance from obstacles, is 0 on Voronoi edges and 1 on obstacle cells that are not on an edge.", "quantifier": "every obstacle distance and edge distance, every positive alpha and dMax", "why_tests_cant": "Continuous domain with singular points.", "anchors": ["planner/src/state_validator/gvd.cpp: GVD::PathCostMap::Update"]}
{"id": "C28", "title": "Path validation only accepts paths whose clearance is bounded below", "statement": "If IsPathValid accepts a path then every state of the path, not only the sampled ones, has clearance at least the safe radius minus the interpolation step (and the discretization error of the clearance function).", "quantifier": "every path, every clearance function that changes no faster than the distance travelled, every parameter", "why_tests_cant": "Infinitely many intermediate states.", "anchors": ["planner/src/state_validator/state_validator_occupancy_map.cpp: StateValidatorOccupancyMap::IsPathValid, IsStateValid"]}
{"id": "C29", "title": "Path validation reports a safe truncation point", "statement": "IsPathValid terminates, when it rejects a path the reported ratio lies in [0,1] and the state at that ratio is valid if the initial state is valid, and when it accepts the reported ratio is 1.", "quantifier": "every path of finite length, every validity predicate, every positive interpolation step", "why_tests_cant": "All paths and maps.", "anchors": ["planner/src/state_validator/state_validator_occupancy_map.cpp: StateValidatorOccupancyMap::IsPathValid"]}
{"id": "C30", "title": "A valid path ends in a valid state", "statement": "If IsPathValid accepts a path then the final state of the path is valid.", "quantifier": "every path", "why_tests_cant": "Depends on the alignment of the last sample.", "anchors": ["planner/src/state_validator/state_validator_occupancy_map.cpp: StateValidatorOccupancyMap::IsPathValid"]}
{"id": "C31", "title": "Smoothing keeps end points, cusps and headings and reports only safe paths", "statement": "Smooth returns a path with as many poses as its input, with the same headings, with unchanged first and last pose and unchanged cusp poses, and a non-negative status implies that every pose of the result is valid.", "quantifier": "every input path, every set of cusp indices, every parameter, any gradient values", "why_tests_cant": "All inputs; numeric gradients are irrelevant to the claim.", "anchors": ["planner/src/algo/smoother.cpp: Smoother::Smooth, IsPathSafe, CalculateCurvatureTerm"]}
{"id": "C32", "title": "The smoother moves exactly the points at least two samples away from ends and cusps", "statement": "A gradient is accumulated for index k exactly when 2 <= k <= n-3 and no cusp index lies in [k-2, k+2]; all array accesses are in bounds.", "quantifier": "every path length and every set of cusp indices", "why_tests_cant": "The skipping loop has many interacting cases.", "anchors": ["planner/src/algo/smoother.cpp: Smoother::Smooth"]}
{"id": "C33", "title": "Straight paths interpolate and truncate consistently", "statement": "For PathR2 and PathSE2: Interpolate(0) is the initial state, Interpolate(1) the final state; the distance travelled up to ratio r is r times the length; after Truncate(r) the path is the initial part of the old one: Interpolate_new(q) = Interpolate_old(q*r), GetFinalState = Interpolate_old(r) and the length is r times the old one; two truncations compose by multiplication.", "quantifier": "every pair of end states and every ratio", "why_tests_cant": "Continuous domain.", "anchors": ["planner/src/paths/path_r2.cpp: PathR2", "planner/src/paths/path_se2.cpp: PathSE2"]}
{"id": "C34", "title": "Constant-steer paths interpolate and truncate consistently", "statement": "PathConstantSteer satisfies the same interpolation and truncation laws, follows a circle of the radius given by the steering angle or a straight line, and driving d1 then d2 equals driving d1+d2; driving backward undoes driving forward.", "quantifier": "every pose, steering angle, distance, direction and truncation ratio", "why_tests_cant": "Continuous domain.", "anchors": ["planner/src/paths/path_constant_steer.cpp: PathConstantSteer", "planner/src/models/kinematic_bicycle_model.cpp: KinematicBicycleModel::ConstantSteer"]}
{"id": "C35", "title": "Turning radius and steering angle agree", "statement": "The steering angle returned for a radius makes the constant-steer motion turn on a circle of that radius.", "quantifier": "every wheelbase and every radius larger than the centre offset", "why_tests_cant": "Continuous domain.", "anchors": ["planner/src/models/kinematic_bicycle_model.cpp: GetSteeringAngleFromTurningRadius, ConstantSteer"]}
{"id": "C36", "title": "Truncating a Reeds-Shepp path keeps its initial part", "statement": "After Truncate(r) on a Reeds-Shepp path, Interpolate(q) equals the old Interpolate(q*r) for all q and the final state is Interpolate(1).", "quantifier": "every Reeds-Shepp path and every ratio", "why_tests_cant": "Continuous domain; the final state alone looks right.", "anchors": ["planner/src/paths/path_reeds_shepp.cpp: PathReedsShepp::Truncate, Interpolate"]}
{"id": "C37", "title": "Reeds-Shepp paths are continuous and respect the turning radius", "statement": "Interpolating a Reeds-Shepp path starts at the initial pose, ends at the composition of all motions, never moves farther than the travelled length, and turns only on circles of the minimum radius.", "quantifier": "every word, every motion length, every ratio", "why_tests_cant": "Continuous domain.", "anchors": ["planner/src/paths/path_reeds_shepp.cpp: PathReedsShepp::Interpolate, Straight, Turn"]}
{"id": "C38", "title": "Every Reeds-Shepp word offered by the solver reaches the goal", "statement": "For each of the 48 words, if the solver computes finite motion lengths for a start and goal, then driving these motions from the start ends at the goal pose (heading modulo a full turn).", "quantifier": "every start and goal pose, every turning radius, every word", "why_tests_cant": "Twelve trigonometric formulas over a continuous domain.", "anchors": ["planner/src/geometry/reeds_shepp.cpp: LfSfLf .. LfRbpi2SbLbpi2Rf, GetPath, GetMotionLengths, GetGoalArray"]}
{"id": "C39", "title": "The Reeds-Shepp solver returns the best word", "statement": "GetShortestDistance returns the minimum length over all words that apply, GetShortestPath the path of such a word, and GetOptimalPath a path whose cost is minimal among all words that apply.", "quantifier": "every start, goal, radius and cost parameters", "why_tests_cant": "Universally quantified over continuous inputs.", "anchors": ["planner/src/geometry/reeds_shepp.cpp: Solver::GetShortestDistance, GetShortestPath, GetOptimalPath"]}
{"id": "C40", "title": "Reeds-Shepp cost follows its documentation", "statement": "ComputeCost of a path is the forward multiplier times the forward length plus the reverse multiplier times the reverse length plus the switching cost times the number of direction changes.", "quantifier": "every path and every cost parameter", "why_tests_cant": "The shortcut only deviates for particular parameter values.", "anchors": ["planner/src/geometry/reeds_shepp.cpp: PathSegment::ComputeCost", "planner/src/paths/path_reeds_shepp.h: PathReedsShepp::ComputeCost"]}
{"id": "C41", "title": "Time flip and reflection are symmetries", "statement": "TimeflipTransform and ReflectTransform are involutions that commute, preserve length, and map a path to its mirror image: the end pose of the transformed path is the mirrored end pose.", "quantifier": "every path segment", "why_tests_cant": "All motion lists.", "anchors": ["planner/src/geometry/reeds_shepp.cpp: PathSegment::TimeflipTransform, ReflectTransform"]}
{"id": "C42", "title": "Composite paths interpolate their parts in order", "statement": "After any number of PushBack calls, GetLength is the sum of the lengths, Interpolate(r) is the state at the corresponding arc length of the part that contains it, Interpolate(0) and Interpolate(1) are the first and last state, and GetDirection agrees with the part.", "quantifier": "every list of parts, every ratio in [0,1]", "why_tests_cant": "Boundary ratios between parts.", "anchors": ["planner/src/paths/path_composite.h: PathComposite::PushBack, Interpolate, FindSegment", "planner/src/paths/path_composite.cpp: GetDirection"]}
{"id": "C43", "title": "Truncating a composite path keeps its initial part", "statement": "After Truncate(r), Interpolate(q) equals the old Interpolate(q*r), and appending afterwards keeps Interpolate consistent.", "quantifier": "every list of parts, every ratio, every later PushBack", "why_tests_cant": "Needs a particular sequence of calls.", "anchors": ["planner/src/paths/path_composite.h: PathComposite::Truncate, PushBack, FindSegment"]}
{"id": "C44", "title": "Cusp ratios of a composite path mark the direction changes", "statement": "GetCuspPointRatios returns exactly the ratios, relative to the whole path, at which the direction of motion changes.", "quantifier": "every composite path", "why_tests_cant": "Needs Reeds-Shepp parts with inner cusps inside longer paths.", "anchors": ["planner/src/paths/path_composite.cpp: PathSE2CompositeNonHolonomic::GetCuspPointRatios", "planner/src/paths/path_reeds_shepp.cpp: GetCuspPointRatios"]}
{"id": "C45", "title": "Pose composition and difference are inverse", "statement": "For poses a and b, b + (a - b) is a (heading modulo a full turn), composition is associative and has the zero pose as unit; headings of constructed poses lie in [-pi, pi] and differ from the given heading by a multiple of a full turn.", "quantifier": "all poses", "why_tests_cant": "Continuous domain.", "anchors": ["planner/src/geometry/2dplane.h: Pose2 operators +, -, WrapTheta"]}
{"id": "C46", "title": "Equal keys have equal hashes", "statement": "Whenever the equality predicate used by a hash container calls two keys equal (cells, points, poses, planner states), their hashes are equal; both predicates are equivalence relations.", "quantifier": "all keys", "why_tests_cant": "All pairs of keys.", "anchors": ["planner/src/core/hash.h: HashCombine", "planner/src/geometry/2dplane.h: std::hash, std::equal_to", "planner/src/utils/grid.h: std::hash<GridCellPosition>"]}
{"id": "C47", "title": "Modulo and angle wrapping return representatives in range", "statement": "Modulo(x, m) lies in [0, m) and differs from x by an integer multiple of m; WrapAngle lies in [-pi, pi) and differs by a multiple of a full turn.", "quantifier": "every real x and positive m", "why_tests_cant": "Continuous domain.", "anchors": ["planner/src/utils/maths.h: Maths::Modulo", "planner/src/geometry/reeds_shepp.cpp: WrapAngle"]}
{"id": "C48", "title": "State-space bounds are enforced and sampled", "statement": "EnforceBounds yields a state that ValidateBounds accepts, leaves accepted states unchanged and is idempotent; uniform and Gaussian samples are accepted by ValidateBounds.", "quantifier": "every bounds with lower <= upper, every state and every random draw", "why_tests_cant": "Random draws are unbounded.", "anchors": ["planner/src/state_space/state_space_r2.cpp", "planner/src/state_space/state_space_se2.cpp", "planner/src/utils/random.h: Random::SampleUniform"]}
{"id": "C49", "title": "Sampling n states returns n states", "statement": "SampleUniform(n) returns a vector of n states inside the bounds.", "quantifier": "every n", "why_tests_cant": "Out-of-bounds writes may go unnoticed in a run.", "anchors": ["planner/src/state_space/state_space.h: StateSpace::SampleUniform(unsigned int)"]}
{"id": "C50", "title": "The obstacle heuristic stores shortest grid distances", "statement": "After Update, the stored cost of each explored cell is the length of a shortest 8-connected obstacle-avoiding path from the goal cell, and a cell is explored exactly when such a path exists.", "quantifier": "every occupancy grid and goal", "why_tests_cant": "The decrease-key branch matters only in particular grids.", "anchors": ["planner/src/algo/heuristics.cpp: ObstaclesHeuristic::Update"]}
{"id": "C51", "title": "The non-holonomic heuristic only reads its table in bounds", "statement": "GetHeuristicValue never reads outside the table, for any state and goal.", "quantifier": "every goal, state, bounds and resolution", "why_tests_cant": "Out-of-bounds reads may go unnoticed.", "anchors": ["planner/src/algo/heuristics.cpp: NonHolonomicHeuristic::GetHeuristicValue, Build"]}
{"id": "C52", "title": "Hybrid A* cells separate poses", "statement": "Two poses are treated as the same search cell only if their positions differ by less than the spatial resolution per axis and their headings by less than the angular resolution, as documented.", "quantifier": "all pairs of poses, all resolutions", "why_tests_cant": "Needs particular headings.", "anchors": ["planner/src/algo/hybrid_a_star.h: StatePropagator::DiscretizePose, State::Equal", "planner/src/geometry/2dplane.h: Pose2<int>::WrapTheta"]}
{"id": "C53", "title": "Hybrid A* graph search returns driveable, validated motions from start to goal", "statement": "If the graph search of Hybrid A* succeeds, the returned motions start at the initial pose, each starts where the previous ends, each has been accepted by the validator or truncated at the reported valid ratio, and the last ends within the goal tolerance.", "quantifier": "every validator, heuristic, parameter set and random draw", "why_tests_cant": "All maps and random choices.", "anchors": ["planner/src/algo/hybrid_a_star.cpp: StatePropagator::GetNeighborStates, GetConstantSteerChild, GetReedsSheppChild", "planner/src/algo/hybrid_a_star.h: GraphSearch::IsSolution, ProcessPossibleShortcut"]}
{"id": "C54", "title": "Hybrid A* samples the whole path including both ends", "statement": "The sampled path starts at the initial pose, ends at the final pose, and contains every cusp; consecutive samples are at most one and a half interpolation steps apart.", "quantifier": "every path length, interpolation step and set of cusps", "why_tests_cant": "Depends on floating alignment of length and step.", "anchors": ["planner/src/algo/hybrid_a_star.cpp: HybridAStar::SearchPath"]}
{"id": "C55", "title": "Steering inputs stay within the vehicle limit", "statement": "Every steering angle used by the Hybrid A* propagator is at most the angle of the minimum turning radius.", "quantifier": "every number of generated motions", "why_tests_cant": "The default parameter hides the error.", "anchors": ["planner/src/algo/hybrid_a_star.cpp: StatePropagator::StatePropagator"]}
{"id": "C56", "title": "RRT returns a validated path and respects its budgets", "statement": "RRT terminates after at most one iteration more than the iteration budget (below the largest int), its tree never exceeds the node budget by more than one, and on Success GetPath starts at the initial state, each state is reached from its predecessor by a connection that the validator accepted, and it ends within distance one of the goal.", "quantifier": "every sampler, nearest-neighbour answer, validator and budget", "why_tests_cant": "Random draws and oracle answers are unbounded.", "anchors": ["planner/src/algo/rrt.h: RRT::SearchPath, GetPath, SteerTowards, IsSolution", "planner/src/utils/tree.h: Tree::Extend"]}
{"id": "C57", "title": "RRT* only keeps validated connections and correct costs", "statement": "On Success every step of the RRT* path was accepted by the validator and the recorded cost of each node is the cost of its parent plus the length of the connection.", "quantifier": "every sampler, nearest-neighbour answer, validator and budget", "why_tests_cant": "Needs all neighbours to be blocked, or a repeated state.", "anchors": ["planner/src/algo/rrt_star.h: RRTStar::SearchPath, SteerExactly", "planner/src/utils/tree.h: Tree::Extend"]}
{"id": "C58", "title": "Tree nodes keep consistent parent and child links", "statement": "After any sequence of AddChild, RemoveChild, ReplaceChild and Reparent on a tree, each child's parent is the node that owns it, the parent chain ends at a root (no cycles), GetDepth is the number of ancestors, and no node is lost or duplicated, provided a node is not reparented to itself and a node that replaces another and adopts its children has none of its own.", "quantifier": "every tree and every sequence of operations", "why_tests_cant": "Trees and histories are unbounded.", "anchors": ["planner/src/utils/node.h: Node::AddChild, RemoveChild, ReplaceChild, Reparent, GetDepth, IsDescendantOf"]}
{"id": "C59", "title": "The thread-safe singleton constructs one instance", "statement": "Under every interleaving of Get calls, SingletonThreadSafe constructs exactly one instance and all calls return it.", "quantifier": "every number of threads and every interleaving (sequentially consistent memory)", "why_tests_cant": "Schedules cannot be enumerated by testing.", "anchors": ["planner/src/utils/singleton.h: SingletonThreadSafe::Get, Release", "planner/src/utils/singleton.h: Singleton::Get, Init"]}
{"id": "C60", "title": "The profiler writes well-formed traces under any interleaving", "statement": "Under every interleaving of records from any number of threads, begin and end of session, the trace of each closed session is the header, complete records in some order, and the footer.", "quantifier": "every number of threads and every interleaving", "why_tests_cant": "Schedules cannot be enumerated by testing.", "anchors": ["planner/src/debug/profiler.cpp: Profiler::BeginSession, EndSession, WriteProfile, WriteHeader, WriteFooter, InternalEndSession"]}
{"id": "C61", "title": "Profiler names contain no quote and lose only the removed text", "statement": "The cleaned function name never contains a double quote, is not longer than the input, stays inside its buffer, and equals the input with the calling-convention text removed and quotes replaced.", "quantifier": "every input string", "why_tests_cant": "All strings.", "anchors": ["planner/src/debug/profiler.h: ProfilerUtilities::CleanupOutputString"]}
{"id": "C62", "title": "Every gradient term of the smoother is the gradient of its objective", "statement": "The smoothing, collision, Voronoi and curvature terms added to the gradient of a sample are the gradients, at the current position, of the sum of squared second differences, of the squared lack of clearance from the nearest obstacle, of the Voronoi field cost and of the squared excess of curvature over its bound, so that a small step along the negative gradient lowers each of them; a curvature within the bound adds nothing.", "quantifier": "every position of the samples, obstacle and edge, every weight, every positive alpha and dMax", "why_tests_cant": "Real-valued derivatives at every point; a sign or factor error only slows or spoils convergence.", "anchors": ["planner/src/algo/smoother.cpp: Smoother::Smooth, CalculateCurvatureTerm, OrthogonalComplement"]}
{"id": "C63", "title": "The weight on the original path keeps the result near it", "statement": "With a positive weight on the error between requested and optimal path, a gradient step of that term brings a sample nearer to its original position.", "quantifier": "every position, weight and learning rate in (0,1)", "why_tests_cant": "The default weight is zero, so that tests do not exercise the term.", "anchors": ["planner/src/algo/smoother.cpp: Smoother::Smooth line 108", "planner/src/algo/smoother.h: Parameters::pathWeight"]}
{"id": "C64", "title": "Direction and cusps of a Reeds-Shepp path", "statement": "GetDirection(ratio) is the direction in which the car moves at that ratio, and GetCuspPointRatios returns exactly the ratios at which it changes.", "quantifier": "every Reeds-Shepp path and every ratio", "why_tests_cant": "Continuous domain; motions without length, which the solver often returns, are rarely tested.", "anchors": ["planner/src/paths/path_reeds_shepp.cpp: PathReedsShepp::GetDirection, GetCuspPointRatios"]}
{"id": "C65", "title": "The obstacle heuristic never overestimates", "statement": "The value of the obstacle heuristic at a state never exceeds the cost of driving from this state to the goal, and it is always finite.", "quantifier": "every map, goal, state and pair of cost multipliers", "why_tests_cant": "Ranges over all maps and states; an overestimate only shows as a suboptimal plan.", "anchors": ["planner/src/algo/heuristics.cpp: ObstaclesHeuristic::GetHeuristicValue, Update"]}
{"id": "C66", "title": "The non-holonomic heuristic never overestimates", "statement": "The value of the non-holonomic heuristic at a state never exceeds the cost of the optimal Reeds-Shepp path from this state to the goal, under the same cost multipliers.", "quantifier": "every goal, state, bounds, resolution and cost multipliers", "why_tests_cant": "Ranges over a continuum of poses; an overestimate only shows as a suboptimal plan.", "anchors": ["planner/src/algo/heuristics.cpp: NonHolonomicHeuristic::Build, GetHeuristicValue"]}
{"id": "C67", "title": "Planning from the goal succeeds", "statement": "SearchPath of Hybrid A* from an initial pose that already is the goal succeeds, with a path that stays there.", "quantifier": "every parameter set, map, heuristic and pose", "why_tests_cant": "A test fixes one pose and one map; the claim is about all of them, including poses merely within the goal tolerance.", "anchors": ["planner/src/algo/hybrid_a_star.cpp: HybridAStar::SearchPath, GetCompositePath", "planner/src/paths/path_composite.h: PathComposite::Interpolate"]}
{"id": "C68", "title": "A failed Hybrid A* search returns no path", "statement": "After SearchPath reports a failure, GetPath does not return a path of an earlier search.", "quantifier": "every history of searches", "why_tests_cant": "Depends on the history of the planner object, not on one call.", "anchors": ["planner/src/algo/hybrid_a_star.cpp: HybridAStar::SearchPath, GetPath"]}
{"id": "C69", "title": "Hybrid A* terminates", "statement": "The graph search of Hybrid A* ends after finitely many expansions, at most the number of cells within the bounds of the validator plus one.", "quantifier": "every validator bounds, map, heuristic, parameter set and random draw", "why_tests_cant": "Non-termination cannot be observed by a test, and the search space is a continuum of poses.", "anchors": ["planner/src/algo/a_star.h: AStar::SearchPath", "planner/src/algo/hybrid_a_star.cpp: StatePropagator::GetNeighborStates"]}
{"id": "C70", "title": "Hybrid A* charges every part of the transition cost", "statement": "The cost of a motion is its length weighted by direction, plus the switching cost if the direction changes from that of the parent, plus the weighted path cost of the cells along the motion.", "quantifier": "every state, steering, direction, map and parameter set", "why_tests_cant": "A wrong cost only shows as a different, still valid, path.", "anchors": ["planner/src/algo/hybrid_a_star.cpp: StatePropagator::GetConstantSteerChild, GetVoronoiCost"]}
{"id": "C71", "title": "Hybrid A* recognizes the goal pose", "statement": "A state whose pose is the goal is recognized as a solution, however its heading is represented.", "quantifier": "all pairs of equal poses", "why_tests_cant": "Needs headings at the wrap-around.", "anchors": ["planner/src/algo/hybrid_a_star.h: GraphSearch::IsSolution, IdenticalPoses"]}
{"id": "C72", "title": "Hybrid A* motions keep their distance to obstacles", "statement": "Every pose of the motions returned by the graph search of Hybrid A*, and every sample of the path before smoothing, is at least the minimum safe radius, less the interpolation step and the error of the distance map, away from every obstacle.", "quantifier": "every map and history of updates, validator parameters, heuristic, random draw and every pose on the path", "why_tests_cant": "A continuum of poses on paths found by a randomized search over all maps.", "anchors": ["planner/src/algo/hybrid_a_star.cpp: StatePropagator::GetConstantSteerChild, GetReedsSheppChild", "planner/src/state_validator/state_validator_occupancy_map.cpp: IsPathValid"]}
{"id": "C73", "title": "Obstacle shapes are what their names say", "statement": "The polygon of a CircleShape contains the circle and exceeds it by a factor of at most 1/cos(pi/count); a RegularPolygonShape has its vertices on the circle of the radius; a RectangleShape is the rectangle of the given sides; the pose of the obstacle moves the shape rigidly.", "quantifier": "all radii, vertex counts, sides, poses and points of the plane", "why_tests_cant": "A statement about every point of the plane.", "anchors": ["planner/src/state_validator/obstacle.cpp: RegularPolygonShape, RectangleShape, CircleShape, PolygonShape::GetVerticesPosition"]}
{"id": "C74", "title": "The boundary cells of an obstacle follow its outline", "statement": "Every point of the outline of an obstacle that is not next to the border of the map is less than two cells away from a boundary cell, every boundary cell is less than one and a half cells away from the outline, and boundary cells are inside the map, also for composite shapes and for obstacles that leave the map.", "quantifier": "all shapes, poses, resolutions and sizes of the map, and all points of the outline", "why_tests_cant": "A continuum of points, shapes and poses.", "anchors": ["planner/src/state_validator/obstacle.cpp: CompositeShape::GetGridCellsPosition, PolygonShape::GetGridCellsPosition, RasterizeLine"]}
{"id": "C75", "title": "The occupancy matrix and the distance map agree", "statement": "After any history of InitializeSize, SetInitPosition, AddObstacle, RemoveObstacle and updates, a cell is occupied in the matrix exactly if the distance map regards it as an obstacle, and exactly if an added obstacle drew it and no later removal or resizing cleared it. Without removals, an update makes the map report, for each cell, such a cell and its distance.", "quantifier": "all histories of calls, shapes, poses, tie-breaking of the queues", "why_tests_cant": "Ranges over all histories of two data structures that are updated separately.", "anchors": ["planner/src/state_validator/obstacle_list_occupancy_map.cpp: AddObstacle, RemoveObstacle, InitializeSize", "planner/src/state_validator/gvd.cpp: GVD, SetObstacle, UnsetObstacle, Update"]}
{"id": "C76", "title": "Accepted paths keep their distance from the outlines of obstacles", "statement": "Every pose of a path accepted by IsPathValid on an updated map, and every pose of the motions found by Hybrid A*, is at least the minimum safe radius, less the step and the discretization errors, away from every point of the outline of every obstacle that was added and stayed.", "quantifier": "all histories, obstacles, paths of unit speed, validator parameters and poses on the path", "why_tests_cant": "Connects the drawing of obstacles, the distance map, the validator and the search for every input.", "anchors": ["planner/src/state_validator/state_validator_occupancy_map.cpp: IsPathValid", "planner/src/state_validator/obstacle.cpp: GetBoundaryGridCellPosition", "planner/src/algo/hybrid_a_star.cpp: HybridAStar::SearchPath"]}
{"id": "C77", "title": "Accepted paths are not inside obstacles", "statement": "No pose of a path accepted by IsPathValid is inside an obstacle.", "quantifier": "all histories, obstacles, accepted paths and poses on them", "why_tests_cant": "A continuum of poses; obstacles far larger than the safe radius are needed.", "anchors": ["planner/src/state_validator/state_validator_occupancy_map.cpp: IsPathValid", "planner/src/state_validator/obstacle.cpp: GetBoundaryGridCellPosition"]}
{"id": "C78", "title": "A planned path leads from start to goal and keeps clear of obstacles", "statement": "If HybridAStar::SearchPath returns Success, after any history of calls in which the planner was initialized with a validator and the map was not resized since, then GetPath starts at the initial pose, ends within one and a half interpolation steps of the goal, and each of its poses keeps the minimum safe radius, less the step and the discretization errors, from the outline of every obstacle that was added to the map and stayed.", "quantifier": "all histories of calls on the map, its validators and the planner (including earlier searches), all parameters, random draws and tie-breaking", "why_tests_cant": "Composes all parts of the library over every history of calls.", "anchors": ["planner/src/algo/hybrid_a_star.cpp: HybridAStar::Initialize, HybridAStar::SearchPath", "planner/src/state_validator/state_validator_occupancy_map.cpp: IsPathValid, IsStateValid", "planner/src/algo/smoother.cpp: Smoother::Smooth"]}
{"id": "C79", "title": "A planner that is not initialized fails without effect", "statement": "SearchPath of a planner that was never initialized with a validator, or whose last Initialize was given a null pointer, returns Failure and changes neither the path, the map nor the random generator; before any initialization the path is empty.", "quantifier": "all histories of calls", "why_tests_cant": "Ranges over all histories.", "anchors": ["planner/src/algo/hybrid_a_star.cpp: HybridAStar::SearchPath, HybridAStar::Initialize"]}
{"id": "C80", "title": "Smoother parameters stay as set", "statement": "The parameters given to SetSmootherParameters are the ones that SearchPath uses.", "quantifier": "all histories of calls", "why_tests_cant": "Ranges over all histories.", "anchors": ["planner/src/algo/hybrid_a_star.h: SetSmootherParameters", "planner/src/algo/hybrid_a_star.cpp: HybridAStar::Initialize", "planner/src/algo/smoother.cpp: Smoother::Initialize"]}
{"id": "C81", "title": "Making a validator keeps the obstacles", "statement": "Constructing a StateValidatorOccupancyMap for a map keeps the obstacles that are on the map; obstacles added to the map are on it.", "quantifier": "all histories of calls on the map, its validators and the planner", "why_tests_cant": "Ranges over all histories; a single order of construction hides it.", "anchors": ["planner/src/state_validator/state_validator_occupancy_map.cpp: StateValidatorOccupancyMap::StateValidatorOccupancyMap", "planner/src/state_validator/obstacle_list_occupancy_map.cpp: InitializeSize, AddObstacle", "planner/src/state_validator/occupancy_map.cpp: InitializeSize"]}
{"id": "C82", "title": "A search after resizing the map keeps clear of obstacles", "statement": "If the map takes a new size after HybridAStar::Initialize, a later successful SearchPath still returns a path that keeps clear of the obstacles on the map.", "quantifier": "all histories of calls, with any number of resizes between Initialize and the search", "why_tests_cant": "Needs a stale distance map together with obstacles added later.", "anchors": ["planner/src/algo/hybrid_a_star.cpp: HybridAStar::Initialize, HybridAStar::SearchPath", "planner/src/state_validator/occupancy_map.cpp: InitializeSize", "planner/src/state_validator/gvd.cpp: GVD"]}
{"id": "C83", "title": "A repeated search gives the same path", "statement": "Calling SearchPath again, with nothing changed and the random generator in the same state, returns the same status and the same path and leaves the map and the planner as they were.", "quantifier": "all histories of calls before the first of the two searches in which the map was not resized since Initialize; all parameters and draws", "why_tests_cant": "Left-over state from any earlier search or map change could leak into the result.", "anchors": ["planner/src/algo/hybrid_a_star.cpp: HybridAStar::SearchPath", "planner/src/algo/heuristics.cpp: ObstaclesHeuristic::Update", "planner/src/state_validator/gvd.cpp: GVD::Update"]}
{"id": "C84", "title": "SearchPath accepts every heading of start and goal", "statement": "SearchPath stays within the table of its heuristic and returns, whatever the headings of the initial pose and of the goal.", "quantifier": "all histories of calls, all poses of start and goal, all parameters", "why_tests_cant": "The read outside of the table is undefined behaviour, which a test run may not show.", "anchors": ["planner/src/algo/hybrid_a_star.cpp: HybridAStar::SearchPath", "planner/src/algo/heuristics.cpp: NonHolonomicHeuristic::GetHeuristicValue"]}
{"id": "C85", "title": "A successful search starts at a valid pose", "statement": "If SearchPath reports success, the validator accepts the initial pose (its heading up to full turns) on the map as it is after the search.", "quantifier": "all histories of calls on the map, its validators and the planner; all parameters, maps and draws", "why_tests_cant": "Ranges over all maps and all ways to leave the start.", "anchors": ["planner/src/algo/hybrid_a_star.cpp: HybridAStar::SearchPath, GetConstantSteerChild, GetReedsSheppChild", "planner/src/state_validator/state_validator_occupancy_map.cpp: IsStateValid, IsPathValid"]}
{"id": "C86", "title": "The picture of the obstacle heuristic shows the distances to the goal", "statement": "Once the planner is initialized, VisualizeObstacleHeuristic writes a well-formed PPM picture. After a search, it has one pixel per cell of the map: black for cells from which the goal cannot be reached, otherwise the darker the longer the walk around the obstacles, in proportion; the farthest cells are black too, and if the goal is outside the map all are. Before initialization, it uses a null pointer.", "quantifier": "all histories of calls on the map and the planner, all goals, all cells", "why_tests_cant": "Ranges over all maps, goals and histories, and pictures are not compared in tests.", "anchors": ["planner/src/algo/hybrid_a_star.cpp: HybridAStar::VisualizeObstacleHeuristic", "planner/src/algo/heuristics.cpp: ObstaclesHeuristic::Visualize"]}
{"id": "C87", "title": "Queries of the Voronoi diagram at positions", "statement": "Right after an update, GetNearestObstaclePosition, GetNearestVoronoiEdgePosition, GetDistanceToNearestObstacle, GetDistanceToNearestVoronoiEdge and GetPathCost return true exactly at the positions inside the map. The distance to the nearest obstacle exceeds that of each cell covered by an obstacle by at most 9 %, measured from the cell of the position. If obstacles exist and none was removed, the position reported is that of a covered cell at this distance; without any obstacle the query still returns true, with a position outside the map. The distance to the nearest edge is that of the position reported. The path cost is between 0 and 1, 1 on obstacles and 0 on edges and from the maximum distance on.", "quantifier": "all histories of calls on the map, all positions, all parameters of the diagram", "why_tests_cant": "Ranges over all maps, histories and positions.", "anchors": ["planner/src/state_validator/gvd.cpp: GVD::GetNearestObstaclePosition, GetNearestVoronoiEdgePosition, GetDistanceToNearestObstacle, GetDistanceToNearestVoronoiEdge, GetPathCost"]}
{"id": "C88", "title": "The picture of the Voronoi diagram", "statement": "Right after an update, Visualize writes a well-formed PPM picture with one pixel per cell of the map. Covered cells are black, and all are if there is no obstacle. If nothing was removed, each other cell has the hue of the number of the obstacle nearest to it and the brightness that its path cost leaves; obstacles of different numbers have different hues.", "quantifier": "all histories of calls on the map, all cells, all parameters of the diagram", "why_tests_cant": "Ranges over all maps and histories, and pictures are not compared in tests.", "anchors": ["planner/src/state_validator/gvd.cpp: GVD::Visualize, HSVToRGB"]}
{"id": "C89", "title": "Memory safety of the graph search", "statement": "One search object may be used for any number of searches, with changing starts, goals, heuristics and propagators. Each search and the queries after it (GetPath, GetActions, GetOptimalCost) give what a fresh search with immutable nodes gives. No deleted node and no null pointer is dereferenced. After a search, all pointers held by the object are those of nodes that are alive, and these are exactly the nodes owned by the root of the current tree; the destructor leaves none.", "quantifier": "all sequences of searches, all state and action types, equalities, cost orders, heuristics, propagators, graph and tree search", "why_tests_cant": "Use after free and leaks depend on the order of expansions and on shortcuts; a test sees a few of them.", "anchors": ["planner/src/algo/a_star.h: AStar::InitializeSearch, SearchPath, Expand, ProcessPossibleShortcut, GetPath, GetActions, GetOptimalCost", "planner/src/utils/node.h: Node::AddChild, GetDepth, ~Node"]}
{"id": "C90", "title": "Paths explored by the search", "statement": "After a search, the set of explored paths has the action of each node of the tree but the root. Each action was offered by the propagator for the start or for a state that an explored action leads to. The actions of the solution are among them, and one leading to each expanded state. For Hybrid A*, each explored path was accepted by the validator, can be driven, goes on from the start or from the end of another explored path, and keeps the clearance of the paths that are found.", "quantifier": "all sequences of searches, all maps and parameters", "why_tests_cant": "Ranges over all searches; the explored set is large and is only drawn.", "anchors": ["planner/src/algo/hybrid_a_star.cpp: GraphSearch::GetExploredPathSet, HybridAStar::GetGraphSearchExploredPathSet", "planner/src/utils/node.h: Node::PreOrderTraversal"]}
{"id": "C91", "title": "Graph search with costs in double precision", "statement": "With IEEE-754 double precision costs that are nonnegative or infinite (no NaN) and a nonnegative finite heuristic, the graph search makes no undefined access; a path it returns leads to a solution along transitions that were offered, and the cost it returns is the sum along that path, off by a relative error of at most 2^-53 per step; if it fails no solution is reachable; and without a heuristic no path to any solution has a smaller sum of doubles.", "quantifier": "all graphs, all doubles as costs, all heuristics", "why_tests_cant": "Rounding and overflow to infinity make addition non-associative; which sums tie depends on the exact bits of the costs.", "anchors": ["planner/src/algo/a_star.h: AStar::SearchPath, Expand, GetOptimalCost", "planner/src/utils/frontier.h: Frontier"]}
{"id": "C92", "title": "A consistent heuristic gives a cheapest path in double precision", "statement": "With costs in double precision and a heuristic that is consistent in exact arithmetic and zero at solutions, the path returned by the graph search has the least cost of all paths to solutions.", "quantifier": "all graphs, all doubles as costs, all consistent heuristics", "why_tests_cant": "A counterexample needs a heuristic large enough to absorb the difference of two costs.", "anchors": ["planner/src/algo/a_star.h: AStar::SearchPath, AStarHeuristic"]}
{"id": "C93", "title": "Grid A* with measured distances returns a nearly shortest path", "statement": "On an occupancy grid with N cells, A* in double precision, with the distance of neighbours as cost and the distance to the goal as heuristic, each measured with a relative error of at most 2^-51, returns an obstacle-avoiding path whose exact length is at most (1 + 60 N / 2^53) times that of any other. For Euclidean distances computed as the rounded square root of the sum of squares this needs nothing but a bound on the size of the map.", "quantifier": "all maps, all metrics, all starts and goals", "why_tests_cant": "Ranges over all maps and all paths, and over all roundings.", "anchors": ["planner/src/algo/a_star_n2.h: AStarN2, AStarStatePropagatorFcnN2", "planner/src/algo/a_star.h: AStar::SearchPath"]}
{"id": "C94", "title": "Paths of the graph search visit no state twice", "statement": "The states of a path returned by the graph search are pairwise different, whatever the costs and the heuristic; so its length is bounded by the number of reachable states, on a grid by the number of cells. The start and the ends of the motions returned by the graph search of Hybrid A* are in pairwise different cells of its discretization.", "quantifier": "all graphs, cost orders, heuristics and propagators", "why_tests_cant": "Ranges over all graphs and all costs, including negative ones and inconsistent heuristics.", "anchors": ["planner/src/algo/a_star.h: AStar::Expand, SearchPath, GetPath", "planner/src/algo/hybrid_a_star.h: HybridAStar::State"]}
{"id": "C95", "title": "No Reeds-Shepp curve is shorter or cheaper than the path of the solver", "statement": "Every curve of one of the 48 families of Reeds and Shepp, with lengths in the ranges of their theorem, that leads from the start to the goal is at least as long as the distance of the solver; and, if its inner motions have a length, it costs at least as much as the optimal path, for all multipliers and costs of a change of direction.", "quantifier": "all starts, goals, turning radii, multipliers and all curves", "why_tests_cant": "Each formula solves a system of equations with several branches; a missed branch shows only for some poses, and no test knows the shortest curve otherwise.", "anchors": ["planner/src/geometry/reeds_shepp.cpp: Solver::GetShortestDistance, GetOptimalPath, GetMotionLengths, LfSfLf ... LfRbpi2SbLbpi2Rf"]}
{"id": "C96", "title": "Laws of the Reeds-Shepp distance", "statement": "The Reeds-Shepp distance is symmetric, never negative, zero exactly between equal poses, and at least the change of heading; it does not depend on the writing of the headings (full turns), the placement of both poses in the plane, the unit of length, the side the cars are mirrored to, and is the same if both face the other way.", "quantifier": "all poses and turning radii", "why_tests_cant": "Symmetry relates different words on both sides, with corner cases on the borders of the ranges of angles.", "anchors": ["planner/src/geometry/reeds_shepp.cpp: Solver::GetShortestDistance, GetGoalArray"]}
{"id": "C97", "title": "Which states a search explores", "statement": "The explored states reported after a search are the initial state and the states that were given to the state propagator, each once; all states of the path but the last are among them. If the search fails they are exactly the states that can be reached. If it succeeds with a consistent heuristic, every explored state has a way to it whose cost and heuristic are at most the cost found, and every state with a way below that cost is explored; so a larger consistent heuristic explores no more, ties aside. The same holds for the cells of a grid.", "quantifier": "all state spaces, propagators, costs, heuristics, maps and searches that return", "why_tests_cant": "It compares the set of explored states with all paths of the state space.", "anchors": ["planner/src/algo/a_star.h: AStar::GetExploredStates, SearchPath, InitializeSearch, Expand", "interfaces/python/src/pyplanning.cpp: explored states of PyAStarN2"]}
{"id": "C98", "title": "Integer arithmetic does not overflow on maps of usual size", "statement": "On maps of at most 32768 by 32768 cells no operation on int overflows: a grid is made, read and written, neighbours are listed and squared distances are computed with the mathematical results. The exact limits are the number of cells for grids and the squared diagonal for distance maps, up to the largest int; the edges of obstacles may lie anywhere with both differences of the coordinates up to the largest int.", "quantifier": "all map sizes, cells and end points of edges", "why_tests_cant": "Tests use small maps; the limits depend on products of sizes.", "anchors": ["planner/src/utils/grid.h: Grid", "planner/src/utils/grid.cpp: GetNeighbors, IsAdjacentTo", "planner/src/state_validator/obstacle.cpp: Shape::RasterizeLine", "planner/src/state_validator/gvd.cpp: SquaredDistance, CheckVoro"]}
{"id": "C99", "title": "Which states bidirectional A* explores", "statement": "The two sets of explored states of bidirectional A* hold the start of each search and the states given to its propagator, each once, and only states that the search can reach. After a success every state of the path is in one of them and the meeting state in both; after a failure no state is in both, and one of the sets is all that its search can reach.", "quantifier": "all state spaces, propagators, costs, heuristics and searches that return", "why_tests_cant": "It speaks about all explored states and all reachable states of any state space.", "anchors": ["planner/src/algo/bidirectional_a_star.h: GetExploredStates, SearchPath, FindIntersection, GetPath", "interfaces/python/src/pyplanning.cpp: PyBidirectionalAStarN2"]}
{"id": "C100", "title": "When the random tree planners find a path", "statement": "In the plane, if the discs around a chain of points from the initial state to the goal are free, RRT returns Success as soon as its samples have visited smaller discs around these points in order, whatever the other samples are and as long as the budgets allow. RRT* does so too if the last of these samples is the goal. Hence for every clear curve from the initial state to the goal there are finitely many discs of positive radius such that visiting them in order is enough.", "quantifier": "all obstacle layouts, validators that accept free segments, routes, sample sequences, exact nearest neighbour searches, maximum connection distances and sufficient budgets", "why_tests_cant": "A random planner that misses solutions for some sample sequences cannot be told from an unlucky one by running it.", "anchors": ["planner/src/algo/rrt.h: SearchPath, SteerTowards, IsSolution", "planner/src/algo/rrt_star.h: SearchPath, SteerTowards, IsSolution", "planner/src/utils/tree.h: GetNearestNode, Extend"]}
{"id": "C101", "title": "Bidirectional A* with costs in double precision", "statement": "With transition costs between 0 and 2^900 and estimates that are numbers of magnitude at most 2^900 or plus infinity, the bidirectional search computed in doubles makes no undefined access, ends on finite graphs, returns on Success two paths that meet with a finite cost that is exact up to a relative error of 2^-53 per addition, and reports Failure only if the goal cannot be reached; sums never overflow, however long the path. The average of two estimates of magnitude at most 2^898 is such an estimate, also where the estimate to the goal is infinite.", "quantifier": "all state spaces, transition costs, heuristics (also negative and infinite), graph and tree search, path lengths", "why_tests_cant": "Overflow, absorption and the order of infinite keys only appear for particular magnitudes and lengths; a test fixes a few.", "anchors": ["planner/src/algo/bidirectional_a_star.h: SearchPath, FindIntersection, AverageHeuristic::GetHeuristicValue, AverageHeuristic::Update, GetOptimalCost", "planner/src/algo/a_star.h: Expand"]}
{"id": "C102", "title": "The tree of states stays consistent whatever the sequence of calls", "statement": "After any sequence of legitimate calls (root created in an empty tree, pointers to nodes of the tree) the nodes alive are exactly those the root owns, no two have equal states, and the map and the k-d tree hold exactly these nodes; so every further legitimate call follows no dangling or null pointer and fails no assertion. Extend returns the node already at the state or adds exactly one node below the given or nearest node and changes no other; the nearest-node queries return nodes of the tree, none left out being nearer; Reparent keeps nodes, states and size; Size is the number of nodes; Clear leaves none.", "quantifier": "all state types and equalities that are equivalences, all answers of the k-d tree within range (exact ones for nearness), all sequences of calls", "why_tests_cant": "Three structures hold pointers to the same nodes; a dangling pointer appears only after particular sequences of calls and is silent until the memory is reused.", "anchors": ["planner/src/utils/tree.h: Tree::CreateRootNode, Extend, GetNearestNode, GetNearestNodes, Reparent, Clear, Size, BelongToTree", "planner/src/utils/node.h: Node::Reparent"]}
{"id": "C103", "title": "A random planner can be used again, and follows no dangling pointer", "statement": "However often an RRT or RRT* planner has searched before, with whatever starts, goals, parameters and samples, what a user sees of the next search and of the path queried after it (status, path, number of nodes and iterations) is what a new planner would give. Searching and querying the path, also after a failure, accesses no destroyed node and no null pointer; a success gives a path from the start to a solution, a failure an empty path.", "quantifier": "all histories of searches, state types, samples, validators, connections, answers of the k-d tree within range, budgets below the largest int", "why_tests_cant": "A pointer kept from an earlier search dangles silently; the histories and the random samples are unbounded.", "anchors": ["planner/src/algo/rrt.h: SearchPath, GetPath, Clear", "planner/src/algo/rrt_star.h: SearchPath, GetPath, Clear", "planner/src/utils/tree.h: Tree"]}
{"id": "C104", "title": "A bidirectional search object can be used again and its pointers stay valid", "statement": "Any sequence of searches by one bidirectional A* object, with queries of path, cost and explored states after each, answers what fresh searches would answer, dereferences no deleted node and no null pointer, keeps solutions that are living nodes of their own search, and deletes all nodes when destroyed. The nodes handed out by GetExploredStates live until the next search and no longer.", "quantifier": "all histories of searches, graphs, heuristics, cost types, starts and goals", "why_tests_cant": "Use after free is silent and depends on the history of searches and on which nodes were replaced or merged.", "anchors": ["planner/src/algo/bidirectional_a_star.h: BidirectionalAStar::SearchPath, GetPath, GetOptimalCost, GetExploredStates, FindIntersection", "planner/src/algo/a_star.h: AStar, ExploredMap", "planner/src/utils/node.h: Node"]}
{"id": "C105", "title": "The records of the profiler nest as the profiled scopes do", "statement": "However profiled scopes are nested in a thread, each gives one record when it ends, and if the clock does not go back the times of any two records are disjoint or nested, as the scopes are, with durations that are not negative. With calls of Stop, there is one record for each call and one for each timer not stopped by then.", "quantifier": "all nestings of scopes, clocks, threads", "why_tests_cant": "The nestings are unbounded and the clock readings are arbitrary.", "anchors": ["planner/src/debug/profiler.h: ProfilingTimer, PP_PROFILE_SCOPE, PP_PROFILE_FUNCTION"]}
{"id": "C106", "title": "Smoothing for smoothness alone never makes a path bend more, and converges", "statement": "With a positive smoothWeight, all other weights zero and learningRate * smoothWeight at most 1/8, the path returned by Smooth has a sum of squared second differences that is at most that of the given path. If the bound on the iterations ends the run, every iteration but the last lowered it by an amount that depends on the tolerance only, so that with enough iterations Smooth stops because of the tolerance.", "quantifier": "every path, set of cusps, map, weight, learning rate within the bound, tolerance and number of iterations", "why_tests_cant": "An inequality between real-valued paths of any length after any number of iterations.", "anchors": ["planner/src/algo/smoother.cpp: Smoother::Smooth", "planner/src/algo/smoother.h: Parameters::smoothWeight, learningRate, stepTolerance, maxIterations"]}
{"id": "C107", "title": "Smoothing is gradient descent on one cost of the whole path", "statement": "Each iteration of Smooth moves every sample that is two samples away from the ends and the cusps by learningRate times the negative gradient, with respect to that sample, of one cost of the path: distance to the original path (with the sign of the code), squared lack of distance below minSafeRadius * (1 + collisionRatio) to the nearest obstacle, Voronoi field with alpha 20 and dMax 30, squared excess of curvature, and squared second differences, each with its weight; the other samples follow the curvature part. When the tolerance ends the run, the gradients of the last iteration are shorter than the tolerance.", "quantifier": "every path, set of cusps, map, parameters, and iteration at whose samples the cost is differentiable", "why_tests_cant": "Derivatives of a real-valued cost for paths of any length; the terms of neighbouring samples overlap.", "anchors": ["planner/src/algo/smoother.cpp: Smoother::Smooth, CalculateCurvatureTerm", "planner/src/algo/smoother.h: Parameters"]}
{"id": "C108", "title": "Samples near an obstacle are not modified by the smoother", "statement": "A sample within minCollisionDist * (1 + collisionRatio) of the nearest obstacle is not modified by Smooth (documentation of Parameters::collisionRatio).", "quantifier": "every path, map and parameters", "why_tests_cant": "Ranges over all maps and paths.", "anchors": ["planner/src/algo/smoother.h: Parameters::collisionRatio", "planner/src/algo/smoother.cpp: Smoother::Smooth lines 110-115"]}
{"id": "C109", "title": "A step smaller than the tolerance ends the iterations", "statement": "If the solver is about to take a step that is smaller than stepTolerance, the iterations end (documentation of Parameters::stepTolerance).", "quantifier": "every path, map and parameters", "why_tests_cant": "Ranges over all runs.", "anchors": ["planner/src/algo/smoother.h: Parameters::stepTolerance", "planner/src/algo/smoother.cpp: Smoother::Smooth lines 85-150"]}
{"id": "C110", "title": "Planners may share heuristic objects", "statement": "Whatever was called before on any number of planners that hold the same heuristic objects (functions, maxima, adapters), a search of an A* planner returns the status, path and cost that it would return if nobody else held its heuristic: the estimates are for its own goal. A bidirectional planner follows its pointers to averaged heuristics only while it also owns them.", "quantifier": "every history of calls on any number of planners and heuristics, every nesting of heuristics in which a function is reached in one way", "why_tests_cant": "Ranges over all histories of calls and all ways to share objects.", "anchors": ["planner/src/algo/a_star.h: AStarHeuristic, AStarConcreteHeuristicFcn, AStarCombinedHeuristic, AStarHeuristicAdapter, AStar::Initialize, AStar::InitializeSearch", "planner/src/algo/bidirectional_a_star.h: BidirectionalAStar::Initialize, SearchPath, GetAverageHeuristicPair, AverageHeuristic"]}
{"id": "C111", "title": "The two directions of a bidirectional search may be given the same heuristic", "statement": "A bidirectional search uses, in each direction, the estimates for the goal of that direction, whether or not the two directions were given the same heuristic object.", "quantifier": "every history of calls on any number of planners and heuristics", "why_tests_cant": "Ranges over all histories of calls and all ways to share objects.", "anchors": ["planner/src/algo/a_star.h: AStarHeuristic, AStarConcreteHeuristicFcn, AStarCombinedHeuristic, AStarHeuristicAdapter, AStar::Initialize, AStar::InitializeSearch", "planner/src/algo/bidirectional_a_star.h: BidirectionalAStar::Initialize, SearchPath, GetAverageHeuristicPair, AverageHeuristic"]}
{"id": "C112", "title": "Averaged heuristics are about the current search", "statement": "A bidirectional search given an averaged heuristic estimates the costs of the current search: the result does not depend on goals of earlier searches or on memory that was never set.", "quantifier": "every history of calls, every pair of heuristics", "why_tests_cant": "Ranges over all histories of calls; a value that was never set is often zero in a test.", "anchors": ["planner/src/algo/a_star.h: AStarHeuristic, AStarConcreteHeuristicFcn, AStarCombinedHeuristic, AStarHeuristicAdapter, AStar::Initialize, AStar::InitializeSearch", "planner/src/algo/bidirectional_a_star.h: BidirectionalAStar::Initialize, SearchPath, GetAverageHeuristicPair, AverageHeuristic"]}
{"id": "C113", "title": "Grid paths do not cross the outlines of obstacles", "statement": "A path found by A* or bidirectional A* on an occupancy grid between free cells stays on one side of the outline drawn for each polygon of every registered obstacle: the line through the centres of its cells does not meet the outline, and a goal on the other side is never reached.", "quantifier": "every map, every polygon (also partly outside the map), every cost function and heuristic, every pair of free cells", "why_tests_cant": "Ranges over all polygons and paths; a leak shows only where a diagonal step meets a diagonal piece of an outline.", "anchors": ["planner/src/algo/a_star_n2.cpp: AStarStatePropagatorFcnN2::GetNeighborStates", "planner/src/state_validator/obstacle.cpp: PolygonShape::RasterizeLine, PolygonShape::GetGridCellsPosition", "planner/src/state_validator/obstacle_list_occupancy_map.cpp: ObstacleListOccupancyMap::AddObstacle"]}
{"id": "C114", "title": "Tree search ends exactly as far as paths end", "statement": "If no path from the initial state is longer than some bound, SearchPath ends after at most as many expansions as there are paths, with and without GraphSearch. With GraphSearch set to false, if some path goes on for ever (for instance around a cycle) and no solution can be reached, SearchPath never returns, although only finitely many states may be reachable.", "quantifier": "every propagator, heuristic and cost type", "why_tests_cant": "A test cannot tell a search that never returns from a slow one, nor cover all state spaces.", "anchors": ["planner/src/algo/a_star.h: AStar (GraphSearch=false), SearchPath, Expand", "planner/src/utils/frontier.h: Frontier::Push"]}
{"id": "C115", "title": "The explored container of A*", "statement": "Explored and ExploredMap give the same result and the same calls of the propagator. Without GraphSearch the container makes no difference. Whatever the container, Success means a real path with its real cost. With ExploredVoid, Failure still means that no solution can be reached, and with GraphSearch an admissible heuristic, even if inconsistent, gives a cheapest path; but the search never returns if a path goes on for ever and no solution can be reached.", "quantifier": "every container, propagator, heuristic and cost type", "why_tests_cant": "Ranges over all containers and state spaces, and over searches that never return.", "anchors": ["planner/src/algo/a_star.h: Explored, ExploredMap, ExploredVoid, AStar (ExploredContainer), SearchPath, Expand"]}
{"id": "C116", "title": "Random generators exist before they are used", "statement": "No state space or planner draws a number from a random generator that does not exist, whatever objects a program makes and in whatever order it uses them; and the numbers of one type that a program draws are the first ones of one sequence, which no later object restarts.", "quantifier": "every sequence of making state spaces, making planners, sampling and searching", "why_tests_cant": "Ranges over all histories of a program; the demos only make state spaces of doubles.", "anchors": ["planner/src/utils/random.h: Init, SampleUniform, SampleGaussian", "planner/src/state_space/state_space.h: StateSpace", "planner/src/algo/rrt.h: RRT", "planner/src/algo/rrt_star.h: RRTStar", "planner/src/algo/hybrid_a_star.cpp: GetNeighborStates"]}
{"id": "C117", "title": "A* in infinite state spaces", "statement": "If the costs grow beyond every bound along long paths, in particular if no step costs less than some positive number and no estimate is negative, a search to which a solution is reachable returns Success, even if there are infinitely many states. If a path meets new states for ever below the cost of every solution, the search never returns. Failure is only returned after every reachable state has been given to the propagator. On the integer plane of the unit test every search returns a path of least cost.", "quantifier": "every state space, propagator, heuristic and cost type; graph and tree search; every start and goal of the plane", "why_tests_cant": "A test runs finitely many searches; this is about whether a search returns at all in an infinite space.", "anchors": ["planner/src/algo/a_star.h: SearchPath, Expand, ProcessPossibleShortcut", "planner/tests/test_a_star.cpp", "planner/tests/state_space/a_star_state_space_2d.h"]}
{"id": "C118", "title": "Bidirectional A* in infinite state spaces", "statement": "If no forward step costs less than some positive number, no forward estimate is negative, reverse steps cost at least 0 and forward steps can be taken back, a bidirectional search whose goal is reachable returns Success, even if there are infinitely many states, whatever the reverse heuristic. It is not enough that every step costs something: if on both sides cheap paths meet new states for ever, the search never returns. On the integer plane of the unit tests every search returns a path whose cost exceeds the least one by at most two diagonal steps.", "quantifier": "every state space, pair of propagators and heuristics; graph and tree search; every start and goal of the plane", "why_tests_cant": "A test runs finitely many searches; this is about whether a search returns at all in an infinite space.", "anchors": ["planner/src/algo/bidirectional_a_star.h: SearchPath, FindIntersection, AverageHeuristic"]}
{"id": "C119", "title": "Bidirectional A* on occupancy grids", "statement": "For every start and goal on the map, a bidirectional grid search returns, succeeds exactly if A* does, that is, if an obstacle-avoiding walk from the start to the goal exists, and returns such a walk. Its cost exceeds that of no walk by more than one of its steps and the change of the estimate along that step, if the heuristics are consistent and add up to a constant.", "quantifier": "every map size, occupancy, symmetric step cost, heuristics, start and goal", "why_tests_cant": "There are infinitely many maps, and tests only run searches between free cells of a few of them.", "anchors": ["planner/src/algo/a_star_n2.h: BidirectionalAStarN2, AStarStatePropagatorFcnN2", "planner/src/algo/bidirectional_a_star.h: SearchPath"]}
{"id": "C120", "title": "Straight paths in double precision", "statement": "Interpolating a straight path between two finite states with a ratio in [0, 1] gives exactly the first state at 0 and exactly the second one at 1, in between a state whose coordinates lie between those of the two, and the point of the segment up to rounding. Truncating to ratio 1 changes nothing.", "quantifier": "all finite double-precision coordinates and ratios", "why_tests_cant": "Rounding errors depend on the operands; there are 2^192 of them.", "anchors": ["planner/src/paths/path_r2.cpp: PathR2::Interpolate, Truncate", "planner/src/paths/path_se2.cpp: PathSE2::Interpolate, Truncate"]}
{"id": "C121", "title": "Headings in double precision", "statement": "In double precision, WrapTheta returns for every heading of at most 2^53 radians a heading in [-M_PI, M_PI] that differs from it by full turns and a bounded rounding error, exactly one turn at most for headings up to 3 M_PI; Modulo by a positive number m returns a number in [0, m] that is the remainder up to a rounding error of 2^-53 m, and exactly the remainder for numbers that are not negative.", "quantifier": "all finite double-precision numbers, within the stated bounds", "why_tests_cant": "The number of rounds, and with it the error, depends on the heading, and 2 * M_PI is not a double multiple of the rounding unit of large headings.", "anchors": ["planner/src/geometry/2dplane.h: Pose2::WrapTheta, operator+", "planner/src/utils/maths.h: Modulo", "planner/src/geometry/reeds_shepp.cpp: WrapAngle"]}
{"id": "C122", "title": "Bounds of a state space in double precision", "statement": "In double precision, a state that ValidateBounds accepts, a uniform sample and a Gaussian sample lie within the bounds of the state space.", "quantifier": "all double-precision bounds, states and draws", "why_tests_cant": "The draws are random and the roundings depend on the bounds; the offending draws are rare.", "anchors": ["planner/src/utils/random.h: SampleUniform, SampleGaussian", "planner/src/state_space/state_space_r2.cpp: EnforceBounds, ValidateBounds, SampleUniform, SampleGaussian", "planner/src/state_space/state_space_se2.cpp: EnforceBounds, ValidateBounds, SampleUniform, SampleGaussian"]}
{"id": "C123", "title": "Validation of paths in single and double precision", "statement": "With the single and double precision arithmetic of the code, IsPathValid returns for every path; an accepted path keeps the required clearance up to the interpolation distance; the ratio reported for a rejected path leads to a valid state.", "quantifier": "all paths, maps, clearances, interpolation distances and roundings", "why_tests_cant": "The samples depend on the map and on rounding; a lost step or a ratio rounded up only shows at particular lengths.", "anchors": ["planner/src/state_validator/state_validator_occupancy_map.cpp: IsStateValid, IsPathValid"]}
{"id": "C124", "title": "Hybrid A* always returns", "statement": "On a map that covers the state space, the graph search of Hybrid A* from any valid start to any valid goal returns after finitely many steps, with a solution or with a failure, and never reads outside the map, converts a number that is out of range or compares a cost that is not a number.", "quantifier": "all maps, bounds, parameters, heuristics, random draws, starts and goals", "why_tests_cant": "Whether a motion leaves the map depends on the start, the obstacles and the sampling distances; a read outside the array may go unnoticed.", "anchors": ["planner/src/algo/hybrid_a_star.cpp: GetNeighborStates, GetVoronoiCost, GetConstantSteerChild, GetReedsSheppChild", "planner/src/state_validator/state_validator_occupancy_map.cpp: IsPathValid"]}
{"id": "C125", "title": "Voronoi edges are the borders between obstacles", "statement": "After the update of the map and of its Voronoi diagram, a cell is an edge of the diagram if and only if it lies on the border between the zones of two different obstacles that do not touch. So nobody gets from one obstacle to another without crossing an edge, an edge is equally far from two obstacles up to the diagonal of a cell, and the edges depend on the present obstacles only.", "quantifier": "all maps, all histories of setting and removing obstacle cells and of updates, all orders of equal entries in the queues", "why_tests_cant": "Edges are set and unset cell by cell while the wave fronts of the obstacles meet, in an order that depends on the history and on ties in the queue.", "anchors": ["planner/src/state_validator/gvd.cpp: ObstacleDistanceMap::Update, CheckVoro, VoronoiDistanceMap::SetEdge, UnsetEdge", "planner/src/state_validator/gvd.h: GetNearestVoronoiEdgeCell, GetVoronoiDistanceMap"]}
{"id": "C126", "title": "Bidirectional search without estimates in double precision is nearly cheapest", "statement": "With transition costs between 0 and 2^900, no estimates, and a reverse propagator that offers the same transitions backwards at the same cost, the cost that the bidirectional graph search reports in doubles after Success exceeds the exact cost of any path from the initial state to the goal by at most one step of that path, up to a relative error of 2^-53 per addition. The same holds of the exact cost of the path returned.", "quantifier": "all state spaces and transition costs in that range, all paths to the goal", "why_tests_cant": "The excess depends on which states both searches expand before the stopping rule applies and on rounding in sums of any length; tests compare a few graphs.", "anchors": ["planner/src/algo/bidirectional_a_star.h: SearchPath, FindIntersection, GetOptimalCost", "planner/src/algo/a_star.h: Expand"]}
{"id": "C127", "title": "The obstacle heuristic in single precision", "statement": "In the floats of the code, an update of the obstacle heuristic explores exactly the cells from which the goal can be walked to, whatever was updated before. The cost of such a cell is finite on maps of any size, is the length of a walk up to a relative error of 2^-24 per step and one more, and is at most the square root of 2 times the length of any walk up to the same errors; other cells have an infinite cost. The value of a state is finite and never below the distance to the goal, and where the cell can be reached it is the greater of that distance and the scaled cost less a diagonal, up to a relative error of 6 * 2^-24.", "quantifier": "all map sizes, occupied cells, goals inside the map, histories of updates, resolutions and multipliers from 0 to 2^30, and states", "why_tests_cant": "Rounding errors accumulate with the length of the walk and change the order of the frontier; from 2^24 on a step adds nothing. Tests use small maps on which neither is seen.", "anchors": ["planner/src/algo/heuristics.cpp: ObstaclesHeuristic::Update, ObstaclesHeuristic::GetHeuristicValue", "planner/src/algo/heuristics.h: ObstaclesHeuristic"]}
{"id": "C128", "title": "The Voronoi path cost in single precision", "statement": "In the floats of the code, the distances that the diagram reports are finite, zero exactly on the obstacles (or edges) and at least one cell elsewhere, and the distance of the cells up to two roundings. After an update, the path cost of every cell of the map is a number, never NaN; it lies between 0 and 1 without any error, is exactly 0 from the maximal distance on and on the edges, exactly 1 on the obstacles, and elsewhere the formula of the reported distances up to a relative error of 12 * 2^-24 (and 2^-140).", "quantifier": "all map sizes whose squared distances are ints, histories of changes and updates in which edges are set by the updates only, resolutions up to 2^30, constants up to 2^100, cells", "why_tests_cant": "Each quotient is rounded: that none of them exceeds 1, underflows to 0/0 or cancels must hold for every pair of distances and every resolution.", "anchors": ["planner/src/state_validator/gvd.cpp: PathCostMap::Update, GVD::Update", "planner/src/state_validator/gvd.h: GetDistanceToNearestObstacle, GetDistanceToNearestVoronoiEdge, GetPathCost"]}
{"id": "C129", "title": "Every question about the validity of a state is answered", "statement": "Asking a validator on a map whether a state is valid gives an answer for every pose of doubles; the answer is yes exactly if the state is in bounds, in the map, and at a cell whose distance to the obstacles is not less than the safe radius; it is no for states that are not made of numbers.", "quantifier": "all maps, bounds, safe radii and poses of IEEE doubles, NaN and infinities included", "why_tests_cant": "The conversion of a position to a cell is undefined only for positions that no test passes, and what happens then depends on the compiler; the borders of cells are met up to rounding only.", "anchors": ["planner/src/state_validator/state_validator_occupancy_map.cpp: IsStateValid", "planner/src/state_space/state_space_se2.cpp: ValidateBounds", "planner/src/state_validator/occupancy_map.h: WorldPositionToGridCell, WorldPositionToLocalPosition", "planner/src/state_validator/occupancy_map.cpp: InitializeSize, IsInsideMap"]}
{"id": "C130", "title": "Connections of the random tree planner in double precision", "statement": "With states and distances in double precision, a connection that RRT adds in the plane is never longer than the maximum connection distance, ends on the segment to the sample, or exactly at the sample if that is near enough, and has a length that is a number. The path of a successful search consists of accepted connections of at most that length and ends within distance one of the goal.", "quantifier": "all finite states, samples and goals, all positive maximum distances, all validators, nearest-neighbour answers, samples and budgets", "why_tests_cant": "Whether a quotient times its divisor exceeds the dividend depends on the last bit of the operands; over- and underflow need extreme coordinates.", "anchors": ["planner/src/algo/rrt.h: SearchPath, SteerTowards, IsSolution, GetPath", "planner/src/algo/rrt_star.h: SteerTowards", "planner/src/paths/path_r2.cpp: PathR2, Interpolate, Truncate"]}
{"id": "C131", "title": "Motions of the vehicle in double precision", "statement": "With double arithmetic and a mathematical library whose sine and cosine are right to 2^-52 and whose tangent is right to a relative 2^-50, a motion with constant steering of a vehicle referred to its rear axle gives three numbers: the pose at the end of a circular arc of the travelled length, up to 2^-47 times the turning radius, whose curvature is that of the bicycle up to a relative 2^-49, or at the end of the straight line if that curvature is below 10^-9. The path of a motion starts exactly at its initial pose.", "quantifier": "all libraries with those errors, all wheelbases, start poses, steering angles, lengths and directions within wide bounds", "why_tests_cant": "The code subtracts two nearly equal sines and divides by the curvature, so the error grows without a test noticing as the curvature shrinks; it depends on the last bits of the library.", "anchors": ["planner/src/models/kinematic_bicycle_model.cpp: ConstantSteer", "planner/src/paths/path_constant_steer.cpp: Interpolate", "planner/src/algo/hybrid_a_star.cpp: HybridAStar::StatePropagator"]}
{"id": "C132", "title": "Search cells of Hybrid A* in double precision", "statement": "With double arithmetic, every pose has a search cell. Its position is the number of whole cells between the pose and the axes, and two poses in one cell, on the same side of the axes, differ by at most the spatial resolution per axis.", "quantifier": "all poses, all resolutions", "why_tests_cant": "The quotient is rounded before it is truncated, which matters only for poses next to a border; the conversion to int is undefined only far away.", "anchors": ["planner/src/algo/hybrid_a_star.h: StatePropagator::DiscretizePose", "planner/src/geometry/2dplane.h: Pose2<int>::WrapTheta, Pose2<double>::WrapTheta"]}
{"id": "C133", "title": "Where the non-holonomic heuristic reads its table, in double precision", "statement": "With double arithmetic, a query of the non-holonomic heuristic reads its table inside the bounds, at a node within half a resolution of the difference of goal and state up to rounding, or does not read it because the difference is past the table.", "quantifier": "all goals and states, all resolutions and sizes of the table, all mathematical libraries that are accurate to 2^-52", "why_tests_cant": "Sizes, offsets and indices are rounded separately; whether the last index of an axis or of the headings is in the table depends on the last bit of two quotients.", "anchors": ["planner/src/algo/heuristics.cpp: NonHolonomicHeuristic::NonHolonomicHeuristic, Build, GetHeuristicValue", "planner/src/geometry/2dplane.h: operator-, WrapTheta"]}
{"id": "C134", "title": "Composite paths in double precision", "statement": "With double arithmetic, interpolating a sequence of paths, its direction and truncating it are defined at every ratio from zero to one: they use a part of the sequence, at a ratio from zero to one, and the place is the one asked for up to rounding; both ends are exact, and the points where the direction changes are ratios.", "quantifier": "all sequences of paths of any kind whose lengths are finite and not negative and do not overflow, all ratios", "why_tests_cant": "The total is summed with rounding and the search compares rounded sums; a ratio of a part just above one, or a place not found just before the end, would need lengths that round the wrong way.", "anchors": ["planner/src/paths/path_composite.h: PathSE2CompositeBase, PushBack, Interpolate, Truncate, FindSegment", "planner/src/paths/path_composite.cpp: GetCuspPointRatios, GetDirection"]}
{"id": "C135", "title": "Reeds-Shepp paths in double precision", "statement": "With double arithmetic, the length of a Reeds-Shepp path is the sum of its motions up to rounding; interpolating it drives the motions in order, all but the last one completely, to the place asked for up to rounding; its direction is that of the motion at this place; and its cusp points are exactly the places where the direction changes, up to rounding.", "quantifier": "all sequences of at most five motions with lengths, all turning radii, all ratios", "why_tests_cant": "The length is rounded as a sum of normalized lengths times the radius, the loops add up rounded products: which of the two is larger in the last bit decides whether the last motion is found.", "anchors": ["planner/src/paths/path_reeds_shepp.cpp: PathReedsShepp, Interpolate, GetDirection, GetCuspPointRatios", "planner/src/geometry/reeds_shepp.h: PathSegment::GetLength", "planner/src/geometry/reeds_shepp.cpp: PathSegment::AddMotion"]}
{"id": "C136", "title": "Poses along Reeds-Shepp paths in double precision", "statement": "With double arithmetic and a sine and cosine that are right up to 2^-52, interpolating a Reeds-Shepp path whose coordinates are of size K always gives a pose, with a heading between -M_PI and M_PI, that is within 2^-41 K (2^-45 in the heading, up to full turns) of where driving the motions exactly leads, after a distance that is right up to 2^-40 K; its final state is the end of the motions up to 2^-37 K.", "quantifier": "all sequences of at most five motions with turns up to the angle 8, all turning radii, initial poses and ratios, all sine and cosine implementations of that accuracy", "why_tests_cant": "The errors of the half-angle chord, of the rotation and of the wrapped heading of one motion are carried into the next ones; a test sees one rounding of one path with one mathematical library.", "anchors": ["planner/src/paths/path_reeds_shepp.cpp: Interpolate, Straight, Turn", "planner/src/geometry/2dplane.h: Pose2d::operator+, Pose2d::WrapTheta"]}
{"id": "C137", "title": "Samples of the path of Hybrid A* in double precision", "statement": "With double arithmetic, sampling a path whose step is at least 2^-40 of its length ends without undefined behaviour: the samples start at the beginning of the path, strictly increase, are less than about two steps apart, stop less than one and a half steps before the end, and only cusps and ends are marked as such; every cusp that is more than a step away from the others is one of the marked samples, and so is the end of the path when its length is a whole number of steps; sampling ends for every positive step.", "quantifier": "all lengths, steps and sets of cusp ratios", "why_tests_cant": "The places are added up with rounding and compared with windows around the cusps; whether a cusp falls into a window depends on the last bit of both.", "anchors": ["planner/src/algo/hybrid_a_star.cpp: HybridAStar::SearchPath"]}
{"id": "C138", "title": "Hybrid A* and cheaper ways into a cell it has already seen", "statement": "A motion of Hybrid A* that leads into a cell of its frontier replaces the pose there if its estimated cost is lower and the two poses are less than a millimetre and a thousandth of a degree apart, and nothing else leaves the frontier; a motion into a new cell always enters it. The path found costs no more than any other path in the map of cells that is explored.", "quantifier": "all frontiers, motions, costs and heuristics; all graphs of cells and poses", "why_tests_cant": "Whether a cheaper way is dropped depends on the order in which the poses of a cell are found; a test sees one order.", "anchors": ["planner/src/algo/hybrid_a_star.h: HybridAStar::GraphSearch::ProcessPossibleShortcut, IdenticalPoses", "planner/src/algo/a_star.h: AStar::Expand, ProcessPossibleShortcut"]}
{"id": "C139", "title": "Costs of motions in floating point", "statement": "With the single and double arithmetic of the code, the cost of a steered motion of Hybrid A* is always a finite number that is not negative, zero for an empty motion, and otherwise, up to a relative error of 2^-22, the length times the factor of the direction plus the Voronoi factor times the path cost at one place, less than about one diagonal of a cell before the end of the motion, times this diagonal.", "quantifier": "all path costs between zero and one, all factors, resolutions, directions and lengths up to 2^40 cells", "why_tests_cant": "The places are added up in double precision from a diagonal rounded to single precision; which place is the last one, and that the cost is never negative or NaN, must hold for every length and resolution.", "anchors": ["planner/src/algo/hybrid_a_star.cpp: StatePropagator::GetVoronoiCost, StatePropagator::GetConstantSteerChild, StatePropagator::Initialize"]}
{"id": "C140", "title": "Costs of Reeds-Shepp paths in floating point", "statement": "With the single precision arithmetic of the code, the cost of a Reeds-Shepp path is, up to a relative error of 2^-20, the length driven forward and the length driven backward, each times its factor, plus the switching cost times the number of changes of direction; the path chosen by GetOptimalPath is one of those offered and none of these is cheaper, up to rounding; the transition cost of Hybrid A* for such a path is this cost plus the Voronoi cost.", "quantifier": "all paths of one to five motions, all turning radii, factors and switching costs up to 2^30, all lists of candidate paths", "why_tests_cant": "Lengths in double precision are rounded to single precision, multiplied and added up; whether rounding can make an expensive path win, or the result negative or infinite, must be settled for every path and every factor.", "anchors": ["planner/src/geometry/reeds_shepp.cpp: PathSegment::ComputeCost, Solver::GetOptimalPath", "planner/src/paths/path_reeds_shepp.cpp: PathReedsShepp::ComputeCost", "planner/src/algo/hybrid_a_star.cpp: StatePropagator::GetReedsSheppChild"]}
{"id": "C141", "title": "Steering inputs in double precision", "statement": "With double arithmetic and a mathematical library that is right to the last bits, the steering angle computed for a turning radius is always a number between zero and a right angle, and a vehicle referred to its rear axle that steers by it turns with this radius, up to a relative error of 2^-36. The steering inputs of Hybrid A* are zero and opposite pairs of multiples of half of this angle, and none of them exceeds it.", "quantifier": "all libraries with those errors, all wheelbases and radii from 2^-100 to 2^100 (wheelbase at most sixteen radii for the curvature), all distances of the centre from the rear axle, every number of generated motions", "why_tests_cant": "The difference of two rounded squares is the argument of a square root, whose result divides; that no radius gives NaN, and how far the curvature is from the one asked for, depends on the last bits.", "anchors": ["planner/src/models/kinematic_bicycle_model.cpp: GetSteeringAngleFromTurningRadius", "planner/src/algo/hybrid_a_star.cpp: StatePropagator::StatePropagator"]}
{"id": "C142", "title": "When Hybrid A* tries to connect with the goal", "statement": "Where the heuristic is below ten, the search always tries a Reeds-Shepp connection with the goal and draws no random number. Elsewhere it draws one number and tries exactly if this is below a threshold, which is ten over the square of the heuristic up to a relative error of 2^-50. A number small enough for some value of the heuristic is small enough for every smaller value. From a state whose heuristic is infinite or not a number, the connection is never tried.", "quantifier": "all values of the heuristic, including infinity and NaN, all generators of random numbers", "why_tests_cant": "The square can overflow and the quotient underflow; that the rule stays monotone through both, and what happens for infinite values, is not seen with a few values.", "anchors": ["planner/src/algo/hybrid_a_star.cpp: StatePropagator::GetNeighborStates"]}
{"id": "C143", "title": "The collision term of the smoother in floating point", "statement": "With the single and double precision arithmetic of the code, what a near obstacle adds to the gradient of a sample is a number. It is the gradient of the quadratic penalty over the reals up to a part in 2^19 of the largest push. In each coordinate it never leads the sample towards the obstacle.", "quantifier": "all weights and radii up to 2^30, all positions of a sample with respect to the nearest obstacle up to 2^60", "why_tests_cant": "The distance is rounded to single precision and then divides the vector it came from; near the radius and near the obstacle the result depends on the last bits, and at the obstacle itself both are zero.", "anchors": ["planner/src/algo/smoother.cpp: Smoother::Smooth", "planner/src/algo/smoother.h: Smoother::Parameters"]}
