# Formal model of lfilipozzi/PathPlanning in Rocq (Coq 8.16.1)

The subject is the C++ library under `/repo/planner/src`. It was only read, never built.
The model is under `rocq/theories`. Each area has up to four kinds of file:

* `X_model.v`: Gallina functions that mirror the code, with file and line citations. No proofs.
* `X_spec.v`: the independent specification used in the statements (when one is needed).
* `X_proofs.v`: lemmas.
* `X_props.v`: the property theorems (each is `exact lemma`), examples showing that the hypotheses
  are met by a concrete case, and `Print Assumptions`.

## Modelling conventions

* Loops are structural recursion, folds, or recursion on fuel. Running out of fuel is a distinct
  outcome, and a separate theorem bounds the fuel that is needed.
* Undefined behaviour (out-of-bounds access, `back()` of an empty vector, dereferencing `end()`)
  is a distinct outcome (`None`, or a constructor named for it). Theorems that rely on its absence
  prove it absent.
* `double` is modelled by the stdlib reals `R` in geometry, by an abstract ordered cost type in the
  graph searches and by `Z` or `Q` in executable counterexamples. The search theorems use a cost addition that is
  neither associative nor commutative, so that they also cover rounded addition wherever it is monotone. Rounding itself is
  modelled for coordinates (C21), costs (C91–C93, C101), straight paths (C120), headings (C121), samples (C122) and path validation (C123).
* `int` is modelled by `Z`. Overflow is excluded by size hypotheses or noted.
* Hash containers are modelled by association lists searched with the same equality predicate. C46
  proves the hash/equality contract that this relies on.
* `std::set`, `std::unordered_map` and `std::priority_queue` are trusted to satisfy their
  documented contract. Ties in priority queues are resolved by an arbitrary choice where the
  theorem says so.
* Code that a search calls through a virtual interface (propagator, heuristic, validator, sampler,
  nearest-neighbour index) is a function parameter over which the theorem quantifies. Sequences of
  random draws are lists.
* When the code violates a property, a theorem with suffix `_refuted` gives a computed witness in
  the model of the actual code, and the strongest true variant is proved beside it (suffix
  `_partial` when it is part of the stated property). The property is then listed as `partial`.

## Properties: what is modelled and how it is proved

| Id | Model | Proof |
|----|-------|-------|
| C01 | `Frontier` as vector plus set, both binary searches with index arithmetic | refinement to a sorted list with unique keys; induction on operations |
| C02 | `AStar` with node parent chains over the `Frontier` model | invariant: every node of the frontier and explored map is a valid chain |
| C03 | same | invariant: each successor of an expanded state is expanded or in the frontier |
| C04 | same | invariant: for each path, some frontier node has f at most the cost through it; consistency gives non-decreasing pops |
| C05 | same | the keys expanded are pairwise different; fuel bounded by number of reachable keys |
| C06 | same with GraphSearch=false | false (duplicate key rejected by the frontier): refuted; proved where all paths to a state cost the same (trees), from the frontier lying on every path to a solution |
| C07 | state machine over the public calls | expected false after a failed Initialize: refute; prove for histories in which Initialize succeeded |
| C08 | combined heuristic as a fold of max | direct |
| C09, C10 | `AStarN2` propagator over the grid model | instantiate C02-C05 |
| C11-C14 | `BidirectionalAStar`: two search states and the intersection step | invariants lifted from A*; C12, C14 expected false: refute, and prove a bound on the excess cost |
| C15 | `AverageHeuristic` | algebra over R |
| C16, C17 | grid neighbours and row-major storage | case analysis, linear arithmetic |
| C18 | Bresenham loop | loop invariant on the error term |
| C19, C20 | obstacle list as finite map, occupancy matrix | invariant over operations; C20 expected false for overlapping removals: refute, and prove for disjoint ones |
| C21, C22 | coordinate conversions over R with truncation toward zero, and with the single and double precision roundings of the code | real arithmetic, bounds on the rounding errors with Flocq; C22 expected false in the strip left and below the map |
| C23-C26 | `ObstacleDistanceMap` with arbitrary choice among minimal queue entries | invariants over `Update` steps; termination by a well-founded measure; C26 expected false |
| C27 | path cost formula over R | real arithmetic; singular points refuted |
| C28-C30 | `IsPathValid` loop with fuel | Lipschitz argument; C30 expected false |
| C31, C32 | `Smoother::Smooth` with abstract gradient | invariants, exact index set |
| C33-C35 | paths and bicycle model over R | trigonometry |
| C36, C37, C40, C41 | Reeds-Shepp path container over R | induction on motions; C36, C40 expected false in general |
| C38, C39 | the twelve base formulas and 48 words over R | trigonometry per formula; minimum over the word list |
| C42-C44 | composite path with abstract parts | induction; C43, C44 expected false |
| C45-C47 | pose algebra, hash combine, modulo | real arithmetic |
| C48, C49 | state spaces and random sampling | real arithmetic; C49 expected false (writes past the end) |
| C50, C51 | heuristics | C50 expected false, C51 expected false: refute, and prove what holds |
| C52-C55 | Hybrid A* | C52, C54, C55 expected false in general; C53 from the A* invariant |
| C56, C57 | RRT, RRT* with oracle lists | invariant over iterations; C57 expected false |
| C58 | nodes as an inductive tree and as a heap | induction over operations |
| C59, C60 | interleaving step relations | invariants over all schedules |
| C61 | character loop | induction on the string |
| C62 | gradient terms of the smoother as functions of the map readings | real arithmetic; derivative of each term |
| C63 | path term of the gradient | refuted (wrong sign); what holds beside it |
| C64 | direction and cusps of Reeds-Shepp paths | induction on motions |
| C65, C66 | heuristics of Hybrid A* never overestimate | C38/C41 and C50 composed with the cost of motions |
| C67 | `HybridAStar::SearchPath` | refuted for every map |
| C68 | `SearchPath` and `GetPath` in the planner as a whole (see C78) | refuted for every history: a larger safe radius leaves the start without neighbours, so the frontier empties |
| C69 | graph search of Hybrid A* | cells within the bounds are finitely many; instantiate C05 |
| C70, C71 | transition cost, goal test | refuted; what holds beside it |
| C72 | motions of Hybrid A* on a distance map | C28/C29 lifted through the search invariant |
| C73 | obstacle shapes over R | trigonometry; half planes of consecutive vertices |
| C74 | cells of shapes: conversion of vertices, rasterization of edges | C18 and C21 composed |
| C75 | the obstacle list map as a whole: frames, registry, matrix, distance map | invariant over histories, using C19, C23, C24 |
| C76 | validated paths and Hybrid A* motions on that map | C74, C75, C29 and C72 composed |
| C77 | same | refuted (hollow obstacles); partial: a continuous path cannot enter without touching the outline |
| C78 | the planner as a whole: map, validators, diagram, heuristics, graph search, sampling, smoother | C75, C76, C31, C52–C55 composed; the calls that reach the map are a function of the history |
| C79, C80 | same state machine | invariants over histories; C80 refuted |
| C81 | same state machine; validator constructor resizes the map | refuted; coverage of the last size holds for what was added since |
| C82 | same; distance map replaced at each size, planner keeps the former one | refuted: stale distances computed for all histories, and a concrete plan through an obstacle; holds after an update by the user |
| C83 | same | the second update of diagram and heuristic changes nothing, so the graph search has the same inputs |
| C84 | same; table of the non-holonomic heuristic kept with the bounds it was built for | invariant over histories; refuted: the first expansion reads outside |
| C85 | same, with `IsStateValid` of a validator | the first motion of a solution was checked from its first sample on |
| C86 | the picture of the obstacle heuristic as a list of bytes, and an independent PPM reader | reader applied to the written file; C50 gives the distances |
| C87 | queries of the diagram at positions, on the map of C75 | C23–C27 carried to positions through the conversions |
| C88 | the picture of the diagram, with its hues | as C86; the hue is a function of the number of the nearest obstacle, injective by cases on the six sectors |
| C89 | `AStar` on a memory of node objects with parent and child pointers, where using a deleted one is undefined | refinement: pointers represent the immutable nodes of C02–C05, kept by each step because the frontier is parametric; the live objects form a tree, and deletion frees exactly the descendants |
| C90 | pre-order traversal of that tree | the traversal lists exactly the live objects; each represents a chain of offered transitions |
| C91 | the same search with Flocq's binary64 numbers as costs: addition to nearest even, the comparison of the language | the nonnegative and infinite doubles satisfy the cost laws of C02–C05; parametricity of the search in the cost type transfers the theorems to doubles |
| C92 | as C91, with a heuristic | refuted by a graph of four states in which the heuristic absorbs a difference; the bound by induction over expansions, with a relative error per step |
| C93 | the grid search of C09 on doubles | the measured heuristic is consistent up to a relative error, so C92's bound applies; paths are loop-free by C94, and other walks can be made so |
| C94 | the graph search of C02–C05 | invariant: the states on the way to a node of the frontier are explored and different |
| C95 | the twelve formulas, the search for the shortest and the cheapest word | each formula returns the lengths of any curve of its family (within the ranges of Reeds and Shepp) that reaches the goal; degenerate curves are turns, found by the first and third formula |
| C96 | the same | the reverse of the shortest path is a curve of another family, found by C95, with corner cases at half turns; the goal as seen from the start is unchanged by motions of the plane, and permuted by mirrors |
| C97 | `GetExploredStates` over the A* model (Explored_model) | the explored set is the root and all queried states; on failure it is closed under transitions; with a consistent heuristic costs are popped in order, so what is popped before the solution is below it, and what is below it is reached through explored states |
| C98 | the functions on grids, lines and distances again with 32 bit integers, overflow being undefined behaviour (GridInt_model) | each agrees with its model over Z on the stated ranges; the invariant of the line algorithm bounds its error term and minor coordinate |
| C99 | the same over the model of bidirectional A* | invariants of both searches; the way back from every explored node is explored; the invariants of C13 for failures |
| C100 | the search loops of C56 and C57 with straight connections, for an arbitrary sequence of samples and exact nearest neighbours | invariant: each disc hit so far contains a node; the nearest node to a sample in the next disc is within reach of it, and discs are convex |
| C101 | the bidirectional search of C11 on Flocq doubles, with the best cost a double that starts at infinity, and the average heuristic on doubles | the comparison of doubles agrees with a strict weak order on all keys met, so the run is one of the generic search; a sum of 2^954 absorbs every step of at most 2^900, so sums are bounded |
| C102 | class Tree with its memory: nodes of C58 with states, nodes alive, the map from states to pointers and the k-d tree as a list of pointers; flann as a function from points to indices | invariant over all calls that the three structures agree; for Reparent, the set of nodes is closed under parents before and after |
| C103 | RRT and RRT* on the tree of C102, with the infos of the nodes and the pointer to the solution kept between searches | simulation: nodes at consecutive addresses from some base are the list of nodes of C56/C57; each call of the tree and the walk of GetPath keep or agree with this |
| C104 | the two searches of BidirectionalAStar with heaps of nodes, the merged path over tagged pointers, the destructor; sequences of searches with all queries | refinement to searches without pointers by the simulation of C89 on each side; liveness of solutions and explored nodes as an invariant |
| C105 | a timer reads the clock when made and when stopped; scopes are trees of timers in one thread | induction on the tree of scopes: the records of a scope lie within it and in order |
| C106 | runs of the smoother with the gradient terms of C62 | the gradients of an iteration are sums over the optimized samples; summation by parts and a bound on second differences give a decrease of the bending in each iteration |
| C107 | same | a cost of the whole path is specified; its partial derivatives, including at samples where a term vanishes, are the sums of the terms |
| C108, C109 | same | refuted by runs computed symbolically; C108: distance after a step of the collision term; C109: from C107 |
| C110, C111, C112 | heuristics as objects on a heap, held by planners and by other heuristics; histories of calls on several planners | an object keeps what it estimates under all calls; SetGoal writes the functions reached from it and nothing else; C111, C112 refuted by computed runs |
| C113 | the grid propagator, the drawn outlines and the searches of C09, C11, C18, C75 | even-odd rule: two half-lines from neighbouring free cells cross the same segments up to those that enter or leave a set, and a closed outline enters a set as often as it leaves it; two segments between touching cells meet only at ends or as the two diagonals of a square |
| C114 | the search of C02 with GraphSearch=false | weight of a node = number of paths below it; an expansion lowers the total weight of the frontier. On an endless path: some state of it is always in the frontier |
| C115 | `AStar` for any explored container (Store_model.v); `Explored`, `ExploredMap` and `ExploredVoid` as instances | simulation between containers that answer alike; without closed states every path to a solution has a state in the frontier, reached at no higher cost |
| C116 | `Random<T>::Init` and draws, constructors of `StateSpace`, `RRT`, `RRTStar`, `HybridAStar` (RandomInit_model.v) | invariant over programs: every made object has the generators that it draws from; refuted for RRT* over floats |
| C117 | `AStar` as in C02; the state space of the unit test (PlaneTest_model.v) | a state in the frontier is expanded after finitely many others, because only finitely many paths cost less; induction along a path to a solution |
| C118 | `BidirectionalAStar` as in C11 | as C117 for the forward search, which meets the root of the reverse search at the latest; after a meeting only finitely many forward nodes are cheap enough to go on |
| C119 | `BidirectionalAStarN2` with `AStarStatePropagatorFcnN2` in both directions | from free cells only free cells are reached, so the search is the one with a propagator that has no way out of occupied cells, to which C11–C14 apply; refuted for occupied ends by computed runs |
| C120 | `Interpolate` and `Truncate` of straight paths on IEEE doubles (Flocq) | error analysis of the four roundings; bounds by monotonicity of rounding; refuted by a computed value |
| C121 | `WrapTheta`, `Modulo`, `WrapAngle` on IEEE doubles | each round of the loops decreases the heading by at least 5 and is exact for small headings (Sterbenz); fmod is exact; digits of pi by Machin's formula |
| C122 | `SampleUniform`, `SampleGaussian`, `EnforceBounds`, `ValidateBounds` on IEEE doubles | monotonicity of rounding for the lower bound, relative errors for the upper one; refuted by computed values |
| C123 | `IsPathValid` with its single and double precision lengths, steps and ratios | invariant of the loop: all lengths up to the current one are cleared, up to rounding; refuted by a loop that is stuck and by a computed ratio |
| C124 | the graph search of Hybrid A* with the validator, Voronoi cost and both kinds of motions | the results of all loops settle as their bounds grow, by induction over the expansions; all states stay near the bounds; refuted by a motion across the border |
| C125 | the edges that the update of the obstacle map sets and unsets in the Voronoi diagram, with the numbers of the obstacles in the occupancy matrix | an invariant on pairs of touching cells that are processed, kept by every step of the update and every operation; the last pop of the two cells sets the edge; refuted by concrete histories; for an obstacle list map, the calls of the map are turned into a numbered history of the distance map (`RidgeMap_*`) |
| C126 | the search of C101 without estimates (`double_bi` with zero heuristics) | the two-frontier argument of C14 redone for any rounded cost (`Rounded_spec`): nodes both searches have expanded carry at most the cost of any path; the search on doubles is related to the one on the subset of costs (`BidirSub_proofs`) |
| C127 | `oh_update` of C50 with the operations of single precision (`float_update`), and the value with the two stored constants (`float_value`) | the invariant of C50 for sums that only grow and are monotone; sums stay below 2^25 because larger ones absorb a step, so nothing overflows; error per step from Flocq |
| C128 | `float_distance`, `float_path_cost` and `get_float_cost`: the reports of the maps of C23–C27 with the roundings of the code | each factor is rounded from a number in [0, 1], so it stays there; squares of singles are exact in doubles; errors of the factors and products added up; the histories as in C27 |
| C129 | `d_state_valid`: the test of a state with the doubles and floats of the code; the conversion to `int` is undefined out of range | refuted by computation (NaN, infinity, far away, NaN heading); otherwise the truncated quotient is within a millionth of the exact one, so the answer means what it says up to that |
| C130 | `d_steer`, `d_near_goal`, `d_rrt`: steering, the goal test and RRT of `Rrt_model.v` on pairs of doubles | refuted by computation; the norm has a relative error of 2^-50 and an absolute one of 2^-535, quotient and interpolation add theirs (C120); the tree is an induction over the search that needs no law of the equality of states |
| C131 | `d_constant_steer`, `d_path_at`: the bicycle of `Bicycle_model.v` on doubles, for any functions in place of `sin`, `cos`, `tan`, `atan` | the curvature computed is taken as the curvature of the arc (backward error); the rest is a sum of rounding errors, with sine and cosine Lipschitz by the mean value theorem; correctly rounded functions are shown to meet the accuracy hypotheses |
| C132 | `d_cell`: `discretize` of `Hybrid_model.v` on doubles, with the loop of `Pose2<int>::WrapTheta` through double and back | refuted by computation; truncation of a double is truncation of its real value; the quotient is the exact quotient of a coordinate one rounding away |
| C133 | `d_build`, `d_pose_sub`, `d_entry`, `d_lookup`: sizes, offsets, the difference of two poses and the three indices of `heuristics.cpp` on doubles, reads out of bounds undefined | refuted for turns to the right; `round` and `ceil` on doubles are those of the real value, division and rounding are monotone, so the index of the heading is at most the number of headings; errors of offset and quotient added up |
| C134 | `dk_push`, `d_find_segment`, `dk_at`, `dk_truncate`, `dk_direction`, `dk_cusps`: `path_composite.{h,cpp}` on doubles, parts abstract; `upper_bound` undefined on lists that are not partitioned, reads past the end undefined | direction at one refuted; rounded sums grow with each part, so the list is partitioned and rounded differences and quotients stay between 0 and 1; errors of sum and product added up; a ratio below one of a length that is not subnormal is rounded to less than that length |
| C135 | `d_rs_length`, `d_interp_loop`, `d_direction_loop`, `d_rs_cusp_loop`: the loops of `path_reeds_shepp.cpp` on doubles, the motion of the pose abstract | direction and cusps refuted next to the end; the rounded sums of C134, with the rounding of the products and of the total; a motion that ends before the place has a rounded quotient of at least one |
| C136 | `d_rs_straight`, `d_rs_turn`, `d_pose_add`: the motions of `path_reeds_shepp.cpp` on doubles, for any accurate sine and cosine, in the loop of C135 | one motion is a rotated local displacement; errors of the chord, the rotation and the wrapped heading; the exact motion is Lipschitz in its start; induction over at most five motions, those rounded to length zero being negligible |
| C137 | `d_sample`: the loop of `hybrid_a_star.cpp:267-291` on doubles, with the conversion of the argument of `reserve` | each place is the last one plus a step up to 2^-12 step; a window test on doubles decides the exact test up to 3 * 2^-12 step; induction over the samples with the order of the remaining cusps; kept cusps by an invariant on the places not yet passed; refuted by computing in binary floating point, the endless loop by monotone rounding below 2^53 |
| C138 | `h_guard` in `expand_one` of the A* model | case analysis of one neighbour with the frontier invariant of C01; refuted on a graph of four cells |
| C139 | `d_steer_cost`, `d_voronoi_cost`: `hybrid_a_star.cpp:93-146` on singles and doubles, the path cost at a ratio being a parameter | the places of C137; induction over the samples keeps the last one; error of each product and sum |
| C140 | `s_cost`, `s_optimal`, `d_rs_child_cost`: `reeds_shepp.cpp:466-494, 655-683` and `hybrid_a_star.cpp:149-171` on singles and doubles; the paths of the words are a parameter | induction over the motions with the error of each product and sum; induction over the candidates; the forward factor is ignored in one case (refuted) |
| C141 | `d_steering_angle`, `d_inputs`: `kinematic_bicycle_model.cpp:34-41` and `hybrid_a_star.cpp:19-28` on doubles, `pow` and `atan` being parameters with the errors of `SteerInputFloat_spec.v` | mean value theorem for the inverse tangent; errors of the square, root and quotient; the sign of the zero that a difference rounds to; more than five motions exceed the angle (refuted) |
| C142 | `d_connects`: the condition of `hybrid_a_star.cpp:82-83` on doubles, with the generator as a state | square and quotient rounded one by one, with the overflow of the square to infinity as a separate case; monotone rounding |
| C143 | `f_collision`, `f_moved`, `f_largest`: `smoother.cpp:112-115, 147-148` on singles and doubles | error of the norm (two squares, a sum, a root, a conversion), then of the factor and of the quotient, coordinate by coordinate; the zero vector gives NaN (refuted) |

## Trusted base

* The kernel of Coq 8.16.1 (including its `vm_compute`) and the assumptions that `Print Assumptions`
  lists for each theorem (section "Assumptions" below). Each `_props.v` file prints them when built.
* The reading of the C++ code expressed by the definitions in `*_model.v`. As a cross-check the unit tests of
  the repository for the frontier and the tree are run on the model in UnitTests_props.v, and C117 proves that
  of A* for all starts and goals.
* The containers and algorithms of the C++ standard library, taken to satisfy their contracts.

## Modelled, with simplifications

Every definition cites the lines it models. What is simplified, by area:

* **Floating point.** Geometry is over exact reals. Where rounding itself breaks a property, the IEEE
  behaviour is modelled with the kernel's binary64 specification (`PoseFloat_model.v`, the rounded draw of C48) and
  used for refutations only, or with Flocq's numbers (`CoordsFloat_model.v`, `StraightFloat_model.v`, `AngleFloat_model.v`, `SampleFloat_model.v`, `ValidatorFloat_model.v`, and the costs of C91–C93 and C101) and used for
  refutations and proofs. `atan2` does not distinguish
  signed zeros. Where the code would compute a NaN (division by zero, `acos` outside [-1,1]), the
  model has the distinct outcome `UB`, except in the Reeds-Shepp formulas, where a NaN word is
  an unusable word as in the code. Costs stored as `float` are reals.
* **Overloads.** `abs` of a floating-point number is taken to be `std::abs`.
* **Searches.** Propagators, heuristics and validators are arbitrary functions; those that can
  fail do so stickily: once an evaluation is undefined, the whole search is.
* **Concurrency (C59, C60).** Sequentially consistent interleavings of atomic steps. Data races are
  stated as such (C59) and not given a weak-memory semantics.
* **RRT.** The nearest-neighbour index is an oracle. In C56, C57 and C100 the tree is a list and the insertion of null
  entries by `operator[]` is left out; C102 and C103 model it, with the pointers and the destruction of nodes, and show that the
  list is what a user sees. The address of a destroyed node is not used again. Searching an index that was never built is undefined.
* **Distance maps.** The four grids of each map are one grid of records. The lists of obstacle and
  Voronoi cells (`m_voro`) and the private `RebuildVoronoi`, which nothing calls, are not modelled.
* **Validator.** `float` thresholds are reals. Overloads that cannot be instantiated are absent.
* **Composite paths.** Parts are owned by the composite; sharing a part between two composites is
  not modelled.
* **Non-holonomic heuristic.** Table entries are computed when they are looked up, not in advance.
* **Hybrid A\*.** `PP_ASSERT` in `GetVoronoiCost` is not modelled; random numbers are arbitrary reals
  in the interval of the distribution.
* **Obstacle list map.** Obstacles are identified by a number; the contents at the time of the call are an
  argument, so that moving an obstacle between calls is covered. A composite shape that contains
  itself is not modelled. A circle of two vertices has no finite radius in exact arithmetic.
* **Planner.** One planner on one map; several validators. A validator and its map share an owner; a
  validator without state space is a null pointer. All loops share one fuel. Changing the fields of a
  state space after the validator was made is not modelled.
* **Memory of the search (C89, C90).** The address of a deleted object is not used again. Each function of the frontier is
  taken to look at all elements of the frontier. The recursion of the destructor does not overflow the stack.
* **Pictures.** The file can always be opened, and its bytes are written as they are (no translation of line ends).
  `abs` in `HSVToRGB` is a parameter, so that both overloads it may refer to are covered.

* **Double precision costs (C91–C93, C101).** The numbers are those of Flocq, with one NaN. A build that keeps extended precision or fuses operations
  is not modelled. The Euclidean distance of C93 is a user's function, not one of the code.

## Not modelled

* Memory allocation failure, `int` overflow (C98 bounds the maps for which it does not occur in the grid code; elsewhere
  excluded by hypotheses on sizes where it matters, or a distinct outcome of the casts), and floating-point rounding except as said above.
* OpenGL, Python bindings, logging, the demo programs.
* FLANN (nearest-neighbour index): an arbitrary oracle. `std::mt19937`: an arbitrary list of draws.

## Assumptions

Only axioms of the standard library appear, through its construction of the reals:

* `ClassicalDedekindReals.sig_forall_dec`
* `ClassicalDedekindReals.sig_not_dec`
* `FunctionalExtensionality.functional_extensionality_dep`
* `Classical_Prop.classic`

The discrete properties are closed under the global context (no axiom): all theorems of
C01, C02, C03, C05, C07, C09, C11, C13, C16, C17, C18, C19, C20, C23, C24, C25, C46, C49, C58, C59, C60, C61, C89, C102, C104, C105, C110–C112, C114–C116, and some theorems of the other properties.

Theorems over the reals use `sig_forall_dec` and `functional_extensionality_dep`; those that also
use `sqrt` or comparisons decided by completeness add `sig_not_dec`; those that use trigonometric
functions or derivatives, or Flocq's theorems about rounding (C21, C91–C93, C101, C120–C123, C126–C137, C139–C143), add `classic`. No theorem uses any other axiom. Flocq
itself declares none; its definitions and lemmas are checked with the rest.
