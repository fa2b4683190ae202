{"id": "C01", "title": "The solution validator decides exactly coverage, capacity and route-length feasibility", "statement": "validate_solution_feasibility(sol,D,d,C,L) returns three verdicts. For every giant tour that visits the depot at least once (also one written from the middle of a route, i.e. any cyclic rotation), the first is True iff every node 0..N-1 is visited and every customer exactly once, the second is True iff the demand of every route does not exceed C (+tolerance) and the third is True iff the length of every closed route does not exceed L (+tolerance); an unset limit never makes a verdict False. A tour without the depot is never reported as covering.", "quantifier": "all solutions (lists of node ids < N), all distance matrices, demands, limits and tolerances", "why_tests_cant": "The validator is the oracle of the test-suite: tests compare algorithms against it but nothing checks it over all rotations, empty routes and limits.", "anchors": ["verypy/cvrp_ops.py:validate_solution_feasibility"]}
{"id": "C02", "title": "normalize_solution is a canonical form", "statement": "normalize_solution(sol) is a depot-delimited tour (starts and ends with 0, no two consecutive depots); it visits the same customers the same number of times; it is idempotent; the routes of the result are the routes of the input, each possibly reversed, in some order; and two solutions get the same normal form iff they have the same routes up to route order and route direction. The giant-tour form and the list-of-routes form of a solution without empty routes give the same result.", "quantifier": "all solutions with at least one customer (distinct customers for the iff direction)", "why_tests_cant": "Solution comparison everywhere in the experiments relies on normal forms; the iff ranges over all pairs of solutions.", "anchors": ["verypy/cvrp_ops.py:normalize_solution", "verypy/cvrp_ops.py:_list_split", "verypy/cvrp_ops.py:_list_trim"]}
{"id": "C03", "title": "Normalization never changes the objective or the feasibility verdicts", "statement": "For symmetric D with zero diagonal, recalculate_objective(normalize_solution(sol)) equals recalculate_objective(sol), and the capacity and length of every route are unchanged, for any depot-delimited sol.", "quantifier": "all symmetric matrices with D[0,0]=0, all solutions", "why_tests_cant": "Needs a proof that path cost is reversal invariant and that splitting/sorting/joining moves no customer between routes, for all sizes.", "anchors": ["verypy/cvrp_ops.py:normalize_solution", "verypy/cvrp_ops.py:recalculate_objective"]}
{"id": "C04", "title": "All ways of computing the objective agree", "statement": "For the same solution, objf on the giant tour, recalculate_objective on the giant tour, recalculate_objective on the list of routes (with or without explicit depots) and the sum of the RouteData costs are equal to the sum of the closed route lengths.", "quantifier": "all matrices with D[0,0]=0, all lists of non-empty routes", "why_tests_cant": "Four independently written summation loops with different boundary handling; equality over all route lists is a universally quantified law.", "anchors": ["verypy/cvrp_ops.py:recalculate_objective", "verypy/util.py:objf", "verypy/routedata.py:RouteData.from_routes"]}
{"id": "C05", "title": "Service times are folded into the distance matrix exactly", "statement": "For every route that visits m customers, its length under D2D_c(D,st) equals its length under D plus m*st.", "quantifier": "all matrices, all routes, all service times st that the function accepts", "why_tests_cant": "The law must hold for every route length and every st (even, odd, fractional); tests use a few even values.", "anchors": ["verypy/cvrp_ops.py:D2D_c"]}
{"id": "C06", "title": "Route list / giant tour conversions are inverse to each other", "statement": "sol2routes(routes2sol(rs)) gives back exactly the non-empty routes rs (each wrapped by depots) and routes2sol(sol2routes(sol)) gives back sol without its empty routes; no customer is lost, added or reordered. None/empty entries and explicit depots in the route list are ignored.", "quantifier": "all route lists, all depot-delimited solutions", "why_tests_cant": "Round-trip law over an infinite domain, with None entries, empty routes and optional depots.", "anchors": ["verypy/util.py:routes2sol", "verypy/util.py:sol2routes"]}
{"id": "C07", "title": "without_empty_routes only removes empty routes", "statement": "For a depot-delimited solution with no immediately repeated customer, without_empty_routes removes exactly the empty routes: customers, their order, the non-empty routes and the cost (D[0,0]=0) are unchanged, no two depots are adjacent in the result, and it is idempotent.", "quantifier": "all solutions and matrices", "why_tests_cant": "Universal list law, used after almost every heuristic.", "anchors": ["verypy/util.py:without_empty_routes"]}
{"id": "C08", "title": "Edge sets identify undirected solutions", "statement": "sol2edgeset(sol, symmetric=True) does not depend on the direction in which routes are driven (as the symmetric flag documents).", "quantifier": "all solutions", "why_tests_cant": "A statement about all pairs of a solution and its reversal; refuted by the implementation for the default flag.", "anchors": ["verypy/util.py:sol2edgeset"]}
{"id": "C09", "title": "Best-of selection returns an optimal candidate", "statement": "is_better_sol is a strict order (irreflexive, transitive, and total up to equal keys) on (cost, routes) pairs, primary key number of routes when minimize_K; keeping the incumbent unless is_better_sol says otherwise over any sequence of candidates returns a candidate that no other candidate beats, and the earliest such.", "quantifier": "all candidate sequences, both objectives", "why_tests_cant": "Holds for every sequence of candidates and every tie pattern; every multi-start heuristic in the library depends on it.", "anchors": ["verypy/util.py:is_better_sol", "verypy/classic_heuristics/gaskell_savings.py", "verypy/classic_heuristics/paessens_savings.py", "verypy/classic_heuristics/suppression_savings.py", "verypy/classic_heuristics/sweep.py:sweep_init", "verypy/shared_cli.py:read_and_solve_a_problem"]}
{"id": "C10", "title": "OrderedDictSet behaves as an insertion ordered set", "statement": "After any history of construction, add, remove, difference_update, iteration, len and indexing, indexing agrees with iteration, and membership/length are those of the mathematical set.", "quantifier": "all operation histories", "why_tests_cant": "Cache coherence over histories: the failing histories interleave indexing with add in a particular way.", "anchors": ["verypy/util.py:OrderedDictSet"]}
{"id": "C11", "title": "RouteData bookkeeping agrees with the route", "statement": "RouteData.from_routes/from_solution give each route its exact cost and demand; update_auxiliary_data gives at every position the exact forward and backward cumulative distance and demand; to_solution(from_solution(sol)) is sol without empty routes.", "quantifier": "all solutions, matrices and demands", "why_tests_cant": "Prefix/suffix sums must be right at every position of every route, the inter-route operators' feasibility checks read them.", "anchors": ["verypy/routedata.py:RouteData.update_auxiliary_data", "verypy/routedata.py:RouteData.from_routes", "verypy/routedata.py:RouteData.from_solution", "verypy/routedata.py:RouteData.to_solution"]}
{"id": "C12", "title": "2-opt moves are valid, exactly priced and complete", "statement": "do_2opt_move(route,D,strategy,best_delta): a returned route starts and ends at the same nodes and is a permutation of the input; for symmetric D the returned delta is exactly the change of route cost and improves on best_delta by more than the tolerance; if nothing is returned then no segment reversal improves; with BEST_ACCEPT no reversal is better than the returned one by more than the tolerance.", "quantifier": "all routes, symmetric matrices, strategies, thresholds, tolerances", "why_tests_cant": "Completeness (no improving move missed) and exactness of the incremental delta quantify over all routes and move positions.", "anchors": ["verypy/local_search/intra_route_operators.py:do_2opt_move"]}
{"id": "C13", "title": "3-opt moves are valid, exactly priced and complete", "statement": "Same contract for do_3opt_move; when nothing is returned none of the implemented reconnections of any three edges (segment exchange, segment exchange with reversals, two reversals) improves the route.", "quantifier": "all routes, symmetric matrices, strategies, thresholds, tolerances", "why_tests_cant": "Seven reconnection formulas and slice expressions, one of them containing a typo (delta==...): needs an argument for all i<j<k and all D.", "anchors": ["verypy/local_search/intra_route_operators.py:do_3opt_move"]}
{"id": "C14", "title": "Relocate moves are valid, exactly priced and complete", "statement": "Same contract for do_relocate_move: a returned route is the input with one customer moved to another position; delta exact; nothing returned implies that no single-customer relocation improves.", "quantifier": "all routes with distinct customers, all matrices, strategies, thresholds", "why_tests_cant": "Index arithmetic differs for moves to the left and to the right; universally quantified over positions.", "anchors": ["verypy/local_search/intra_route_operators.py:do_relocate_move"]}
{"id": "C15", "title": "Exchange moves are valid, exactly priced and complete", "statement": "Same contract for do_exchange_move: a returned route is the input with two customers swapped; delta exact including the adjacent case; nothing returned implies no swap improves.", "quantifier": "all routes, symmetric matrices, strategies, thresholds", "why_tests_cant": "The adjacent case has its own formula; universally quantified over positions.", "anchors": ["verypy/local_search/intra_route_operators.py:do_exchange_move"]}
{"id": "C16", "title": "The built-in TSP solver terminates with a correct, no worse, locally optimal tour", "statement": "solve_tsp_ropt(D, nodes) terminates for every symmetric matrix; the returned tour visits exactly the given nodes once, starts and ends at the depot, the returned cost is the cost of the returned tour, it is not larger than the cost of the initial tour, and the tour admits no improving 3-opt move.", "quantifier": "all symmetric matrices and node sets, tolerance >= 0", "why_tests_cant": "Termination of a while-improved loop and correctness of the accumulated cost over arbitrarily many moves.", "anchors": ["verypy/tsp_solvers/tsp_solver_ropt.py:solve_tsp_ropt"]}
{"id": "C17", "title": "2-opt* keeps customers and feasibility and reports consistent route data", "statement": "do_2optstar_move on two routes: the two returned routes together serve exactly the same customers, are feasible if the inputs are, the delta is the exact change in the total cost, and the cost/demand stored in the returned RouteData are those of the returned routes.", "quantifier": "all pairs of routes, symmetric matrices, demands, limits, strategies", "why_tests_cant": "Delta, feasibility and bookkeeping are computed from cumulative sums over all cut positions; the bookkeeping claim is refuted by the code.", "anchors": ["verypy/local_search/inter_route_operators.py:do_2optstar_move"]}
{"id": "C18", "title": "1-point moves keep customers, feasibility and bookkeeping", "statement": "do_1point_move: exactly one customer moves from the first to the second route; delta exact; returned cost/demand are those of the returned routes; both routes remain capacity feasible; the receiving route remains length feasible (the giving route too under the triangle inequality); nothing returned implies no feasible improving relocation.", "quantifier": "all pairs of routes, matrices, demands, limits, strategies", "why_tests_cant": "Universally quantified over cut positions and limits; needs triangle inequality for the giving route, which tests on Euclidean data cannot reveal.", "anchors": ["verypy/local_search/inter_route_operators.py:do_1point_move"]}
{"id": "C19", "title": "2-point moves keep customers, feasibility and bookkeeping", "statement": "do_2point_move: one customer of each route is swapped; delta exact; returned cost/demand correct; capacity and length feasibility kept; nothing returned implies no feasible improving swap.", "quantifier": "all pairs of routes, matrices, demands, limits, strategies", "why_tests_cant": "Universally quantified over positions and limits.", "anchors": ["verypy/local_search/inter_route_operators.py:do_2point_move"]}
{"id": "C20", "title": "Insert moves serve every unrouted customer within the limits", "statement": "do_insert_move: on success the returned route serves exactly the customers of the route plus the unrouted ones, keeping the relative order of the route's customers; delta, cost and demand are exact, limits hold; on failure nothing is returned.", "quantifier": "all unrouted lists, routes, matrices, demands, limits, strategies", "why_tests_cant": "Sequence of insertions with state carried over; universally quantified.", "anchors": ["verypy/local_search/inter_route_operators.py:do_insert_move"]}
{"id": "C21", "title": "Redistributing a route loses or duplicates no customer", "statement": "do_redistribute_move: on success the returned routes together serve exactly the customers of the removed route and of the other routes, once each.", "quantifier": "all routes, recombination levels, thresholds", "why_tests_cant": "Refuted for histories in which a rejected insertion leaves its partial result behind; depends on the threshold interplay between routes.", "anchors": ["verypy/local_search/inter_route_operators.py:do_redistribute_move"]}
{"id": "C22", "title": "Chain moves keep customers, capacity and bookkeeping", "statement": "do_chain_move: a customer of route 1 replaces one of route 2, which goes to route 3; customers kept, delta exact, bookkeeping exact, capacity of the changed routes kept.", "quantifier": "all triples of routes, matrices, demands, limits", "why_tests_cant": "Three nested position loops with shared bookkeeping.", "anchors": ["verypy/local_search/inter_route_operators.py:do_chain_move"]}
{"id": "C23", "title": "The local search driver preserves customers and feasibility and never worsens the solution", "statement": "do_local_search with any list of operators that satisfy their contract, any operator and iteration strategy and any iteration limit: the result serves the same customers, every route satisfies C and L if it did initially, the total cost does not increase, and the RouteData bookkeeping stays exact throughout.", "quantifier": "all operator lists meeting the contract, all strategies, iteration limits, solutions", "why_tests_cant": "Invariant over all histories of operator applications and route eliminations.", "anchors": ["verypy/local_search/__init__.py:do_local_search"]}
{"id": "C24", "title": "The local search driver terminates in a local optimum despite its memoization", "statement": "do_local_search terminates, and when it is not cut off by max_iterations, no operator in the list finds an improvement on any combination of the remaining routes: the at-optimum memo never hides an improving combination.", "quantifier": "all deterministic operator lists meeting the contract, all strategies, all solutions", "why_tests_cant": "Cache invalidation correctness over every schedule of improvements, route removals and strategies.", "anchors": ["verypy/local_search/__init__.py:do_local_search"]}
{"id": "C25", "title": "Parallel savings returns complete feasible solutions", "statement": "For symmetric distances, parallel_savings_init serves every customer exactly once and respects C and L whenever every customer can be served alone, for every savings list (hence all Clarke-Wright/Gaskell/Yellow/Paessens/suppression variants) and both objectives; with minimize_K=False the cost never exceeds that of serving every customer alone.", "quantifier": "all symmetric matrices, demands, limits and all savings lists over valid customer pairs", "why_tests_cant": "Union-find-like end node bookkeeping with reversals; an invariant over all merge sequences.", "anchors": ["verypy/classic_heuristics/parallel_savings.py:parallel_savings_init", "verypy/classic_heuristics/parallel_savings.py:clarke_wright_savings_function"]}
{"id": "C26", "title": "Interrupting parallel savings yields a complete feasible solution", "statement": "If KeyboardInterrupt is delivered at any point of parallel_savings_init's main loop, the solution attached to the re-raised exception serves every customer exactly once and respects C and L.", "quantifier": "all crash points (statement boundaries), inputs and savings lists", "why_tests_cant": "Ranges over every interruption point; the code has a one-statement window in which customers are duplicated.", "anchors": ["verypy/classic_heuristics/parallel_savings.py:parallel_savings_init"]}
{"id": "C27", "title": "Sequential savings returns complete feasible solutions", "statement": "sequential_savings_init serves every customer exactly once and respects C and L whenever every customer can be served alone, for every savings callback and every complete seed order.", "quantifier": "all symmetric matrices, demands, limits, savings callbacks, seed lists containing every customer", "why_tests_cant": "Invariant over all merge histories.", "anchors": ["verypy/classic_heuristics/sequential_savings.py:sequential_savings_init"]}
{"id": "C28", "title": "Interrupting sequential savings yields a complete feasible solution", "statement": "If KeyboardInterrupt is delivered at any point of sequential_savings_init's main loop, the solution attached to the exception serves every customer exactly once and respects C and L.", "quantifier": "all crash points, inputs", "why_tests_cant": "Ranges over every interruption point; several windows exist between paired updates.", "anchors": ["verypy/classic_heuristics/sequential_savings.py:sequential_savings_init"]}
{"id": "C29", "title": "Nearest neighbour construction serves everyone within the limits", "statement": "nearest_neighbor_init returns a solution that serves each customer exactly once, with all routes of more than one customer within C and L, sequentially or in parallel.", "quantifier": "all symmetric matrices, demands, limits, numbers of emerging routes", "why_tests_cant": "Termination is by exception; co-located customers break an implicit sorting assumption which ordinary test instances never contain.", "anchors": ["verypy/classic_heuristics/nearest_neighbor.py:nearest_neighbor_init"]}
{"id": "C30", "title": "Cheapest insertion serves everyone within the limits", "statement": "cheapest_insertion_init returns a solution serving each customer exactly once and within C and L whenever every customer can be served alone, for any strain criterion.", "quantifier": "all matrices, demands, limits, strain callbacks, numbers of emerging routes", "why_tests_cant": "Stale insertions stay in the heap; validity of every popped insertion is a history invariant.", "anchors": ["verypy/classic_heuristics/cheapest_insertion.py:cheapest_insertion_init"]}
{"id": "C31", "title": "Sweep serves everyone within the limits", "statement": "sweep_init without callbacks returns a solution in which each customer is served exactly once and each route is within C (and within L when the routing algorithm is exact about cost and each customer can be served alone).", "quantifier": "all sweep orders, directions, start positions, routing algorithms returning a permutation of their input", "why_tests_cant": "Wrap-around stepping, removal of nodes to regain L feasibility: invariant over the whole sweep.", "anchors": ["verypy/classic_heuristics/sweep.py:do_one_sweep", "verypy/classic_heuristics/sweep.py:_step", "verypy/classic_heuristics/sweep.py:_ensure_L_feasible"]}
{"id": "C32", "title": "Repairing an infeasible solution yields a feasible one", "statement": "_force_feasible splits the routes of any solution so that C and L hold for every route (when each customer can be served alone), keeping the order of customers; _check_CL_constraints answers exactly whether all routes satisfy C and L.", "quantifier": "all solutions, matrices satisfying the triangle inequality for the exactness of the check, limits", "why_tests_cant": "Universal over route sequences.", "anchors": ["verypy/classic_heuristics/lr3opt.py:_force_feasible", "verypy/classic_heuristics/lr3opt.py:_check_CL_constraints"]}
{"id": "C33", "title": "Reading explicit TSPLIB matrices puts every weight in its place", "statement": "For every EDGE_WEIGHT_FORMAT supported and every size, reading the weight section written for a symmetric matrix reproduces the matrix (symmetric, zero diagonal where not given), independent of line breaks, and any shorter or longer section is rejected.", "quantifier": "all sizes and symmetric matrices, all line layouts, all formats", "why_tests_cant": "Index arithmetic for six formats and all sizes.", "anchors": ["verypy/cvrp_io.py:read_TSPLIB_CVRP"]}
{"id": "C34", "title": "Writing and reading a TSPLIB file round-trips the distances", "statement": "The UPPER_ROW weight section written by write_TSPLIB_file for (a selection of) a matrix is read back by read_TSPLIB_CVRP as the same (selected) symmetric matrix.", "quantifier": "all matrices, all index selections", "why_tests_cant": "Round trip over an infinite domain.", "anchors": ["verypy/cvrp_io.py:write_TSPLIB_file", "verypy/cvrp_io.py:read_TSPLIB_CVRP"]}
{"id": "C35", "title": "Relocating the depot to index 0 relabels the instance consistently", "statement": "When the DEPOT_SECTION names node k, the returned distances are those of the file with node k moved to the front and the other nodes kept in order. A file that names two depots is refused.", "quantifier": "all sizes, matrices and depot ids", "why_tests_cant": "Refuted: in-place row/column permutation loops stop one short; tests only use depot 1.", "anchors": ["verypy/cvrp_io.py:read_TSPLIB_CVRP"]}
{"id": "C36", "title": "Solution file formats round-trip", "statement": "as_VRPH_solution can be decoded back to the routes, and the text written by as_OPT_solution is read back by read_OPT_CVRP as the same solution, cost and number of routes.", "quantifier": "all solutions", "why_tests_cant": "Round trip over all solutions; the OPT half is refuted.", "anchors": ["verypy/cvrp_io.py:as_VRPH_solution", "verypy/cvrp_io.py:as_OPT_solution", "verypy/cvrp_io.py:read_OPT_CVRP"]}
{"id": "C37", "title": "3-opt* moves keep customers and are exactly priced", "statement": "do_3optstar_move returns a depot-delimited giant tour over the same customers whose cost differs from the input's by exactly the returned delta.", "quantifier": "all depot-delimited solutions, symmetric matrices with D[0,0]=0", "why_tests_cant": "Sixteen reconnection recipes over arbitrary cut positions and depot positions.", "anchors": ["verypy/local_search/solution_operators.py:do_3optstar_move", "verypy/local_search/solution_operators.py:MOVES_3OPTSTAR"]}
{"id": "C38", "title": "3-opt* moves keep feasibility", "statement": "If every route of the input satisfies C and L then so does every route of the tour returned by do_3optstar_move.", "quantifier": "all depot-delimited solutions, symmetric matrices, demands, limits", "why_tests_cant": "Feasibility is checked on cumulative sums per reconnection without building the tour.", "anchors": ["verypy/local_search/solution_operators.py:_check_3opt_move", "verypy/local_search/solution_operators.py:_build_cumulative_lists"]}
{"id": "C39", "title": "Every heuristic returns some solution for every non-empty instance", "statement": "For each instance with at least one customer the savings family returns a solution (not None).", "quantifier": "all instances, including one with a single customer", "why_tests_cant": "Boundary sizes; refuted for the suppression variant with one customer.", "anchors": ["verypy/classic_heuristics/suppression_savings.py", "verypy/classic_heuristics/parallel_savings.py"]}
{"id": "C40", "title": "Route-first-cluster-second splits the tour into feasible consecutive routes", "statement": "rfcs_init's splitting step cuts the giant tour at depot returns into consecutive segments covering each customer exactly once, every segment within C and L.", "quantifier": "all giant tours, matrices, demands, limits", "why_tests_cant": "Shortest path bookkeeping over all segmentations.", "anchors": ["verypy/classic_heuristics/rfcs.py"]}
{"id": "C41", "title": "Post-optimization with a service-time-free matrix keeps length feasibility", "statement": "If every route satisfies L under D2D_c(D,st) (st even), then after do_local_search with 2-opt/3-opt on D every route still satisfies L under D2D_c(D,st).", "quantifier": "all matrices, even st, solutions", "why_tests_cant": "Relational property of two matrices over all local search histories (the command line tool optimizes on D, not on D_c).", "anchors": ["verypy/VeRyPy.py:main", "verypy/local_search/__init__.py:do_local_search", "verypy/cvrp_ops.py:D2D_c"]}
{"id": "C42", "title": "Parallel savings leaves no feasible profitable merge", "statement": "When parallel_savings_init with the Clarke-Wright savings returns, no two routes of the solution can be joined end to end (either of them reversed or not) into a route that satisfies C and L, unless minimize_K=False and the join would cost more than it saves.", "quantifier": "all symmetric matrices with the triangle inequality, non-negative demands, limits, both objectives", "why_tests_cant": "A statement about all pairs of routes of the final solution, over all merge histories: a merge rejected early must stay impossible.", "anchors": ["verypy/classic_heuristics/parallel_savings.py:parallel_savings_init", "verypy/classic_heuristics/parallel_savings.py:clarke_wright_savings_function"]}
{"id": "C43", "title": "Sequential savings closes a route only when no remaining customer fits its ends", "statement": "In the solution of sequential_savings_init with the Clarke-Wright savings, no route can be extended at either end by a customer of a later route within C and L, unless minimize_K=False and the extension would cost more than it saves.", "quantifier": "all symmetric matrices with the triangle inequality, non-negative demands, limits, both objectives, all complete seed orders", "why_tests_cant": "Ranges over all merge histories and all pairs of routes of the result.", "anchors": ["verypy/classic_heuristics/sequential_savings.py:sequential_savings_init", "verypy/classic_heuristics/sequential_savings.py:clarke_wright_savings"]}
{"id": "C44", "title": "Multi-run savings heuristics return the best of their runs", "statement": "gaskell_savings_init (method both) is never beaten by either of its two savings functions alone, paessens_savings_init never by any single parameter pair of its strategy, and suppression_savings_init with more rounds never by itself with fewer; better means fewer routes then lower cost with minimize_K, lower cost otherwise.", "quantifier": "all symmetric instances, both objectives, all strategies, all numbers of rounds", "why_tests_cant": "Quantifies over every instance and every member of the family of runs; the suppression list is mutated across runs.", "anchors": ["verypy/classic_heuristics/gaskell_savings.py:gaskell_savings_init", "verypy/classic_heuristics/paessens_savings.py:paessens_savings_init", "verypy/classic_heuristics/suppression_savings.py:suppression_savings_init"]}
{"id": "C45", "title": "A tour without 3-opt* move is a 3-opt* local optimum", "statement": "If do_3optstar_move finds no move then no feasible reconnection of the tour after removing three edges (parts exchanged, reversed, or moved behind the end at a depot) is cheaper by more than the tolerance; with best accept no such reconnection beats the returned one by more than the tolerance.", "quantifier": "all depot-delimited solutions, symmetric non-negative matrices, non-negative demands, limits, both acceptance strategies", "why_tests_cant": "The move check works on cached partial sums; a wrong sum silently rejects improving moves, which no test on returned moves shows.", "anchors": ["verypy/local_search/solution_operators.py:do_3optstar_move", "verypy/local_search/solution_operators.py:_check_3opt_move"]}
{"id": "C46", "title": "Additional constraints written to or given in an instance file are read back", "statement": "The route length limit written into a .vrp file by write_TSPLIB_file is read back exactly by read_TSBLIB_additional_constraints, and a service time section giving every customer the same time (and the depot 0) yields that time.", "quantifier": "all instances, limits and service times", "why_tests_cant": "Characters of every possible file; the service time half is refuted.", "anchors": ["verypy/cvrp_io.py:read_TSBLIB_additional_constraints", "verypy/cvrp_io.py:write_TSPLIB_file"]}
{"id": "C47", "title": "Interrupting nearest neighbour construction yields a complete feasible solution", "statement": "If KeyboardInterrupt is delivered at any point of nearest_neighbor_init's main loop, the solution attached to the re-raised exception serves every customer exactly once, and respects C and L whenever every customer can be served alone.", "quantifier": "all crash points, inputs, numbers of emerging routes, modes and forbidden nodes", "why_tests_cant": "Ranges over every interruption point; there is a one-statement window in which a finished route is both stored and still emerging.", "anchors": ["verypy/classic_heuristics/nearest_neighbor.py:nearest_neighbor_init"]}
{"id": "C48", "title": "Route-first-cluster-second finds the cheapest consecutive partition", "statement": "Of all feasible partitions of the giant tour into routes of consecutive customers (starting anywhere on the tour), the one returned has the least total cost, with a fixed cost per route added for minimize_K; the returned routes are not longer than those compared.", "quantifier": "all giant tours, matrices, demands, limits, tour improvement functions", "why_tests_cant": "The shortest path computation runs its loops in an unusual order and the comparison is with exponentially many partitions.", "anchors": ["verypy/classic_heuristics/rfcs.py:_partition_to_routes_with_cost_matrix", "verypy/classic_heuristics/rfcs.py:route_first_cluster_second_init"]}
{"id": "C49", "title": "Route-first-cluster-second survives interrupts", "statement": "If the user interrupts the partitioning at any point, the exception carries a solution that serves every customer exactly once with feasible routes.", "quantifier": "all instances and all interrupt points during the partitioning", "why_tests_cant": "The state at the interrupt is an arbitrary prefix of the cost table.", "anchors": ["verypy/classic_heuristics/rfcs.py:_partition_to_routes_with_cost_matrix"]}
{"id": "C50", "title": "Cheapest insertion always makes the best insertion", "statement": "cheapest_insertion_init builds its routes by the documented rule: in each turn the insertion that is best by the strain criterion (ties: secondary criterion, then saving) among all insertions of unrouted customers into the current route that keep C and L (and, unless minimize_K, are not dearer than a route of their own) is made; a route is closed only when no such insertion exists; routes are begun with the farthest or closest unrouted customer or by best strain.", "quantifier": "all matrices, demands, limits, strain callbacks, numbers of emerging routes, ways to begin a route, heap tie orders", "why_tests_cant": "The heap holds stale and pruned entries; that the entry popped is the best of all admissible insertions, and that none is left when the heap runs dry, is an invariant over the whole history of insertions.", "anchors": ["verypy/classic_heuristics/cheapest_insertion.py:cheapest_insertion_init", "verypy/classic_heuristics/cheapest_insertion.py:_new_potential_insertions", "verypy/classic_heuristics/cheapest_insertion.py:_seems_valid_insertion", "verypy/classic_heuristics/cheapest_insertion.py:_try_insert_and_update"]}
{"id": "C51", "title": "An interrupted cheapest insertion delivers a complete solution", "statement": "When cheapest_insertion_init is interrupted while building routes, the KeyboardInterrupt carries a solution that serves each customer exactly once and keeps C and L.", "quantifier": "all inputs, all points of interruption in the main loop, all iteration orders of sets", "why_tests_cant": "Ranges over every interruption point; routes, completed routes and the set of unrouted customers are updated by separate statements.", "anchors": ["verypy/classic_heuristics/cheapest_insertion.py:cheapest_insertion_init"]}
{"id": "C52", "title": "Mole-Jameson insertion serves everyone, optimises the routes and returns the best over the strain criteria", "statement": "mole_jameson_insertion_init returns a solution that visits every customer once within C and L whenever each customer can be served alone; no relocation of a customer to another route and no 2-opt move improves it; it is at least as good, under the chosen objective, as what every tried strain criterion gives before and after the refinement; the refinement keeps the customers and limits, never uses more routes, and empties the least loaded route whenever that pays.", "quantifier": "every metric instance with at least one customer and non-negative demands, both objectives, every selection of strain criteria, every tie-break among heap entries", "why_tests_cant": "The refinement alternates two local searches with redistribution until nothing changes: that it ends, and with what guarantees, has to hold for every solution the insertion can build.", "anchors": ["verypy/classic_heuristics/mole_jameson_insertion.py:mole_jameson_insertion_init", "verypy/classic_heuristics/mole_jameson_insertion.py:_refine_solution", "verypy/classic_heuristics/mole_jameson_insertion.py:_try_insert_2opt_and_update"]}
{"id": "C53", "title": "Interrupting Mole-Jameson insertion gives a usable solution", "statement": "Ctrl-C during mole_jameson_insertion_init raises KeyboardInterrupt carrying a complete solution within C and L that is at least as good as what the criteria finished so far gave.", "quantifier": "every point between statements at which the interrupt can arrive, in every criterion of every selection", "why_tests_cant": "The interrupt can arrive between any two statements of any of up to nine runs; tests hit one point at a time.", "anchors": ["verypy/classic_heuristics/mole_jameson_insertion.py:mole_jameson_insertion_init", "verypy/classic_heuristics/mole_jameson_insertion.py:_try_insert_2opt_and_update", "verypy/classic_heuristics/cheapest_insertion.py:cheapest_insertion_init"]}
{"id": "C54", "title": "Sweep routes are sectors of the circle", "statement": "One sweep from a given customer in a given direction cuts the circle of customers into consecutive sectors, each routed by the routing algorithm, and a sector ends only where the next customer in the direction of the sweep would break the capacity or the length limit.", "quantifier": "all sweep orders, starts, directions, limits and routing algorithms that return a tour of the nodes given", "why_tests_cant": "Whether a sector was ended too early or a customer was skipped depends on every prefix of the sweep and on the wrap-around; tests look at a few orders.", "anchors": ["verypy/classic_heuristics/sweep.py:do_one_sweep", "verypy/classic_heuristics/sweep.py:_ensure_L_feasible"]}
{"id": "C55", "title": "An interrupted sweep hands over the best of the sweeps finished", "statement": "If sweep_init is interrupted after some of its sweeps have ended, the KeyboardInterrupt carries a complete feasible solution that none of the finished sweeps beats.", "quantifier": "all interrupt times between and within sweeps, orders, starts, directions, limits", "why_tests_cant": "The time of the interrupt is arbitrary.", "anchors": ["verypy/classic_heuristics/sweep.py:sweep_init"]}
{"id": "C56", "title": "The Lagrangean 3-opt* heuristic hands over a complete feasible solution", "statement": "lr3opt_init returns, and on Ctrl-C raises KeyboardInterrupt with, a solution without empty routes that visits every customer once within C and L, whenever each customer can be served alone, however infeasible the initial solution and the intermediate solutions are.", "quantifier": "all symmetric instances, initial solutions, multipliers, limits to the doublings, with and without postoptimisation, all interrupt times", "why_tests_cant": "The search wanders through infeasible solutions; whether the last one is repaired into a complete feasible one has to hold at every point where it can stop or be stopped.", "anchors": ["verypy/classic_heuristics/lr3opt.py:lr3opt_init", "verypy/classic_heuristics/lr3opt.py:_force_feasible"]}
{"id": "C57", "title": "The Lagrangean search follows the penalised objective and ends in a local optimum", "statement": "Every move taken changes cost plus penalties for the exceeded capacity and length by exactly the delta computed and improves it by more than the tolerance; a search that finds no move has no better 3-opt* neighbour; a solution returned without repair has no feasible 3-opt* neighbour that is cheaper by more than the tolerance, and postoptimisation does not change it.", "quantifier": "all symmetric instances, solutions, multipliers, limits, acceptance strategies", "why_tests_cant": "The change of the penalties is pieced together from sixteen move shapes times the positions of depot visits; tests cannot cover all solutions and multipliers.", "anchors": ["verypy/classic_heuristics/lr3opt.py:_check_lr3opt_move", "verypy/classic_heuristics/lr3opt.py:lr3opt_init", "verypy/local_search/solution_operators.py:do_3optstar_move"]}
{"id": "C58", "title": "The Lagrangean 3-opt* heuristic ends", "statement": "lr3opt_init returns for every instance, also if no feasible solution exists.", "quantifier": "all symmetric instances, initial solutions, multipliers and limits to the doublings", "why_tests_cant": "Termination of a search whose objective keeps changing.", "anchors": ["verypy/classic_heuristics/lr3opt.py:lr3opt_init"]}
{"id": "C59", "title": "Tyagi's heuristic serves everyone within the limits", "statement": "tyagi_init returns a solution that visits every customer exactly once on routes within C and L, with no more routes than its first grouping, whenever each customer can be served alone and the TSP solver permutes a route without lengthening it.", "quantifier": "all instances, limits, options (select_grouping, all positions or ends only, large and close single customers only), TSP solvers", "why_tests_cant": "The grouping puts customers back into queues that are consumed lazily; a customer lost or served twice depends on the whole history of the queues.", "anchors": ["verypy/classic_heuristics/tyagi_nearest_neighbor.py:tyagi_init", "verypy/classic_heuristics/nearest_neighbor.py:nearest_neighbor_init", "verypy/classic_heuristics/nearest_neighbor.py:_PeekQueue"]}
{"id": "C60", "title": "Tyagi's grouping follows the nearest-neighbour rule with interchanges", "statement": "Each group begins with the free customer nearest to the depot and grows by the one nearest to the customer added last; when it is full, the nearest free customer replaces a customer of the group (at its ends or anywhere) if the group stays feasible and gets better, by the best such interchange, and the replaced customer is served later.", "quantifier": "all instances, limits, forbidden customers, both interchange variants", "why_tests_cant": "A rule about every step of a run over arbitrary instances.", "anchors": ["verypy/classic_heuristics/tyagi_nearest_neighbor.py:route_end_interchange", "verypy/classic_heuristics/nearest_neighbor.py:nearest_neighbor_init"]}
{"id": "C61", "title": "Tyagi's heuristic returns the grouping its criterion prefers, and hands over a solution when interrupted", "statement": "If some customer must (or does) have a route of their own, the groupings with each admissible customer served alone are compared with the first one, none with more routes, and the returned solution is one that no other beats by select_grouping; otherwise it is the first grouping. Ctrl-C raises KeyboardInterrupt with a solution that serves everybody.", "quantifier": "all instances with a capacity, all criteria, all interrupt times", "why_tests_cant": "Optimality over all alternatives considered, for all instances, and interrupts at any point.", "anchors": ["verypy/classic_heuristics/tyagi_nearest_neighbor.py:tyagi_init", "verypy/classic_heuristics/tyagi_nearest_neighbor.py:_calculate_penalty", "verypy/classic_heuristics/tyagi_nearest_neighbor.py:_calculate_route_demand_statistics"]}
{"id": "C62", "title": "Gillett and Miller's algorithm serves everyone within the limits and keeps the best sweep", "statement": "gillet_miller_init ends and returns a solution in which each customer is served exactly once within C and L, and which is that of one of its sweeps and not beaten by any of the others; without exchanges it agrees with the plain sweep; an interrupt hands over the best sweep finished.", "quantifier": "all sweep orders, starts, directions, limits, scores, solvers returning a tour of the nodes given, interrupt times", "why_tests_cant": "Exchanges move customers into and out of a route and block others; whether someone is lost, a limit is broken or the search cycles depends on the whole history of exchanges.", "anchors": ["verypy/classic_heuristics/gillet_miller_sweep.py:gillet_miller_init", "verypy/classic_heuristics/gillet_miller_sweep.py:_improvement_callback", "verypy/classic_heuristics/sweep.py:do_one_sweep"]}
{"id": "C63", "title": "Gillett and Miller exchange customers by their rule and leave the distances alone", "statement": "When a route is complete, the customer with the smallest score is exchanged for the closest unrouted customer to the one before the next (or that one and its own closest) exactly if the new route is within both limits and route and path through the next five customers are together no longer; the caller's distance matrix is the same afterwards.", "quantifier": "all routes, states of the sweep, scores, solvers, matrices, limits", "why_tests_cant": "The decision compares four tour lengths for every possible state of the sweep; the matrix is changed in place during the calculation.", "anchors": ["verypy/classic_heuristics/gillet_miller_sweep.py:_improvement_callback", "verypy/classic_heuristics/gillet_miller_sweep.py:_shortest_path_through_nodes"]}
{"id": "C64", "title": "Matching based savings: result", "statement": "A solution returned by the matching based savings algorithm serves every customer exactly once within the capacity and length limits, its routes are tours the TSP solver gave, and when fewer vehicles are not the aim it never costs more than a vehicle for every customer.", "quantifier": "every instance, limits, value for infeasible pairs, TSP solver that returns tours with their true length and integer program solver whose answers are optimal", "why_tests_cant": "The savings are kept in a dictionary that is re-indexed whenever two sets are joined; a wrong index after some sequence of joins loses or repeats a customer only on particular instances.", "anchors": ["verypy/classic_heuristics/matchingvrp.py: mbsa_init, _calculate_savings, _mmp_solve"]}
{"id": "C65", "title": "Matching based savings: a solution is always returned", "statement": "The matching based savings algorithm ends and returns a solution for every instance whose customers can be served one by one.", "quantifier": "every instance, limits, minimize_K, value for infeasible pairs and solvers", "why_tests_cant": "Ending depends on the whole sequence of joins; an endless loop cannot be told from a slow run by a test.", "anchors": ["verypy/classic_heuristics/matchingvrp.py: mbsa_init"]}
{"id": "C66", "title": "Matching based savings: which routes are joined", "statement": "Starting from one route per customer the algorithm solves a maximum weight matching over the savings and joins the best pair of the matching, until no pair that fits saves anything.", "quantifier": "every instance, limits, value for infeasible pairs and solvers", "why_tests_cant": "The choice is made among all pairs of routes of every intermediate state.", "anchors": ["verypy/classic_heuristics/matchingvrp.py: mbsa_init, _mmp_solve, _mmp_add_cnts_sum, _calculate_secondary_criteria"]}
{"id": "C67", "title": "Matching based savings: interrupts", "statement": "If the matching based savings algorithm is interrupted at any moment, the solution it hands over serves every customer exactly once within the limits.", "quantifier": "every instance, limits, solvers and every statement at which the interrupt can arrive", "why_tests_cant": "The sets, savings and caches are inconsistent between statements; every crash point of every run has to be considered.", "anchors": ["verypy/classic_heuristics/matchingvrp.py: mbsa_init, _geedy_merge"]}
{"id": "C68", "title": "The petal algorithm serves everybody", "statement": "For every metric problem in which each customer can be served alone, for every order of the sweep, TSP solver, and every setting of K, minimize_K, relaxation, minimum iterations, restricted ratio, allow_infeasible and discarding, if petal_init ends by itself (no required_iterations, no interrupt) with an integer program solver that answers truthfully, the solution it returns serves every customer exactly once within the capacity and length limits. The 'single' mode of the command line is expected to do so too.", "quantifier": "all symmetric metric problems, demands, limits, sweep orders, TSP solvers, truthful integer program solvers and settings", "why_tests_cant": "The answer depends on what the external solver answers for every set covering problem of the search; tests fix a handful of instances and one solver.", "anchors": ["verypy/classic_heuristics/petalvrp.py:petal_init", "verypy/classic_heuristics/petalvrp.py:_solve_set_covering", "verypy/classic_heuristics/petalvrp.py:get_ptl_algorithm"]}
{"id": "C69", "title": "The petal algorithm ends", "statement": "For every metric problem and truthful integer program solver petal_init ends after finitely many iterations, whatever the required or minimum number of iterations is and whether or not a number of routes is asked for or minimized.", "quantifier": "all problems, solvers and settings; no bound on the number of iterations", "why_tests_cant": "Nontermination cannot be observed by a test, and the number of iterations grows with the number of combinations of petals.", "anchors": ["verypy/classic_heuristics/petalvrp.py:petal_init"]}
{"id": "C70", "title": "The petal algorithm returns a best choice of petals", "statement": "If no number of routes is asked for and minimize_K is off, the solution returned by petal_init is not dearer than any way to serve every customer once with petals: routes the TSP solver gives for consecutive customers of the sweep that are reached with all shorter runs within the limits. This holds as long as no more than 10000 petals are known at the end.", "quantifier": "all problems, sweep orders, TSP solvers, truthful integer program solvers, and all choices of petals", "why_tests_cant": "The number of choices is exponential, and the three petal sets and the forbidden combinations decide which are looked at; tests compare single instances with known objective values.", "anchors": ["verypy/classic_heuristics/petalvrp.py:petal_init", "verypy/classic_heuristics/petalvrp.py:_generate_overconstrained_petals", "verypy/classic_heuristics/petalvrp.py:_add_set_covering_constraints", "verypy/classic_heuristics/sweep.py:do_one_sweep"]}
{"id": "C71", "title": "Repairs and relaxations of petal solutions", "statement": "Removing visits of customers that are served more than once leaves each of them served once, keeps the limits and the other customers, does not make the solution dearer and reports whether everybody is served. Every relaxed petal made from a solution is a route within the limits whose stored cost and load are right; and the moves behind relaxed petals reduce the total length, as documented.", "quantifier": "all metric problems, all sets of feasible routes with customers served any number of times, all limits on discarded customers", "why_tests_cant": "Index updates after deletions and the discard search go wrong only for particular overlaps of routes.", "anchors": ["verypy/classic_heuristics/petalvrp.py:_remove_multiserved", "verypy/classic_heuristics/petalvrp.py:_generate_solution_relaxation_petals", "verypy/classic_heuristics/petalvrp.py:_regain_feasibility"]}
{"id": "C72", "title": "The petal algorithm when interrupted or limited", "statement": "Wherever petal_init is interrupted during the integer program, and for every limit on the iterations, what it returns or hands over with KeyboardInterrupt is, if not None, a set of routes within the limits that serves nobody twice; and an interrupt is passed on to the caller.", "quantifier": "all metric problems, solvers with interrupts at any of their calls, all settings without a given number of routes", "why_tests_cant": "The point of interruption is arbitrary, and what is handed over depends on the state of the search there.", "anchors": ["verypy/classic_heuristics/petalvrp.py:petal_init", "verypy/classic_heuristics/petalvrp.py:_relax_customer_constraints_with_feasRelax"]}
{"id": "C73", "title": "CAWLIP savings: a feasible solution no 2-opt move improves", "statement": "For every problem that can be solved with one customer per route, CAWLIP savings ends with a solution that serves everybody within the limits, whose routes reorder the routes of parallel savings without making one longer, and no route of which a 2-opt move shortens by more than the tolerance. The improvement between routes that its description promises should leave no profitable exchange of tails.", "quantifier": "all symmetric matrices, demands, limits, tolerances", "why_tests_cant": "the local optimality is about every pair of edges of every result", "anchors": ["verypy/classic_heuristics/cawlip_savings.py:cawlip_savings_init"]}
{"id": "C74", "title": "Best of n runs: the best is returned, also after an interrupt", "statement": "Repeating an algorithm returns and prints the best of the solutions found, the first one of equals, by the chosen objective, with its cost with and without service times. After an interrupt the best of what was found until then, including the interrupted run's, is handed over.", "quantifier": "all sequences of outcomes of the runs, matrices and objectives", "why_tests_cant": "runs can give solutions in any order and be interrupted at any place", "anchors": ["verypy/shared_cli.py:read_and_solve_a_problem"]}
{"id": "C75", "title": "VeRyPy's main loop: every algorithm on every problem, truthful reports", "statement": "The program solves each problem file with each algorithm, in this order, goes on after failures, stops after the first interrupt, and reports for each a solution with the customers found, its real cost and number of routes, called feasible exactly if it is; post-optimization never makes it worse or infeasible.", "quantifier": "all problems, algorithm outcomes, output options and post-optimizations", "why_tests_cant": "failures and interrupts can come at every job, and every solution an algorithm returns is reported", "anchors": ["verypy/VeRyPy.py:main"]}
{"id": "C76", "title": "Finding the problem files", "statement": "Given files, lists of files and directories, the listing ends and contains exactly the problem files named or held in the directories, with the recursive option in all their subdirectories, each file of a directory once and each kind in natural order.", "quantifier": "all directory trees and lists of paths", "why_tests_cant": "directory trees have any depth and names", "anchors": ["verypy/shared_cli.py:get_a_problem_file_list", "verypy/util.py:natural_sort"]}
{"id": "C77", "title": "Choosing the algorithms", "statement": "Exactly the algorithms whose names, or whose groups, are given are run, whatever the case of the letters, without the ones that need a solver which is not installed; the forbidden ones, and only those, are left out.", "quantifier": "all lists of selected and forbidden names", "why_tests_cant": "all texts can be given as names", "anchors": ["verypy/__init__.py:get_algorithms", "verypy/VeRyPy.py:main"]}
{"id": "C78", "title": "Two phase heuristic: a feasible solution, the better of both phases", "statement": "For every problem that can be solved with one customer per route and for all settings, the two phase heuristic of Christofides, Mingozzi and Toth ends with a solution that serves everybody once within the limits, and no solution that either phase found in any of the attempts made beats it.", "quantifier": "all matrices, demands, limits, multipliers, seed rules, association settings, retries and outcomes of the shuffling", "why_tests_cant": "every customer and every random order can break it", "anchors": ["verypy/classic_heuristics/cmt_2phase.py:cmt_2phase_init", "verypy/classic_heuristics/cmt_2phase.py:_phase_one", "verypy/classic_heuristics/cmt_2phase.py:_phase_two"]}
{"id": "C79", "title": "Two phase heuristic: who is on which route of phase one", "statement": "Without a length limit, the first customer of each route is the best one left by the seed rule, and of the others exactly those are on it that fit together with it and those who come before them by the savings criterion.", "quantifier": "all matrices, demands, capacities, seed rules, multipliers and orders", "why_tests_cant": "the rule is about all customers and prefixes of the savings list", "anchors": ["verypy/classic_heuristics/cmt_2phase.py:_phase_one"]}
{"id": "C80", "title": "Two phase heuristic: phase two keeps the seeds and tries the n best routes", "statement": "Phase two ends, and a solution it finds has exactly one route for each seed of phase one, which the seed is on. With the number of associations set to n, a customer is also tried on its n-th best route before phase two gives up.", "quantifier": "all seeds, matrices, demands, limits, settings and orders", "why_tests_cant": "giving up depends on the whole history of associations", "anchors": ["verypy/classic_heuristics/cmt_2phase.py:_phase_two"]}
{"id": "C81", "title": "Two phase heuristic: interrupts", "statement": "An interrupt at any time hands over the best solution so far completed with a route for each customer not yet routed: routes within the limits that serve everybody once.", "quantifier": "all interrupt points of all runs", "why_tests_cant": "an interrupt can come between any two statements", "anchors": ["verypy/classic_heuristics/cmt_2phase.py:cmt_2phase_init", "verypy/classic_heuristics/cmt_2phase.py:_phase_one", "verypy/classic_heuristics/cmt_2phase.py:_phase_two"]}
{"id": "C82", "title": "Wren and Holliday: a feasible solution, the best of the improved sweeps", "statement": "Whatever the heuristic of Wren and Holliday returns serves everybody once within the limits. It is what one of its sweeps was improved to, and nothing that another sweep was improved to beats it.", "quantifier": "all metric instances in which each customer can be served alone, all angles, overlaps, sweep starts, set orders and options", "why_tests_cant": "the improvement steps drop customers and insert them again, over arbitrarily many turns", "anchors": ["verypy/classic_heuristics/wren_holliday_sweep.py:wren_holliday_init", "verypy/classic_heuristics/wren_holliday_sweep.py:inspect_heuristic", "verypy/classic_heuristics/wren_holliday_sweep.py:single_heuristic", "verypy/classic_heuristics/wren_holliday_sweep.py:pair_heuristic", "verypy/classic_heuristics/wren_holliday_sweep.py:complain_heuristic", "verypy/classic_heuristics/wren_holliday_sweep.py:delete_heuristic", "verypy/classic_heuristics/wren_holliday_sweep.py:disentangle_heuristic"]}
{"id": "C83", "title": "Wren and Holliday: never worse than the sweeps", "statement": "No sweep that the heuristic of Wren and Holliday starts from beats what it returns.", "quantifier": "all metric instances, angles, overlaps, sweep starts, set orders and options", "why_tests_cant": "one instance is enough to break it, and each improvement step can", "anchors": ["verypy/classic_heuristics/wren_holliday_sweep.py:wren_holliday_init"]}
{"id": "C84", "title": "Wren and Holliday: it ends", "statement": "The heuristic of Wren and Holliday ends on every instance.", "quantifier": "all metric instances, angles, overlaps, sweep starts, set orders and options", "why_tests_cant": "a test cannot tell a long run from an endless one", "anchors": ["verypy/classic_heuristics/wren_holliday_sweep.py:wren_holliday_init"]}
{"id": "C85", "title": "Wren and Holliday: interrupts", "statement": "Interrupted at any time, the heuristic of Wren and Holliday hands over a solution that serves everybody once within the limits.", "quantifier": "all interrupt points of all runs", "why_tests_cant": "an interrupt can come between any two steps", "anchors": ["verypy/classic_heuristics/wren_holliday_sweep.py:wren_holliday_init"]}
{"id": "C86", "title": "Fisher and Jaikumar: a feasible solution with at most K routes, the best found", "statement": "Whatever the generalized assignment heuristic returns serves everybody once within the limits, and no other solution it has found beats it. If the number of routes is given, the solution has that many.", "quantifier": "all instances, seed points, solver answers, TSP tours and options", "why_tests_cant": "the assignments come from an integer program solver over any number of attempts", "anchors": ["verypy/classic_heuristics/gapvrp.py:gap_init", "verypy/classic_heuristics/gapvrp.py:_solve_gap", "verypy/classic_heuristics/gapvrp.py:_decision_variables_to_assignments"]}
{"id": "C87", "title": "Fisher and Jaikumar: it ends", "statement": "The generalized assignment heuristic ends on every instance, whatever the solver answers to its programs, timeouts included.", "quantifier": "all instances, options and sequences of solver answers", "why_tests_cant": "a test cannot tell a long run from an endless one", "anchors": ["verypy/classic_heuristics/gapvrp.py:gap_init"]}
{"id": "C88", "title": "Fisher and Jaikumar: as few routes as possible", "statement": "When told to minimize the number of routes, the generalized assignment heuristic finds a solution with as few routes as the constraints of the program allow, whenever there is one.", "quantifier": "all instances, seed points and honest solver answers", "why_tests_cant": "minimality is a claim about all solutions", "anchors": ["verypy/classic_heuristics/gapvrp.py:gap_init"]}
{"id": "C89", "title": "Fisher and Jaikumar: customers go to the seeds at least cost", "statement": "The customers are assigned to the routes so that the sum of their insertion costs with respect to the seed points of the routes is as small as the capacities allow.", "quantifier": "all instances, seed points and assignments of the customers to seeds", "why_tests_cant": "minimality is a claim about all assignments", "anchors": ["verypy/classic_heuristics/gapvrp.py:_solve_gap", "verypy/classic_heuristics/gapvrp.py:gap_init"]}
{"id": "C90", "title": "Fisher and Jaikumar: answers of the solver are checked with a length limit", "statement": "With a length limit, where the solver may have been allowed to break constraints, everybody is on exactly one route of what is returned and the routes are within the limits, whatever the solver answered.", "quantifier": "all instances and all sequences of solver answers, right or wrong", "why_tests_cant": "the solver can answer anything", "anchors": ["verypy/classic_heuristics/gapvrp.py:gap_init"]}
{"id": "C91", "title": "Fisher and Jaikumar: K groups of cones of equal demand", "statement": "The sweep that places the seed points divides the customers into K groups of the same demand, each customer being in at least one of them.", "quantifier": "all demands, numbers of routes, sweeps and starts of them", "why_tests_cant": "one distribution of demands is enough to make fewer groups", "anchors": ["verypy/classic_heuristics/gapvrp.py:_sweep_seed_points"]}
{"id": "C92", "title": "Fisher and Jaikumar: interrupts", "statement": "Interrupted at any attempt, the generalized assignment heuristic hands over the best of the solutions found so far, and it serves everybody once within the limits.", "quantifier": "all interrupt points of all runs", "why_tests_cant": "an interrupt can come in any attempt", "anchors": ["verypy/classic_heuristics/gapvrp.py:gap_init"]}
{"id": "C93", "title": "TSP with Gurobi: a shortest tour", "statement": "solve_tsp_gurobi returns a shortest closed tour of the nodes from the first of them with its length, for open and closed node lists. It fails only if Gurobi is interrupted or runs out of time.", "quantifier": "all node lists, symmetric distances and all orders in which Gurobi finds solutions and is given constraints", "why_tests_cant": "minimality is a claim about all tours, and the constraints are added while the program is solved", "anchors": ["verypy/tsp_solvers/tsp_solver_gurobi.py:solve_tsp_gurobi", "verypy/tsp_solvers/tsp_solver_gurobi.py:_subtour", "verypy/tsp_solvers/tsp_solver_gurobi.py:_subtourelim"]}
{"id": "C94", "title": "TSP with LKH: the tour and its length", "statement": "solve_tsp_lkh writes a problem file that describes the distances between the nodes and returns what LKH wrote as a closed tour of the nodes, from the depot if it is one of them, with its exact length if the distances are integers.", "quantifier": "all node lists, integer distance matrices and tours LKH may write", "why_tests_cant": "the tour can be any permutation, with the depot at any place of it", "anchors": ["verypy/tsp_solvers/tsp_solver_lkh.py:solve_tsp_lkh", "verypy/cvrp_io.py:write_TSPLIB_file"]}
{"id": "C95", "title": "TSP with LKH: float distances", "statement": "For float distances the length that solve_tsp_lkh returns is the length of the tour it returns.", "quantifier": "all node lists, float distance matrices and accuracies", "why_tests_cant": "rounding differs with every distance", "anchors": ["verypy/tsp_solvers/tsp_solver_lkh.py:solve_tsp_lkh"]}
{"id": "C96", "title": "TSP with LKH: incomplete tour files", "statement": "If LKH fails or is stopped while it writes its tour file, solve_tsp_lkh raises an exception and never returns a tour that misses nodes.", "quantifier": "all points at which the file may be cut off", "why_tests_cant": "the file may be cut off anywhere", "anchors": ["verypy/tsp_solvers/tsp_solver_lkh.py:solve_tsp_lkh"]}
{"id": "C97", "title": "TSP with ACOTSP: the tour and its length", "statement": "solve_tsp_acotsp returns the last tour that ACOTSP printed, as a closed tour of the nodes with its exact length, with and without ants.", "quantifier": "all node lists, distance matrices and outputs of ACOTSP", "why_tests_cant": "the output can be any number of permutations between other lines", "anchors": ["verypy/tsp_solvers/tsp_solver_acotsp.py:solve_tsp_acotsp"]}
{"id": "C98", "title": "The fast TSP solver", "statement": "solve_tsp_fast returns a tour of the nodes with its length; with fewer than 20 nodes it is a shortest one.", "quantifier": "all node lists and symmetric distance matrices", "why_tests_cant": "minimality is a claim about all tours", "anchors": ["verypy/tsp_solvers/tsp_solver_fast.py:solve_tsp_fast"]}
{"id": "C99", "title": "Naive moves of a whole solution", "statement": "The naive 2-opt, 1-point and 2-point moves return a solution made by one such move, within the limits, with its exact price, the best one with BEST_ACCEPT, and nothing only if no such move is an improvement.", "quantifier": "all solutions, symmetric or not, costs, demands, limits, strategies and bounds", "why_tests_cant": "minimality over all moves and the absence of moves are claims about all of them", "anchors": ["verypy/local_search/naive_implementations.py:do_naive_2opt_move", "verypy/local_search/naive_implementations.py:do_naive_1point_move", "verypy/local_search/naive_implementations.py:do_naive_2point_move", "verypy/local_search/naive_implementations.py:_naive_constraint_check"]}
{"id": "C100", "title": "Naive moves route by route", "statement": "The naive relocate and exchange moves improve every route that one such move within the limits can improve and leave the others alone; the price is that of all the moves, and it is better than the bound given.", "quantifier": "all solutions, costs, demands, limits, strategies and bounds", "why_tests_cant": "a claim about all routes and all moves of each", "anchors": ["verypy/local_search/naive_implementations.py:do_naive_relocate_move", "verypy/local_search/naive_implementations.py:do_naive_exchange_move", "verypy/local_search/naive_implementations.py:_apply_as_intra_route"]}
{"id": "C101", "title": "The naive local search", "statement": "do_naive_local_search ends with a solution within the limits that visits the same customers, is not worse than the one given and cannot be improved by any of the operators; with max_iterations it makes at most that many improvements.", "quantifier": "all feasible solutions, costs, demands, limits, strategies and lists of operators", "why_tests_cant": "termination and local optimality are claims about all inputs and moves", "anchors": ["verypy/local_search/naive_implementations.py:do_naive_local_search"]}
{"id": "C102", "title": "Naive 2-opt* and 3-opt*", "statement": "The naive 2-opt* and 3-opt* moves return a solution that is an improvement within the limits, or nothing if there is none.", "quantifier": "all solutions, costs, limits and bounds", "why_tests_cant": "the claim is about all solutions", "anchors": ["verypy/local_search/naive_implementations.py:do_naive_2optstar_move", "verypy/local_search/naive_implementations.py:do_naive_3optstar_move"]}
{"id": "C103", "title": "The naive and the other operators agree", "statement": "On one route the naive 2-opt, relocate and exchange moves find an improvement exactly if do_2opt_move, do_relocate_move and do_exchange_move do; with BEST_ACCEPT the improvements differ by no more than the tolerance.", "quantifier": "all feasible routes of different customers, costs, limits and strategies", "why_tests_cant": "the tests compare them on some random instances only", "anchors": ["verypy/local_search/naive_implementations.py:do_naive_2opt_move", "verypy/local_search/intra_route_operators.py:do_2opt_move", "verypy/local_search/intra_route_operators.py:do_relocate_move", "verypy/local_search/intra_route_operators.py:do_exchange_move"]}
{"id": "C104", "title": "Every heuristic passes the validation", "statement": "Whatever any of the construction heuristics returns for a problem with symmetric distances in which everybody could be served alone passes validate_solution_feasibility.", "quantifier": "all problems, all twenty heuristics and all their parameters", "why_tests_cant": "the test suite checks this on some instances only", "anchors": ["verypy/cvrp_ops.py:validate_solution_feasibility", "verypy/__init__.py:get_algorithms"]}
{"id": "C105", "title": "Interrupting the repeated savings runs hands over the best solution so far", "statement": "If the user interrupts Gaskell's, Paessens' or the suppression savings heuristic, the call raises KeyboardInterrupt with a solution that serves every customer and is not beaten by any of the runs completed before.", "quantifier": "all problems, strategies, numbers of runs, and every point of every run at which interrupts may arrive", "why_tests_cant": "an interrupt can arrive at any point of any run", "anchors": ["verypy/classic_heuristics/gaskell_savings.py:gaskell_savings_init", "verypy/classic_heuristics/paessens_savings.py:paessens_savings_init", "verypy/classic_heuristics/suppression_savings.py:suppression_savings_init", "verypy/classic_heuristics/parallel_savings.py:parallel_savings_init"]}
{"id": "C106", "title": "Distances between points", "statement": "calculate_D gives a symmetric matrix with a zero diagonal whose entries are the distances of the requested TSPLIB type: the larger or the summed coordinate difference, the Euclidean distance rounded up, down or to the nearest integer, or the pseudo-Euclidean (ATT) distance; the entries obey the triangle inequality.", "quantifier": "all lists of points with rational coordinates, all distance types", "why_tests_cant": "tests look at a few points; rounding and the triangle inequality range over all of them", "anchors": ["verypy/cvrp_io.py:calculate_D", "verypy/cvrp_io.py:_att"]}
{"id": "C107", "title": "Random problems can be solved", "statement": "A random problem has the number of customers asked for, the depot in the origin and demands between 1 and the capacity, so that any heuristic's solution of it passes the validation.", "quantifier": "all numbers of customers, capacities of at least 1 and random draws", "why_tests_cant": "random draws are not repeatable and unbounded", "anchors": ["verypy/cvrp_io.py:generate_CVRP", "verypy/shared_cli.py:cli"]}
{"id": "C108", "title": "Nearest neighbour with an automatic number of routes", "statement": "The parallel nearest neighbour algorithm returns the cheapest of the constructions with one, two, ... emerging routes, up to the number of routes the sequential construction needs, so never a worse one than the sequential algorithm; asked for a single run it returns the sequential one; minimizing the number of vehicles is refused; an interrupt hands over a solution that serves everybody and is not worse than those already found.", "quantifier": "all problems in which every customer can be served alone and no two nodes are in the same place, all options, all points of an interrupt", "why_tests_cant": "which number of routes wins, and when the user interrupts, depends on the problem and the moment", "anchors": ["verypy/classic_heuristics/nearest_neighbor.py:get_pnn_algorithm", "verypy/classic_heuristics/nearest_neighbor.py:get_snn_algorithm"]}
{"id": "C109", "title": "Printed statistics are true", "statement": "What is printed about a solution is true: it is called feasible exactly if all customers are served once and every route keeps the limits, the number of routes, the cost and the length are those of the solution, and the table has one row per route with its cost, length, load and customers, and the right totals. The cost that is judged by the length limit is printed.", "quantifier": "all problems, all solutions made of non-empty routes of customers, all verbosity levels", "why_tests_cant": "a few printed solutions do not show that every verdict and figure agrees with the solution", "anchors": ["verypy/shared_cli.py:print_solution_statistics"]}
{"id": "C110", "title": "Sweeps turn around the depot", "statement": "The sweep heuristic called with the points of the nodes visits every customer once, counterclockwise in the order of the angles seen from the depot, and starts at the customer closest to the depot if asked to, so that it serves everybody within the limits; called with a ready sweep it visits the customers of that sweep in its order.", "quantifier": "all lists of points with rational coordinates (also with customers in the depot or in the same direction), every way a sort may leave equal angles, all sweeps", "why_tests_cant": "angles and ties range over all placements of the customers", "anchors": ["verypy/classic_heuristics/sweep.py:cart2pol", "verypy/classic_heuristics/sweep.py:get_sweep_from_polar_coordinates", "verypy/classic_heuristics/sweep.py:get_sweep_from_cartesian_coordinates", "verypy/classic_heuristics/sweep.py:sweep_init"]}
{"id": "C111", "title": "Angular ranges of routes", "statement": "The ranges of angles by which Wren and Holliday's heuristic finds entangled routes contain every direction that a route passes, on the shorter way between neighbours and across the left axis too, and end in directions it passes; routes with two directions in common are found to overlap, and only such routes.", "quantifier": "all routes and angles", "why_tests_cant": "wrapping around at pi and crossing 0 combine in unboundedly many ways", "anchors": ["verypy/classic_heuristics/wren_holliday_sweep.py:_get_route_phi_range", "verypy/classic_heuristics/wren_holliday_sweep.py:disentangle_heuristic"]}
{"id": "C112", "title": "Seeds by large demand", "statement": "With the seed method for large demands the assignment heuristic gets, on every attempt, as many seeds as it asked for, each another customer; customers needing more than half of a vehicle come first, and each seed is chosen as the candidate farthest from the depot and the seeds so far (weighted by demand among the smaller customers).", "quantifier": "all problems, capacities, numbers of seeds and attempts", "why_tests_cant": "depends on the demands and distances of all customers and on the attempt", "anchors": ["verypy/classic_heuristics/gapvrp.py:_large_demand_seed_points"]}
{"id": "C113", "title": "Seeds at the ends of thoroughfares", "statement": "With the seed method for the ends of thoroughfares the assignment heuristic gets, on every attempt, as many seeds as it asked for, each another customer: first the customers at the fringe of clusters, then core points, then outliers, each the candidate farthest from the depot and the seeds so far.", "quantifier": "all problems, clusterings, numbers of seeds and attempts", "why_tests_cant": "depends on the distances of all customers, the clustering and the attempt", "anchors": ["verypy/classic_heuristics/gapvrp.py:_end_of_thoroughfares_seed_points"]}
{"id": "C114", "title": "Seeds in equal cones", "statement": "With its default seed method the assignment heuristic gets, on every attempt, one seed point per vehicle: the customers around the depot are divided into that many neighbouring sectors of equal demand (equal length without a capacity), and each seed point lies within its sector, not farther from the depot than the farthest customer there.", "quantifier": "all sweeps, demands or distances, numbers of vehicles and attempts", "why_tests_cant": "fractions of customers carry over from sector to sector all the way around", "anchors": ["verypy/classic_heuristics/gapvrp.py:_sweep_seed_points", "verypy/classic_heuristics/sweep.py:bisect_angle"]}
{"id": "C115", "title": "Where Wren-Holliday sweeps start", "statement": "By default Wren and Holliday's heuristic makes four sweeps in each direction. They start from the ray opposite to the demand-weighted mean direction of the customers seen from the depot, and from the rays quarters of a turn further on; each starts with the first customer its ray meets when turning in the direction of the sweep. With any choice of starts, for every number of customers, a valid solution is returned.", "quantifier": "all points in the plane, demands, directions and ways to choose the starts", "why_tests_cant": "angles wrap around, and rays may pass through customers or lie beyond the last of them", "anchors": ["verypy/classic_heuristics/wren_holliday_sweep.py:wren_holliday_init", "verypy/classic_heuristics/wren_holliday_sweep.py:get_wh_algorithm"]}
{"id": "C116", "title": "The command line of a heuristic", "statement": "A heuristic started from the command line solves the problem files it is given (a file, a list of files or a folder), or a random problem of the size given, with the options of the usage text that were given last, in any order. With -h, or without a problem, it only prints the usage.", "quantifier": "all command lines, values of options, file systems", "why_tests_cant": "options, values and problems can be combined in unboundedly many ways, and values can look like options or problems", "anchors": ["verypy/shared_cli.py:cli", "verypy/shared_cli.py:get_a_problem_file_list"]}
{"id": "C117", "title": "The command line of a TSP solver", "statement": "A TSP solver started from the command line with the name of a problem file prints a tour of all nodes from the first one and its cost, and ends without an error; otherwise it prints the usage.", "quantifier": "all problem files, solvers and command lines", "why_tests_cant": "the solver's length and the tour's cost must be equal for every matrix", "anchors": ["verypy/shared_cli.py:tsp_cli", "verypy/tsp_solvers/tsp_solver_ropt.py", "verypy/tsp_solvers/tsp_solver_gurobi.py", "verypy/tsp_solvers/tsp_solver_lkh.py", "verypy/tsp_solvers/tsp_solver_acotsp.py", "verypy/tsp_solvers/tsp_solver_fast.py"]}
{"id": "C118", "title": "The table of results", "statement": "After several problems or algorithms VeRyPy.py prints a table with a row for every problem and a column for every algorithm, in alphabetical order, that holds the qualities reported (infinity without a solution) and the least number of routes found.", "quantifier": "all problems, algorithms, outcomes and interrupts", "why_tests_cant": "any combination of jobs may fail or be interrupted, and names may coincide", "anchors": ["verypy/VeRyPy.py:main"]}
{"id": "C119", "title": "The option -D", "statement": "With -D the distances are forced to be exact, rounded or rounded down, whatever problem is read.", "quantifier": "all problems and distance formats", "why_tests_cant": "must hold for every matrix", "anchors": ["verypy/VeRyPy.py:main", "verypy/cvrp_io.py:calculate_D"]}
{"id": "C120", "title": "What the command lines report about the library's heuristics", "statement": "Every solution that VeRyPy.py reports for one of the library's heuristics that was not interrupted is said to be feasible and is feasible, also with service times, and the quality and number of routes shown are its own; the command line of a heuristic prints a feasible solution that is the best of its n runs.", "quantifier": "all problems, selections of algorithms, post-optimizations, options and numbers of runs", "why_tests_cant": "the reports go through relocation of service times, post-optimization, normalization and checks that must agree for every problem and solution", "anchors": ["verypy/VeRyPy.py:main", "verypy/shared_cli.py:read_and_solve_a_problem", "verypy/cvrp_ops.py:check_solution_feasibility"]}
{"id": "C121", "title": "The uniform interface of the heuristics", "statement": "Every heuristic that needs no integer program solver, called as call_init(points, D, d, C, L, st, wtt, single, minimize_K), ends with a feasible solution that serves every customer, also with the single iteration, whose result is never better than the one without; the nearest neighbor heuristics refuse to minimize the number of routes with an exception. VeRyPy.py reports each of these solutions as feasible.", "quantifier": "all problems with at least two customers, metric distances and places that differ, both options, sixteen heuristics", "why_tests_cant": "every heuristic has its own loops that must end and its own bookkeeping for every problem", "anchors": ["verypy/classic_heuristics/gillet_miller_sweep.py:get_gm_algorithm", "verypy/classic_heuristics/rfcs.py:get_rfcs_algorithm", "verypy/classic_heuristics/parallel_savings.py:get_ps_algorithm", "verypy/classic_heuristics/cawlip_savings.py:get_ps2o_algorithm", "verypy/classic_heuristics/gaskell_savings.py:get_gs_algorithm", "verypy/classic_heuristics/sequential_savings.py:get_ss_algorithm", "verypy/classic_heuristics/paessens_savings.py:get_gps_algorithm", "verypy/classic_heuristics/suppression_savings.py:get_ims_algorithm", "verypy/classic_heuristics/cheapest_insertion.py:get_si_algorithm", "verypy/classic_heuristics/cheapest_insertion.py:get_pi_algorithm", "verypy/classic_heuristics/mole_jameson_insertion.py:get_mj_algorithm", "verypy/classic_heuristics/cmt_2phase.py:get_cmt2p_algorithm", "verypy/classic_heuristics/nearest_neighbor.py:get_snn_algorithm", "verypy/classic_heuristics/nearest_neighbor.py:get_pnn_algorithm", "verypy/classic_heuristics/tyagi_nearest_neighbor.py:get_ty_algorithm", "verypy/classic_heuristics/sweep.py:get_swp_algorithm", "verypy/__init__.py:get_algorithms"]}
{"id": "C122", "title": "The Lagrangean heuristic with its default parameters", "statement": "lr3opt_init(D, d, C, L) starts from a tour of all the nodes with the multipliers average(d)/(20 max(D)) and average(distance to the nearest neighbor)/(10 max(D)), and ends with a feasible solution whenever every customer can be served alone; an interrupt passes on a feasible solution; it refuses to minimize the number of vehicles.", "quantifier": "all symmetric problems with at least one customer, all TSP solvers that return tours, all moments of interruption", "why_tests_cant": "the multipliers are doubled until the search finds a feasible solution; that this happens for every instance is not visible on examples", "anchors": ["verypy/classic_heuristics/lr3opt.py:lr3opt_init", "verypy/classic_heuristics/lr3opt.py:_init_with_tsp", "verypy/classic_heuristics/lr3opt.py:_get_max", "verypy/classic_heuristics/lr3opt.py:get_lr3opt_algorithm"]}
{"id": "C123", "title": "The uniform interface of the heuristics that need Gurobi", "statement": "The matching based savings, the generalized assignment and the petal heuristic, called as call_init(points, D, d, C, L, st, wtt, single, minimize_K), end and return a feasible solution that serves every customer, whatever the two options are.", "quantifier": "all problems, both options, all right answers of the integer program solver and all TSP solvers that give tours", "why_tests_cant": "whether they end and serve everybody depends on the answers of the solver in every round and on the problem", "anchors": ["verypy/classic_heuristics/matchingvrp.py:get_mm_algorithm", "verypy/classic_heuristics/gapvrp.py:get_gap_algorithm", "verypy/classic_heuristics/petalvrp.py:get_ptl_algorithm", "verypy/__init__.py:get_algorithms"]}
{"id": "C124", "title": "A converted van Breedam file is read as what it says", "statement": "Converting any van Breedam .DAT file with examples/breedam_to_tsplib.py and reading the result gives one node per line of ten integers, in file order, with its coordinates and demand, EUC_2D distances, the depot first, and the capacity that goes with the file's name; a word that is not an integer is refused.", "quantifier": "all file names and all texts of one or more lines", "why_tests_cant": "a test converts a few files; the claim is about every text, its odd lines and characters, and every name", "anchors": ["examples/breedam_to_tsplib.py: breedam_to_tsplib95", "verypy/cvrp_io.py: read_TSPLIB_CVRP"]}
{"id": "C125", "title": "Coordinates and demands go to the node whose id is on the line", "statement": "Reading a file with a NODE_COORD_SECTION and a DEMAND_SECTION gives node id its own coordinates and demand, in whatever order the lines come.", "quantifier": "all files with coordinates and demands, all edge weight types computed from coordinates, all orders of the lines", "why_tests_cant": "the order of the lines and the number of nodes are unbounded; the sample files list the nodes in order", "anchors": ["verypy/cvrp_io.py: read_TSPLIB_CVRP"]}
{"id": "C126", "title": "A file without a line for every node is refused", "statement": "Reading a file whose NODE_COORD_SECTION or DEMAND_SECTION has not as many lines as its DIMENSION says raises an exception.", "quantifier": "all files with coordinates and demands, all numbers of lines", "why_tests_cant": "the number of nodes and lines is unbounded", "anchors": ["verypy/cvrp_io.py: read_TSPLIB_CVRP"]}
{"id": "C127", "title": "The dictionary example refuses inconsistent data and otherwise prints a valid solution per algorithm", "statement": "The example that solves a problem given as a Python dictionary accepts the data exactly when all vehicles have the same capacity, the numbers of coordinates, demands, matrix rows and matrix columns agree and are not zero, and the matrix is symmetric; otherwise it stops before an algorithm is tried. With accepted data that describe a solvable problem the script ends and prints for every algorithm, in order, a solution serving every customer once within the capacity, its true cost and its number of routes, also for algorithms that refuse to minimize the number of routes.", "quantifier": "all dictionaries, all lists of heuristics of the uniform interface", "why_tests_cant": "The script is run with one dictionary; the claim is about every dictionary and every choice of algorithms, including the retry after a refusal.", "anchors": ["examples/solve_from_data_dict.py", "verypy/__init__.py get_algorithms", "verypy/cvrp_ops.py normalize_solution", "verypy/cvrp_ops.py recalculate_objective"]}
{"id": "C128", "title": "The single file example prints routes that are valid for the numbers in the file", "statement": "Reading a CVRP file with coordinates and demands in the order of the node ids, solving it with parallel savings and printing the routes (the README example) ends without an error, and the printed routes all start and end at the depot, contain every customer of the file exactly once, and the demands that the file states for the customers of a route do not exceed the capacity it states.", "quantifier": "all such files: any number of nodes, any coordinates, demands and capacity that lets every customer be served alone, any planar edge weight type", "why_tests_cant": "The claim joins parsing, distances and the heuristic for every file; the tests solve a few files and compare costs.", "anchors": ["examples/single_solve_example.py", "verypy/cvrp_io.py read_TSPLIB_CVRP", "verypy/cvrp_io.py calculate_D", "verypy/classic_heuristics/parallel_savings.py parallel_savings_init", "verypy/util.py sol2routes"]}
{"id": "C129", "title": "Order and spacing of header lines do not matter", "statement": "A file whose header gives the dimension, the capacity and the edge weight type once each, in any order, with any blanks around field names and values and among any number of other fields, followed by coordinates and demands, is read with exactly the stated number of nodes, capacity, edge weight type, coordinates and demands. A header that asks for another kind of problem or an unsupported edge weight type is refused, whatever follows.", "quantifier": "all headers, node counts, coordinates and demands", "why_tests_cant": "Header layouts are unbounded; the benchmark files used in tests share a few layouts.", "anchors": ["verypy/cvrp_io.py read_TSPLIB_CVRP"]}
{"id": "C130", "title": "The unit of measurement does not matter", "statement": "Giving all distances and the route length limit in another unit, or all demands and the capacity, does not change the solution that the parallel or the sequential savings algorithm returns, as long as the built-in tolerances are given in the same unit or are smaller than one unit of whole-number data.", "quantifier": "all distance matrices, demands, limits, conversion factors and tolerances below one unit", "why_tests_cant": "a test compares two units on a few instances; every tie and every comparison with a limit must come out alike on all instances", "anchors": ["verypy/classic_heuristics/parallel_savings.py:parallel_savings_init", "verypy/classic_heuristics/sequential_savings.py:sequential_savings_init"]}
{"id": "C131", "title": "Demands and limits matter only through which routes they allow", "statement": "Two instances with the same symmetric distances in which the same routes are feasible get the same solution from the parallel savings algorithm and from the sequential one; in particular a capacity that suffices for all customers together is like no capacity.", "quantifier": "all pairs of instances, demands, limits, tolerances and lists of pairs to merge", "why_tests_cant": "a test compares two instances; the running loads and lengths kept by the algorithm must agree with the routes at every step of every run", "anchors": ["verypy/classic_heuristics/parallel_savings.py:parallel_savings_init", "verypy/classic_heuristics/sequential_savings.py:sequential_savings_init"]}
