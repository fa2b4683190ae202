NOTES = {
"C02": ("proved", "Giant-tour form for all solutions, list form for lists of non-empty routes. The list form raises IndexError on an empty route (C02_empty_route_in_list_form_refuted), so the two forms agree only without empty routes."),
"C05": ("partial", "REFUTED as stated: exact if and only if the service time is an even integer (C05_exact_iff_even_integer_service_time); odd or fractional service times are truncated (C05_odd_service_time_refuted)."),
"C06": ("proved", "For depot-delimited solutions. A tour of length two that does not return to the depot loses its customer (C06_open_short_solution_refuted)."),
"C08": ("partial", "REFUTED as stated: symmetric=True keeps the direction (C08_symmetric_flag_refuted). With symmetric=False the edge set is direction independent."),
"C10": ("partial", "REFUTED as stated for indexing: re-adding an element after indexing, or indexing an empty set, makes indexing disagree with iteration. Proved for all histories for membership, length and iteration, and for indexing when add gets new elements only and empty sets are not indexed."),
"C17": ("partial", "REFUTED for the stored cost and demand: the returned RouteData carry wrong costs and demands (C17_stored_data_refuted). Customers, exact delta, feasibility and completeness of the search are proved for symmetric matrices."),
"C18": ("proved", "Full contract. The giving route keeps the length limit under the triangle inequality only (C18_giving_route_length_refuted shows the condition is needed)."),
"C21": ("partial", "REFUTED as stated: without the triangle inequality a customer can be duplicated (C21_duplicates_refuted, C21_duplicates_with_threshold_refuted). Proved under the triangle inequality for all levels and thresholds, and for every matrix with the default level and threshold."),
"C22": ("proved", "Full contract. The limits are tested without tolerance (C22_tolerance_refuted), so feasibility of the result is strict and the search is complete for strictly feasible moves."),
"C23": ("partial", "REFUTED as stated: 2-opt* stores wrong demands (C17), so a later 1-point move in the same search can overfill a route (C23_two_opt_star_mixed_refuted); insert may make the solution longer (C23_insert_cost_refuted). Proved for arbitrary operators meeting op_sound, for 2-opt/3-opt/relocate/exchange/1-point/2-point/chain in any combination, for 2-opt* with single-route operators, and (without the cost claim) for redistribute and insert. For all moves mixed with 2-opt*: customers and cost (C23_all_moves_partial)."),
"C24": ("proved", "Termination and local optimality for arbitrary operators that decrease the cost or empty a route, and for the operators of the library in terms of their neighbourhoods. Lists mixing 2-opt* with moves between routes terminate too (C23_all_moves_partial)."),
"C41": ("proved", "For every service time, not only even ones, and all four single-route operators. It would fail with moves between routes (C41_inter_route_move_refuted); the command line tool offers only 2-opt and 3-opt."),
"C25": ("proved", "For every list of pairs of customers, sorted or not. The length check assumes symmetric distances (C25_asymmetric_refuted shows the condition is needed)."),
"C26": ("partial", "REFUTED as stated: between extending the left and clearing the right route customers are reported twice (C26_duplicate_window_refuted). Proved for every other statement boundary; in that window no customer is lost and all routes are feasible."),
"C42": ("proved", "For the Clarke-Wright list and for every complete list with losing pairs last."),
"C27": ("proved", "For every callback and every seed list with all customers in it, and the named seed orders. Seeds by savings raise ValueError on an instance with one customer (C27_savings_seeds_one_customer_refuted)."),
"C28": ("partial", "REFUTED as stated: in three windows (after choosing a seed, after appending a customer, after adding a route) customers are reported twice (C28_duplicate_windows_refuted). Proved for every other statement boundary; in the windows no customer is lost and all routes are feasible."),
"C43": ("proved", "For every complete seed order and both objectives."),
"C39": ("partial", "REFUTED as stated: the suppression variant returns None for every instance with one customer (C39_suppression_one_customer_refuted). Proved for parallel savings, Gaskell, Paessens and, with two or more customers, suppression; sequential savings in C27."),
"C32": ("proved", "The guarantee on the repaired solution assumes that every customer can be served alone; the scan of partial routes is described exactly by C32_no_needless_visits."),
"C37": ("proved", "For solutions given as a list. C37_reconnection also says which tours are returned; C37_any_checker covers every move_checker, including that of lr3opt."),
"C38": ("proved", ""),
"C45": ("proved", "The neighbourhood is spelled out in Spec_3optstar.v."),
"C33": ("proved", "Proved at character level: every format, size, layout of lines; wrong number of weights is rejected. Number syntax is a parameter (parse_float)."),
"C34": ("partial", "TSP files: proved for every selection. VRP files: proved without selection (capacity and demands too); REFUTED with a proper selection (C34_vrp_selection_refuted: the file has more demands than nodes and is never read). Asymmetric matrices: exactly the upper triangle survives."),
"C36": ("partial", "VRPH half proved. OPT half REFUTED: C36_opt_round_trip_refuted, no text written is ever read (the cost line has three words). C36_opt_read_partial: the same text with a two-word cost line is read back, but the number of routes is not counted."),
"C46": ("partial", "Distance limit proved. Service times REFUTED (depot time 0; EOF line); C46_service_times_partial is what works."),
"C29": ("partial", "Proved for matrices in which every node comes first in its own neighbour list: the run follows the nearest neighbour rule, terminates, serves everyone and keeps the limits; the neighbour lists are deques. REFUTED without it: co-located customers can be lost; also the modes 'farthest' and 'closest' are swapped, and mode 'nearest' with several emerging routes can raise TypeError."),
"C47": ("partial", "Complete and feasible at every point except between storing a finished route and releasing it; there no customer is lost but the route is reported twice (REFUTED there)."),
"C40": ("partial", "Proved for every instance and giant tour when route costs do not fall as customers are added along the tour (grows): the shortest path table, although its loops are in the wrong order, yields one winding. In a metric this holds without assumption for routes costed in tour order and for exact TSP solvers (C40_inorder_metric, C40_exact_metric). REFUTED in general: with the default 2-opt solver and a symmetric non-metric matrix the path winds twice and customers are served twice (C40_served_twice_refuted). Missing: 2-opt costs in a metric, where monotonicity can fail."),
"C48": ("partial", "Optimal among partitions into at least two segments, under the same assumption as C40 (none for tour-order or exact route costs in a metric). REFUTED for all partitions: a single route is never considered (C48_single_route_refuted)."),
"C49": ("partial", "After any number of table entries the raised solution serves everyone once, in tour order, within the capacity unless it is one route. REFUTED: an interrupt before the first route cost is known ends in NameError (C49_name_error_refuted, for all instances); early interrupts give one route over capacity (C49_capacity_refuted). An interrupt between the two array writes of one entry is not modelled."),
"C30": ("partial", "REFUTED in two ways: asking for as many routes as customers or more (also: an instance without customers) raises IndexError, and pairs that begin a route with initialize_routes_with='strain' are never checked against C and L. Proved for every strain callback and every tie order: the run ends and serves everyone once or raises IndexError; it is within the limits when routes are begun with one customer (farthest, closest, or the criterion of Mole and Jameson on metric distances, for which a pair never is the best seed)."),
"C50": ("partial", "REFUTED for distances without the triangle inequality (a candidate pruned by L is not offered again when the route has become shorter, so the route is closed although the customer fits). Proved for all strain callbacks, K and tie orders with nonnegative demands (if C is set) and the triangle inequality (if L is set)."),
"C51": ("partial", "REFUTED between completing a route and replacing it: the route is delivered twice and the customers of the next seed are lost. Proved at all other points of the main loop, for any iteration order. An interrupt while the first seeds are taken is outside the try block and carries no solution."),
"C52": ("partial", "Proved for every metric instance: termination, completeness, limits, local optimality for one-point moves and 2-opt, best of all criteria, before and after the refinement. REFUTED: with minimize_K=False no route is ever emptied although that may halve the cost (the delta of a redistribution is never negative, proved for all inputs); without customers IndexError is raised."),
"C53": ("partial", "Proved for interrupts in the main loop of the insertion outside the callback and outside route replacement. REFUTED: interrupts elsewhere (seed sorting, refinement) are swallowed and the call returns, with None for a single criterion; an interrupt inside the insertion callback passes on a route longer than L."),
"C31": ("partial", "Proved for every order, seed, direction and routing algorithm when each customer can be served alone and demands are not negative: sweep_init ends and returns the best of its sweeps, all of which serve everyone within C and L. REFUTED without the first condition for L: the sweep never ends (C31_unservable_refuted). Seeds that are a multiple of N raise IndexError."),
"C54": ("partial", "Proved without a length limit, and with one for all but the last sector (C54_sectors_partial). REFUTED for the last sector: when it is too long the customers before its last one are dropped first, so the route left is no sector (C54_last_sector_refuted)."),
"C55": ("partial", "Proved once a sweep has ended. REFUTED before: the exception carries None (C55_first_sweep_refuted)."),
"C56": ("partial", "Proved once there is an initial solution. REFUTED before: interrupted in the initialisation algorithm, the exception carries None (C56_early_interrupt_refuted)."),
"C57": ("proved", "Multipliers are rationals with a common denominator; exact arithmetic. Both the single Lagrangean move and the result of the whole heuristic; the postoptimisation is proved to be idle."),
"C44": ("proved", "Gaskell: both criteria stated in Spec_savfam. Paessens: one pair, a given list, M1, and M4 with its four fine-tuning runs. Suppression: which pairs are suppressed in every round. The result is one of the runs and no run beats it."),
"C59": ("partial", "Proved for at least two customers, or one and no capacity, for any TSP solver that permutes (and, with L, does not lengthen) routes, and for the bundled one. REFUTED for one customer with a capacity (AttributeError: the grouping of nobody is None) and, with L, for a TSP solver that lengthens a route: its result is not checked against L."),
"C60": ("partial", "Proved: every step follows the rule of Spec_tyagi (nearest as long as nobody has been put back; an interchange that is feasible and an improvement, none made only if there is none). REFUTED: after an interchange a group can begin with a customer that is not nearest, since the queue gives up a place for the customer put back; the interchange is the last improving one tried, not the best."),
"C61": ("partial", "Proved: the choice is maximal among those considered for the criteria as computed, and interrupts hand over solutions that serve everybody except at the one point of C47. REFUTED: min_penalty maximises C - demand * cost summed over the routes instead of minimising (C - demand) * cost."),
"C62": ("partial", "Result, choice and interrupts proved for every solver and score, given that the call ends. Ending is proved when one limit is not set (C62_plain_sweep with C31_sweep) and, with both, for solvers that never find a longer tour for fewer customers, such as exact ones in a metric (C62_ends_partial). Missing: ending with both limits for every heuristic solver."),
"C63": ("partial", "The rule is proved for every state the callback can be called in with a free next customer. REFUTED: no exchange is ever made unless both C and L are set (C63_both_limits_needed_refuted); the matrix is not restored if it is asymmetric (C63_asymmetric_refuted) or if the solver is interrupted (C63_interrupted_refuted)."),
"C64": ("proved", "For every solver returning tours with their true length and every integer program solver whose optimal answers are optimal. C64_run shows a run."),
"C65": ("partial", "Proved when fewer routes are the aim or joining never costs (C65_ends_partial, C65_exact_solvers), and that a solution is returned when one vehicle cannot carry everything (C65_returns_partial). REFUTED: whenever one vehicle can carry everything in a metric with no length limit, a ValueError is raised (C65_one_route_refuted); when every pair is dearer together than apart the loop never ends (C65_never_ends_refuted)."),
"C66": ("partial", "Proved: the pair joined is always the one that saves most of all that fit, and none is left that saves (C66_rule). REFUTED: it need not belong to a maximum weight matching, because the constraints only sum over the first index (C66_not_a_matching_refuted)."),
"C67": ("partial", "Proved for interrupts while choosing, storing and pricing, symmetric distances and everybody able to share a vehicle (C67_interrupted_partial). REFUTED elsewhere: KeyError while the first savings are computed (C67_first_savings_refuted) or when a customer fits with nobody (C67_no_partner_refuted), customers lost just after the deletion (C67_deleted_refuted), a limit broken just before it (C67_filtered_refuted). An interrupt during the fallback itself is not modelled."),
"C68": ("partial", "REFUTED for the 'single' mode. Proved: without required_iterations and interrupts the result serves everybody (C68_result). With required_iterations=1, which single mode uses, a customer can be left out and the incomplete solution is returned as the answer (C68_single_refuted); what holds then is C72_partial_solution. Gurobi is a parameter assumed truthful."),
"C69": ("partial", "REFUTED with minimize_K. Proved for all settings without a constraint on the number of routes (C69_ends). With minimize_K=True the constraint is loosened for ever once all solutions are forbidden, e.g. with one customer (C69_ends_refuted)."),
"C70": ("proved", "The comparison is with all exact covers by petals of the sweep, for a truthful solver."),
"C71": ("partial", "REFUTED for the reduction in length: if the slack left for redistribution is exactly 0 it counts as no limit (C71_mileage_refuted). Proved: removal of repeated visits (C71_served_once), relaxed petals are feasible with right cost and load (C71_relaxed_petals)."),
"C72": ("partial", "REFUTED that interrupts are passed on: one in the solver call for the extended set without K is swallowed and the best solution so far, possibly None, is returned as a result (C72_interrupt_lost_refuted). Proved: everything handed over is None or a feasible partial solution (C72_partial_solution); with a number of routes, given or minimized, no interrupt is lost: a normal result does not depend on any interrupted call (C72_passed_on)."),
"C73": ("partial", "REFUTED for the description: only 2-opt on single routes is done, a profitable 2-opt* move can remain (C73_two_opt_star_refuted), and a problem without customers is an exception (C73_no_customers_refuted). Proved: the rest (C73_result)."),
"C74": ("partial", "REFUTED after an interrupt: the exception raised does not carry the solution the warning promises (C74_interrupt_answer_refuted). Proved: best of n with its costs (C74_best_of_n), the best is printed after an interrupt if the verbosity allows (C74_interrupt_partial)."),
"C75": ("partial", "REFUTED for instances without a capacity: the program crashes formatting the tightness unless the minimal output is chosen (C75_no_capacity_refuted). Proved otherwise (C75_reports); algorithms are parameters with any outcomes."),
"C76": ("partial", "REFUTED that each file is listed once with the recursive option: two levels down it is listed twice (C76_recursive_twice_refuted). Proved: which files, and that the listing ends (C76_files), order and uniqueness for a directory (C76_directory). No links in the tree; no glob characters in paths."),
"C77": ("partial", "REFUTED: 'mj76-si' selects sequential insertion (C77_mole_jameson_refuted), forbidding in capital letters is an exception (C77_forbid_case_refuted), forbidding a group forbids nothing (C77_forbid_group_refuted). Proved otherwise (C77_selection, C77_once, C77_forbidden)."),
"C78": ("partial", "REFUTED for a TSP solver that may lengthen routes when there is a length limit: the last optimization is not checked (C78_lengthening_refuted), and with 0 retries nothing is returned (C78_zero_retries_refuted). Proved otherwise, for all settings and random orders (C78_result), and for the bundled solver (C78_bundled_solver)."),
"C79": ("proved", "C79_phase_one_rule determines phase one's routes as sets, with their seeds, when there is no length limit."),
"C81": ("partial", "REFUTED: customers already taken from the unrouted ones but whose route is not recorded yet are lost (C81_lost_refuted), and a solution without them is preferred to a complete one that phase one has found (C81_incomplete_preferred_refuted). Proved: what is handed over is within the limits and serves nobody twice, and those left out fit on one route (C81_interrupts_partial)."),
"C82": ("proved", "C82_result, for every number of turns, overlap test, largest gap, set order and list of sweep starts."),
"C83": ("partial", "REFUTED by default: closing a route can make the solution longer than the sweep (C83_default_refuted). Proved with minimize_K, where routes count before cost (C83_never_worse)."),
"C84": ("partial", "REFUTED by default, with and without full convergence: the test for a cost seen before compares only with the last turn, and the search alternates between two solutions (C84_default_refuted). Proved with minimize_K (C84_ends), and for each turn of the loop in any mode (C84_every_turn_ends)."),
"C85": ("partial", "REFUTED: the routes at the interrupt may lack customers (C85_complete_refuted, even when a complete solution is known) or serve one twice (C85_disjoint_refuted). Proved: each route handed over is within the limits and serves nobody twice, no finished solution beats it (C85_partial_plan), and during the sweeps the best finished sweep is handed over (C85_sweeps)."),
"C87": ("proved", "C87_ends, for any function from calls to solver answers and any seeds."),
"C88": ("partial", "Proved with a capacity and no length limit (C88_fewest_routes), against a solver that is right and always has time. REFUTED with a length limit only, where it returns nothing although one route per customer would do (C88_length_only_refuted), and when all demands are 0 (C88_no_demand_refuted). Missing: capacity and length limit together, where the program only approximates the lengths."),
"C89": ("partial", "REFUTED: the costs are read from the matrix one row too early, so the first route's seed is the depot (C89_seeds_refuted) and the last seed is ignored (C89_last_seed). Proved: least cost with respect to the depot and the other seeds (C89_costs)."),
"C90": ("partial", "Proved: everybody is on a route and the routes are within the limits, for any solver answers (C90_recheck). REFUTED: a customer may be on two routes (C90_once_refuted)."),
"C93": ("partial", "Proved for two nodes or more (C93_shortest_tour, C93_returns, C93_exact_solver), for any sequence of solutions the callback sees; binary values are taken to be exact. REFUTED for a single node, for which None is returned as the tour (C93_one_node_refuted)."),
"C94": ("partial", "Proved for lists of different nodes, from the text of the problem file (which is read as C34's reader reads it) to the text of the tour file (C94_tour_and_length, C94_shortest_if_lkh_finds_it, C94_solver). REFUTED for closed lists, which the other solvers accept (C94_closed_list_refuted)."),
"C95": ("partial", "REFUTED: distances are truncated (C95_exact_length_refuted), with up to three nodes to whole numbers. Proved: the error is less than 1/accuracy per node, or 1 per node with up to three (C95_length_bounds), and the tour is nearly shortest if LKH finds shortest ones (C95_nearly_shortest)."),
"C96": ("partial", "REFUTED: a file cut off within the tour gives a tour of some of the nodes (C96_cut_off_refuted). Proved: IndexError if LKH writes nothing (C96_no_tour_file)."),
"C97": ("partial", "Proved without ants (C97_tour_and_length, C97_starts_at_first, C97_solver). REFUTED with ants: UnboundLocalError for four nodes or more (C97_ants_refuted, C97_ants_never_run)."),
"C98": ("proved", "C98_solver, C98_shortest (with up to four nodes to within the tolerance of the local search)."),
"C99": ("proved", "C99_two_opt, C99_two_opt_limits, C99_one_point, C99_two_point."),
"C100": ("partial", "Proved without a bound (C100_relocate, C100_exchange). REFUTED with one: best_delta is not passed on (C100_bound_refuted)."),
"C101": ("partial", "Proved for the operators that do not raise exceptions, for every max_iterations (C101_search). REFUTED: max_iterations only ends the round over the operators, after which the search goes on to the end; with one operator it has no effect (C101_max_iterations_refuted)."),
"C102": ("partial", "REFUTED: neither returns a solution, ever (C102_no_solution_refuted); 2-opt* raises NameError when the reversal of a part of a route is an improvement (C102_name_error_refuted), as it calls a function that is not defined."),
"C103": ("proved", "C103_two_opt (symmetric distances), C103_relocate, C103_exchange."),
"C104": ("proved", "C104_every_heuristic: the relation returned (Spec_all.v) lists the calls and what is expected of their parameters; it excludes the cases refuted elsewhere (co-located customers in nearest neighbour, pairs of seeds, TSP solvers that lengthen routes, required_iterations of the petal algorithm). Composition of C01 with C25, C27, C29, C30, C31, C39, C40, C52, C56, C59, C62, C64, C68, C73, C78, C82, C86."),
"C105": ("partial", "REFUTED: interrupts outside the try block of parallel savings, among them all during Paessens' 3-opt phase, are lost and the call returns normally (C105_lost_refuted) or returns None (C105_returns_none_refuted); in the window of C26 the solution handed over serves customers twice (C105_served_twice_refuted). Proved for interrupts inside the try block of parallel savings outside that window (C105_gaskell_partial, C105_paessens_partial, C105_paessens_fine_tuning_partial, C105_suppression_partial); C105_without_interrupts ties the model to that of C39."),
"C106": ("partial", "REFUTED: ATT distances are a tenth of the Euclidean distance rounded up instead of TSPLIB's division by the square root of ten (C106_att_refuted; what they are and that they are never longer: C106_att_partial); EUC_2D and FLOOR_2D break the triangle inequality (C106_triangle_refuted), by at most one unit (C106_triangle_partial, which also proves it for the other types). Proved: C106_matrix, C106_values. GEO and EXACT_2D: only shape and symmetry."),
"C107": ("proved", "C107_generated, C107_solvable. The draws of the random generator are inputs."),
"C108": ("partial", "REFUTED: an interrupt in a later run hands over what that run has, and the better solution that is already known is lost (C108_better_result_lost_refuted). Proved: C108_best_of_all_tries, C108_single_run; C108_interrupt_partial (what is handed over serves everybody, outside the window of C47)."),
"C109": ("partial", "REFUTED: without verbosity only the length is printed, without service times, even if it differs from the cost that the limit applies to (C109_cost_not_printed_refuted). Proved: C109_verdict, C109_table, C109_figures_partial (what is printed is right; when it is printed)."),
"C110": ("partial", "REFUTED: a ready sweep of two customers is taken for three points, and customers 1 and 2 are visited whatever it contains (C110_two_customers_refuted). Proved: C110_angles, C110_points, C110_sweep_of_points, C110_given_sweep_partial (any other size). Angles are compared exactly, without rounding."),
"C111": ("partial", "REFUTED: routes without a common direction may be found to overlap, because a range is one interval in each half (C111_only_overlaps_refuted). Proved: C111_ranges, C111_overlap_found, and that routes that overlap have at least three customers, so that the sweep Wren and Holliday's heuristic makes of them is read as such (C111_at_least_three)."),
"C112": ("partial", "REFUTED: from the third attempt on the function raises IndexError for every problem with a customer that needs at most half of a vehicle (C112_third_attempt_refuted: numpy reads a tuple of several numbers as an index into several dimensions); on the second the nearest candidate may be chosen instead of the farthest (C112_nearest_instead_of_farthest_refuted), or the depot (C112_depot_as_seed_refuted); with more seeds than customers seeds repeat or ValueError is raised (C112_too_many_seeds_refuted). Proved: the first attempt (C112_distinct_customers_partial, C112_most_remote_partial) and that the second gives different customers (C112_second_attempt_partial)."),
"C113": ("partial", "REFUTED: if the clustering finds only outliers a ValueError is raised instead of taking them (C113_only_outliers_refuted); the depot may become a seed (C113_depot_as_seed_refuted); with two customers the second attempt raises IndexError (C113_small_problem_refuted). Proved: different nodes, their order and their choice, whenever there is a core point (C113_distinct_nodes_partial). DBSCAN is any labelling of the nodes."),
"C115": ("partial", "REFUTED: with one customer, the command line's option for a single attempt raises an exception (C115_single_refuted), since it starts from the second position. Proved: the starts (C115_starts) and validity of what is returned from points if the position asked for exists (C115_result_partial). Rounding of angles is left out; angles are in a scale where quarters of a turn are exact."),
"C114": ("partial", "REFUTED: if a customer needs more than an equal share, seed points are left at (0, 0) (C114_heavy_customer_refuted); on the last attempt one always is (C114_last_attempt_refuted); without demands the function divides by zero (C114_no_demand_refuted). Proved: if no customer needs more than a share, the sectors are those where, going around over the cones of the customers, the weight is reached, and each seed is in the middle of its sector where three quarters of a share are reached (C114_equal_cones_partial, C114_total_of_demands); there are never too many groups (C114_number_of_points). C91 covers the weights of the groups alone. Numbers are rationals without rounding, angles and 2*pi are any rationals; the seed is given in polar coordinates."),
"C116": ("partial", "REFUTED: '-v -1' leaves the verbosity as it is and runs a single iteration (C116_negative_verbosity_refuted); if there is no problem, the number of the last option is taken for the size of a random problem (C116_no_problem_refuted); -h does not prevent that either (C116_help_refuted); '-n 0' ends in an exception (C116_zero_runs_refuted). After a random problem the usage is printed too (C116_random_partial). Proved: the files and the settings for natural numbers and log files that are not called like an option (C116_files_partial), the random problem (C116_random_partial), that no file is solved with -h (C116_help_partial) and that only the usage is printed if the last word is neither a problem nor a number (C116_no_problem_partial). Messages are left out; texts are ASCII."),
"C117": ("partial", "REFUTED: for float distances the program fails after it has printed the tour of LKH, since the length LKH computed is not the cost (C117_float_refuted); with one node Gurobi's solver returns no tour and the program fails (C117_one_node_refuted). Proved for integer distances and at least two nodes for each of the solvers (C117_ropt, C117_gurobi, C117_lkh_partial, C117_acotsp, C117_fast_partial), and the usage (C117_usage). The external programs are parameters with the assumptions of C93 to C97; reading the file is a parameter."),
"C118": ("partial", "REFUTED: a problem that no algorithm solved ends the program with a KeyError in the middle of the table (C118_unsolved_refuted); simulated runs always end so (C118_simulate_refuted); after an interrupt the titles of the first row need not fit the others (C118_interrupt_refuted); problems with the same base name share a row (C118_same_name_refuted). Proved: the whole table when every problem is solved, nothing is interrupted and the names differ (C118_table_partial), and for every run that the rows printed are true for their own columns and that printing fails only at an unsolved problem (C118_rows_partial). The columns of the problem's data other than K* and the layout are left out."),
"C119": ("partial", "REFUTED: ROUND is an exception for every problem (C119_round_refuted, read off the code: int of an array); EXACT and TRUNCATE come after the distances were rounded by the edge weight type of the file (C119_late_refuted). Proved: TRUNCATE rounds the matrix that was read down, and EXACT leaves it as it is (C119_truncate_partial)."),
"C120": ("proved", "Composition of C74 and C75 (the command lines) with C104 (what the heuristics return): no new code is modelled. A heuristic that returns nothing or raises is reported as unsolved; an interrupted one may bring any solution without mistakes and is marked as interrupted."),
"C35": ("partial", "REFUTED: C35_relocation_refuted; the loops stop one short, so the last row and column are not relabelled. C35_relocation_entries gives every entry for every depot, C35_relocation_partial the correct part, C35_two_depots_rejected that two depots are refused. GEO files not covered."),
"C58": ("partial", "REFUTED with the length limit only when no feasible solution exists: lambdas[0] is compared with infinity where lambdas[1] was meant, so the doublings never stop.  Proved: it ends if the number of doublings is bounded, or with a positive multiplier for the capacity (C58_ends_partial, also without feasible solutions); and in every metric where each customer can be served alone it ends with a feasible solution if each limit has a positive multiplier, whatever counts as infinite (C58_ends_metric).  Multipliers that are zero: see C122."),
"C122": ("partial", "REFUTED when only the length is limited and every node shares its place with another one: the default multiplier is then zero, doubling it changes nothing, and if the tour found is best and too long the call never ends although feasible solutions exist (C122_twins_refuted with the witness C122_twins_hypotheses). Proved to end with a feasible solution without limits, in every metric where some place is not shared (needed with a length limit only), and with a capacity, a positive demand and multipliers that overflow in the end (C122_ends_partial). Left out: all distances zero with a limit, where numpy divides by zero."),
"C80": ("partial", "REFUTED: the n-th best route is taken from the inverse of the permutation, so that with three routes phase two gives up although the second best one has room (C80_second_best_refuted). Proved: one route per seed (C80_routes_of_the_seeds), in the first associations only a customer whose best remaining route it is goes on a route, and the route is one with most such customers (C80_association), by decreasing regret (C80_regret_order)."),
"C86": ("partial", "Proved: everybody once, within the limits, best of what was found (C86_result), at most K routes if K is given and not to be increased (C86_at_most_K), and when the search stops (C86_stops). REFUTED: exactly K (C86_exactly_K_refuted), and the documented claim that increase_K_on_failure is ignored with a length limit and adaptive weights (C86_increase_ignored_refuted)."),
"C91": ("partial", "Proved: at most K groups (C91_at_most_K), exactly K of equal weight with everybody in one if no demand exceeds the average of the groups' (C91_groups), the demands being shared out among the groups (C91_shares). REFUTED otherwise (C91_large_demand_refuted) and for the last of the trials (C91_last_trial_refuted)."),
"C92": ("proved", "C92_interrupt for interrupts while the solver runs, C92_at_once that they come out without delay, C92_any_time for the stored best solution after any number of attempts."),
"C121": ("partial", "Proved for seventeen of the eighteen heuristics that need no Gurobi (C121_selected lists them; C121_calls_partial, C121_single_partial, C121_refused, C121_reports_partial), and for wh when it is to minimize the number of routes (C121_wh_partial). Missing: wh by default, which may not end (C84_default_refuted); what it returns is feasible (C121_wh_returns). What a heuristic asks for besides a problem is in Spec_algos.fits: gm and rfcs ask for TSP tours that do not get shorter by more customers (gm only if capacity and length are both limited), lr3o for what makes it end (C122); with one customer ims returns nothing (C39_suppression_one_customer_refuted) and ty raises (C59_one_customer_refuted)."),
"C123": ("partial", "REFUTED for ptl with the single iteration, which may leave customers out (C123_ptl_single_refuted); mbsa raises a ValueError when one vehicle can carry everything and may not end (C65_one_route_refuted, C65_never_ends_refuted), gap may find nothing with a length limit (C88_length_only_refuted), and ptl may not end when it minimizes the number of routes (C69_ends_refuted). Proved: which heuristics there are (C123_selected_gurobi); mbsa ends with a feasible solution if one vehicle cannot carry everything and it minimizes routes or joining never costs (C123_mm_partial), and never returns anything else (C123_mm_returns); gap always ends and what it returns is feasible (C123_gap_returns), with as few routes as possible if there is a capacity only and it is asked to (C123_gap_partial); ptl by default ends with a feasible solution in every metric (C123_ptl_partial). Gurobi is assumed to answer correctly."),
"C124": ("proved", "A name that matches none of the known sets gets capacity 0 (capacity_of), which the rest of the program takes as no capacity."),
"C125": ("partial", "REFUTED when the lines are not in the order of their ids: they are stored by position, so nodes silently get the demands of others (C125_by_id_refuted; C125_by_position says what is read). Proved when both sections list the ids in order (C125_in_order_partial) and for the type GEO (C125_geo)."),
"C126": ("partial", "REFUTED for missing demands: the file is accepted and the last nodes have None for a demand (C126_missing_demands_refuted, for every such file). Proved for too many lines in either section and for missing coordinates, if computing distances fails without them (C126_wrong_count_partial)."),
"C127": ("partial", "C127_accepted, C127_refused, C127_any_algorithms and C127_stops are complete for any algorithms that keep their own promises. C127_solved_partial covers the heuristics of the uniform interface of C121 with what they ask for (fits); missing are wh and the heuristics that need Gurobi."),
"C128": ("partial", "Covers any header (C129), nodes in the order of their ids and the depot 1. Missing: other sections and other orders of the nodes, which C125_by_id_refuted shows are read wrongly. The file that comes with the example meets the hypotheses (C128_case) and is run (C128_run)."),
"C129": ("proved", "For the planar edge weight types and GEO; the lines of the nodes are taken in the order in which they come (C125)."),
"C130": ("proved", "Parallel and sequential savings, with Clarke and Wright's savings. C130_fixed_tolerance_refuted shows that the condition on the tolerance is needed."),
"C131": ("proved", "Parallel savings for every list of pairs, sequential savings for every savings function and seed order. Symmetric distances are assumed: the running length of a merged route is computed from them (see C25_asymmetric_refuted)."),
}
