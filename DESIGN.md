# Formal model of VeRyPy in Rocq (Coq 8.16)

## 1. What is modelled and how

The model is a set of total, computable Gallina functions in `rocq/theories/M_*.v`, one file per
Python module, mirroring the code branch by branch. Each definition cites the file and lines of
`/repo` it models. Specifications (`Spec.v`) are written independently of the model: path cost,
route cost, route demand, feasibility, `Permutation` for "same customers".
Proofs are in `P_*.v`; the property theorems are in `T_*.v`, files that contain only
statements closed by `exact`, `Print Assumptions`, and `Example`s that show the hypotheses are met.

Modelling decisions (they apply everywhere):

* **Numbers.** Distances, demands, limits and tolerances are integers `Z` in an arbitrary common
  unit. All arithmetic in the modelled code is `+`, `-` and comparison, so any finite set of
  rational inputs (after scaling by a common denominator) is covered exactly, including the
  tolerances `S_EPS = C_EPS = 1e-10`, which are arbitrary parameters `eps` with `0 <= eps`
  (theorems hold for all of them). Floating point rounding is *not* modelled: theorems speak about the
  algorithms over exact numbers.
* **Nodes** are `nat`, the depot is `0`. Python's negative indexing of lists by node id is not modelled.
* **Matrix / demand** are total functions `nat -> nat -> Z` and `nat -> Z` together with the size
  `N`. Reading outside the matrix (IndexError in Python) is excluded by hypotheses where it matters.
* **Limits** `C`, `L` are `option Z`; Python's `if C:` is modelled by `truthy`, so `Some 0` acts as unset
  exactly as in the code.
* **Exceptions** are values (`option`/sum types) where the code can raise on inputs in the domain.
* **Loops** are structural recursion/folds with an explicit break flag; `while` loops use fuel and return
  an out-of-fuel value; termination theorems give a sufficient fuel.
* **Callbacks** (savings functions, TSP solvers, strain criteria, seeds) are function
  arguments, so theorems hold for all of them (under the stated contract).
* Logging and `__debug__` code has no effect on results and is not modelled.

## 2. Plan per property

| id | modelled | proof idea |
|----|----------|-----------|
| C01 | `validate_solution_feasibility` with its two scanning loops | loop invariants relating accumulators to segments of the cyclic tour |
| C02,C03 | `normalize_solution`, `_list_split`, `_list_trim` | split/join algebra, sorting uniqueness, reversal symmetric cost |
| C04 | `recalculate_objective`, `objf` | induction on route lists |
| C05 | `D2D_c` for integer and float matrices | induction on routes; `_refuted` for odd/fractional st |
| C06,C07,C08 | `util.py` conversions | split/join algebra; `_refuted` for sol2edgeset |
| C09 | `is_better_sol`, generic best-of loop | lexicographic order; fold invariant |
| C10 | `OrderedDictSet` as a state machine | refinement invariant over histories; `_refuted` for the stale cache |
| C11 | `routedata.py` | prefix sum invariants |
| C12-C15 | the intra-route operators | generic theory of first/best-accept scans + path-cost algebra of slices |
| C16 | `solve_tsp_ropt` | strictly decreasing integer cost |
| C17-C22 | the inter-route operators | same scan theory with feasibility side conditions |
| C23,C24 | `do_local_search` | invariant over driver states, for any operators meeting a contract |
| C25-C28 | savings algorithms as small-step machines | invariant over merges; crash points at statement granularity |
| C29-C31 | nearest neighbour, cheapest insertion, sweep | history invariants |
| C32 | lr3opt repair functions | induction |
| C33-C36 | `cvrp_io` matrix index state machines, writers | induction over token streams |
| C37,C38 | `do_3optstar_move` | case analysis on the 16 recipes, path algebra |
| C39 | suppression savings entry logic | evaluation, `_refuted` |
| C40,C48,C49 | rfcs: cost table, the shortest path loops as written, reading the routes back, interrupts | abstract theory of arcs on a circle (`P_rfcs.v`): invariant of the triple loop, pointers from the best diagonal entry form one winding |
| C41 | composition of C05 and C23 | relational argument |
| C42,C43 | what the savings algorithms leave undone | invariant: every savings entry consumed was infeasible or is inside a route |
| C44 | the multi-run savings variants (Gaskell, Paessens, suppression): their criteria and parameters are stated in Spec_savfam | fold invariant over the runs; for suppression, each list ranks the pairs with the firsts of earlier rounds zeroed |
| C45 | 3-opt* finds a move if there is one | scan theory |
| C46 | cvrp_io distance limit and service time sections | character level round trips |
| C47 | nearest neighbour interrupts | invariant at every labelled point |
| C50 | cheapest insertion: heap of candidate insertions, seeds | the one-pass criterion is equivalent to the two passes of Mole and Jameson (existence of a least place); invariant: every admissible insertion of an unrouted customer has an entry in the heap; pruning is stable when demands are not negative and the triangle inequality holds |
| C51 | cheapest insertion interrupts | invariant at every labelled point |
| C52 | Mole-Jameson insertion | callback contract with 2-opt, refinement ends by number of routes, induction over criteria |
| C53 | Mole-Jameson interrupts | as C51, then the choice of the best over the events |
| C54 | sweep sectors | positions on the circle, invariant that finished arcs are cut by the rule |
| C55 | sweep interrupts | best of a prefix of the sweeps |
| C56 | lr3opt main loop | invariant: the customers are kept; repair at every exit |
| C57 | lr3opt move checker with penalties | case analysis on the 16 recipes with arbitrary penalty functions, scan theory |
| C58 | lr3opt termination | levels of the multipliers, penalised objective per level, lexicographic (violation, cost) above the highest level; in a metric, cutting an infeasible route in two with the empty route at the end is a 3-opt* move that lowers the excess, so large multipliers force feasible local optima |
| C59 | Tyagi result | invariant: the queues keep every free customer and every customer of the open group |
| C60 | Tyagi grouping rule | each iteration is a step of the inductive rule |
| C61 | Tyagi choice, interrupts | loop invariant: nothing considered so far beats the choice |
| C62 | Gillett-Miller: the sweep with its callback (M_gm) | equality with the plain sweep when a limit is missing; invariant for any callback meeting a contract; measure (customers in closed routes, blocked, a binary number for the kept customers along the circle, free) |
| C63 | Gillett-Miller exchange rule | neighbour lists are sorted, ordered sets of the next five; case analysis of the callback against the rule in Spec_gm |
| C64 | matching based savings (M_mbsa), sets, caches, savings and integer program | invariant: sets partition the customers, the savings dictionary is the gain of every pair of sets, caches hold the solver's tours |
| C65 | matching based savings, ending | the number of sets drops at each join; a refused best saving repeats the same state |
| C66 | matching based savings, the pair joined | optimal answers of the program with its actual constraints pick the largest saving of each row, so the tuple maximum is the largest saving |
| C67 | matching based savings, interrupts | labelled points between the statements; the greedy fallback's merges kept as a partition with endpoints |
| C68 | petal algorithm, result | Gurobi a parameter that answers truthfully; loop invariant on forbidden combinations; the single customer petals always give an exact cover |
| C69 | petal algorithm, termination | forbidden combinations are distinct lists over a finite set, the petal set never shrinks without a K constraint |
| C70 | petal algorithm, optimal choice | every run of the sweep is made into a petal; optimal answers and forbidden combinations bound every exact cover |
| C71 | petal algorithm, repairs | multiset of visits; cheapest insertion and redistribution keep exact route data |
| C72 | petal algorithm, interrupts | the solver answers `Interrupted` at any call; invariant on the best solution; comparison of runs with two solvers that differ only where one is interrupted |
| C73 | CAWLIP savings | composition of the theorems on parallel savings and on the local search driver |
| C74 | best of n runs | `read_and_solve_a_problem` over any list of outcomes; invariant: the state is the best of the outcomes seen |
| C75 | main loop of VeRyPy.py | loop over problems and algorithms with any outcomes; each report against a specification |
| C76 | listing of problem files | directory trees; the growing list by a measure on trees; sorting by natural keys |
| C77 | choice of algorithms | the alias table and the flags; any texts as names, the known ones by evaluation |
| C78 | two phase heuristic of Christofides, Mingozzi and Toth | both phases with the random orders as parameters; invariants on route states; a measure for phase two; the pick as the best of all found |
| C79 | its first phase | characterization of the greedy filling over the sorted candidates |
| C80 | its second phase | invariant: each seed stays on its route; the first minimum of the detours decides the association, a sort the order; witness for the n-th best association |
| C81 | interrupts in it | points between the statements; what the handlers build from each |
| C82 | Wren and Holliday's heuristic | all improvement steps; invariant: the routes are feasible and hold each customer once; the angles enter as the sweep order, the overlap test and the gap position, which are parameters |
| C83 | it and its sweeps | each step compared by routes and cost; witness for the default mode |
| C84 | its end | measure: number of routes, cost, and the flag at the Q-point; an alternating pair of states for the default mode |
| C85 | interrupts in it | log of the states of the list of routes; what the handler makes of each |
| C86 | Fisher and Jaikumar's heuristic | its search with Gurobi's answers, seed distances and TSP tours as parameters; invariant over the turns; an exhaustive solver proved honest shows that the hypotheses can be met |
| C87 | its end | measure: K, the seed, temporary increases and tries; any answers |
| C88 | its number of routes | the first K is a lower bound, and each smaller K is infeasible; witnesses for a length limit and for no demand |
| C89 | the costs of the assignment | the answer is minimal for the rows that are read; two seed functions that differ in the last row; witness |
| C90 | wrong answers of the solver | invariant without assumptions about the answers |
| C91 | the groups of cones | fold over the sweep; weights times K; invariant: total weight of the groups |
| C92 | interrupts in it | the state after any number of attempts |
| C93 | the TSP solver with Gurobi | its integer program with Gurobi as a parameter; walks in graphs of degree two are cycles; tours meet all constraints the callback adds, and what meets its own is a tour; an exhaustive solver proved honest |
| C94 | the TSP solver with LKH | the program as a function from problem file to tour file; composed with C34's round trip; parsing of the tour file by induction over its lines |
| C95 | the same for floats | distances as multiples of 1/u; sum of the errors of truncation |
| C96 | incomplete tour files | a witness |
| C97 | the TSP solver with ACOTSP | the same for printed lines |
| C98 | the fast TSP solver | composition; 3-opt reaches all tours of four nodes |
| C99 | naive 2-opt, 1-point and 2-point moves | the loops as scans of all candidates (as for C12); the check of the limits by induction over the routes |
| C100 | naive moves route by route | induction over the routes left, with those done in front |
| C101 | the naive local search | the cost as a variant; a round without improvements is a local optimum |
| C102 | naive 2-opt* and 3-opt* | case analysis of the loops; witnesses |
| C103 | naive against other operators | both meet the same contract for the same moves (C12, C14, C15, C99, C100) |
| C104 | every heuristic passes the validation | composition of C01 with the result theorem of each heuristic |
| C105 | interrupts in the repeated savings runs | where in which run interrupts arrive is an input of the model; invariant of the best solution over the runs, with C26 for the interrupted run |
| C106 | distance matrices | coordinates as multiples of 1/q, integer square roots; Cauchy-Schwarz for the triangle inequality, specification by squares without roots |
| C107 | random problems | the draws are inputs; composition with C104 |
| C108 | nearest neighbour with an automatic number of routes | the wrapper's loop over the number of emerging routes, with interrupts; induction over the tries, on top of C29 and C47 |
| C109 | printed statistics | the printed lines as values; composition of C01 (validator), C03 (splitting into routes) and sums |
| C110 | sweeps around the depot | integer coordinates, squared distances and the diamond angle, a monotone substitute for arctan2; the sort is any that sorts; composition with C31 |
| C111 | angular ranges of routes | the loop over the angles; invariant: the ranges are the hulls of what was passed |
| C112 | seeds by large demand | masks and lists of the loop over the seeds, any function for the square root; invariant: the candidates are the unpicked nodes of their kind; greedy choice by induction over the seeds |
| C113 | seeds at the ends of thoroughfares | as C112, for any labelling of the nodes by the clustering; one lemma for taking seeds from a list of candidates, used for each of the three kinds |
| C114 | seeds in equal cones | the loop over the sweep in rational numbers; invariants: weight is conserved, complete groups are full, rays go forward, members and ends of sectors follow the cones; counting gives the number of groups |
| C115 | where Wren-Holliday sweeps start | the angles of M_polar, exact under quarter turns; case analysis that the target angles are those of the turned vectors; the first position above an angle in ascending angles |
| C116 | command line of a heuristic | sys.argv as a list of texts; induction over the options given; the files by C76 |
| C117 | command line of a TSP solver | composition with C93 to C98 and the theorem on `solve_tsp_ropt` |
| C118 | the two dictionaries and the table at the end of `VeRyPy.main` | invariants of the dictionaries over the reports of C75, sorting of distinct keys |
| C119 | option -D of `VeRyPy.main` | integer division; with `calculate_D` for the refutation |
| C120 | no new code: the command lines (C74, C75) applied to the heuristics (C104) | composition; the relocated service times of C104 and the check of C75 agree |
| C121 | the functions `call_init` of eighteen `get_*_algorithm`, wh only when it minimizes the number of routes | the total correctness theorems of the heuristics with the parameters handed over; more fuel does not change results (`P_fuel.v`); composition with C75 |
| C122 | lr3opt with its default parameters: `_init_with_tsp`, `_get_max`, the multipliers | C58 with the multipliers computed; twins: the state of the search repeats with a multiplier of zero, for any number of steps |
| C123 | the functions `call_init` of the heuristics with Gurobi (`M_algos3.v`), the solver's answers as parameters | composition of C64, C65, C68, C69, C86 to C88 and C110; the petal loop is only left with an exception or an interrupt if the solver gives one |
| C124 | `examples/breedam_to_tsplib.py` on the text of a file (`M_breedam.v`), then `read_TSPLIB_CVRP` | the text written is a file with coordinates (C125); induction over the lines |
| C125 | `read_TSPLIB_CVRP` on files with coordinates (`M_io.v`) | invariant of the two sections: the lines read so far, then empty places; `_refuted` for lines in another order |
| C126 | as C125, with any number of lines | the same invariant; one line too many has no place; `_refuted` for missing demands |
| C127 | `examples/solve_from_data_dict.py` (`M_dict.v`): the checks, the retry without minimizing routes, the printed rows | the boolean checks are equivalent to a record of plain facts; induction over the algorithms with C121; partial: wh and the Gurobi heuristics are not called |
| C128 | `examples/single_solve_example.py` (`M_single.v`): `read_TSPLIB_CVRP` with `calculate_D`, `parallel_savings_init`, `sol2routes` | composition of C129, C125, C106, C39; the demands are those of the file by id; partial: nodes in the order of their ids; the distributed file meets the hypotheses |
| C129 | `read_TSPLIB_CVRP` on files with any header (`Spec_header.v`) | the state after the header is a fold over what the lines say; the three settings commute; then as C125 |
| C130 | `parallel_savings_init`, `sequential_savings_init` on data in a finer unit (`Spec_units.v`) | simulation: the states correspond with costs and loads multiplied; every comparison comes out alike; the sort commutes with the factor |
| C131 | `parallel_savings_init`, `sequential_savings_init` on two instances (`Spec_feas.v`) | simulation with the invariant of C25 on both sides: the routes and end points are equal, and the test of a merge says whether the joined route is feasible |

Everything is expressible in a model except the effects of floating point rounding, wall-clock time, external
solvers (LKH, ACOTSP, Gurobi) and random number generation; these are parameters or excluded.

## 3. Findings: properties the code does not have

Each has a theorem ending in `_refuted` with a concrete instance computed by the model.

| id | finding |
|----|---------|
| C02 | an empty route in list form is not removed by normalisation |
| C05 | service times that are odd or fractional are truncated when folded into the matrix |
| C06 | short open solutions are not closed |
| C08 | `sol2edgeset(symmetric=True)` keeps the direction |
| C10 | indexing an `OrderedDictSet` uses a stale cache |
| C17,C23 | 2-opt* stores wrong costs and demands; mixed with 1-point moves a route can be overfilled |
| C18 | without the triangle inequality the giving route can become longer than L |
| C21 | without the triangle inequality redistribution can duplicate customers |
| C22 | chain moves use no tolerance: moves allowed everywhere else are missed |
| C25 | asymmetric matrices: the length limit can be broken |
| C41 | inter-route moves with a service-time-free matrix break the length limit |
| C26,C28,C47,C51 | interrupt windows in which customers are reported twice |
| C27 | savings seeds fail with one customer; the seed mode names first/last are swapped |
| C29 | co-located customers can be lost; modes `farthest` and `closest` are swapped; TypeError with several emerging routes |
| C30 | IndexError when as many routes as customers are asked for, or there are no customers; pairs of seeds are not checked against C and L |
| C50 | without the triangle inequality a route is closed although a customer still fits |
| C52 | with minimize_K=False no route is ever emptied: the delta of a redistribution leaves out the emptied route; IndexError without customers |
| C53 | interrupts in the seed order or the refinement are swallowed (None may be returned); inside the insertion callback the route passed on may exceed L |
| C31 | a customer that cannot be served alone within L makes the sweep endless; a seed that is a multiple of N raises IndexError |
| C54 | a last sector that is too long loses the customers before its last one first, so the routes made of it are no sectors |
| C55 | interrupted during the first sweep, the exception carries None |
| C56 | interrupted in the initialisation, the exception carries None |
| C57 | the postoptimisation never changes anything |
| C58 | with L only the search for a feasible solution can be endless: `lambdas[0]` is compared with infinity where `lambdas[1]` was meant |
| C59 | one customer and a capacity: AttributeError in `cndt_sol.count`; the TSP phase is not checked against L |
| C60 | after an interchange the depot's queue is out of order, so a group can begin with a farther customer; `route_end_interchange` takes the last improving position because its best values are never updated |
| C61 | `_calculate_penalty` computes C - demand * cost (precedence) and the maximum is taken; for max_demand the first grouping counts all demands, the others leave out the single customer's |
| C63 | the improvement step asks for both C and L; the distances zeroed for the path computation are restored from one direction only, and not at all when solve_tsp is interrupted |
| C65 | when one route is left (or with one customer) `zip(*savings.keys())` of no savings raises ValueError; `continue` after a refused negative saving repeats the same round forever |
| C66 | `x_ij.sum(k,'*') == 1` constrains only the first index: the answer is not a matching and the pair joined is just the best saving |
| C67 | an interrupt in the first savings, or with a customer without partner: KeyError; between filter, deletion and store of a join: wrong or missing customers |
| C68 | `single` (required_iterations=1) returns a solution that leaves out a customer |
| C69 | with minimize_K the constraint on the number of routes is loosened for ever when all solutions are forbidden |
| C71 | a redistribution slack of exactly 0 is taken as unlimited: the moves can lengthen the solution |
| C72 | an interrupt while the extended petal set is solved without K is swallowed; None or an incomplete solution is returned |
| C73 | CAWLIP makes no 2-opt* moves, and raises an exception for a problem without customers |
| C74 | after an interrupt the exception does not carry the intermediate solution that the warning announces |
| C75 | for an instance without a capacity the report crashes (`"%.3f" % None`) unless `--minimal-output` is given |
| C76 | with `-r` files two or more directories down are listed, and solved, more than once |
| C77 | `mj76-si` runs `si`; `--forbid PS` is a KeyError; `--forbid classical` forbids nothing |
| C78 | the optimization at the end of a route is not checked against L (matters for solvers that can lengthen a route); 0 retries return None |
| C80 | `np.where(argpartition==n)` inverts the permutation: with three or more routes the n-th best route is missed |
| C81 | interrupts lose the customers of the route being built, and such a solution can replace a complete one |
| C83 | `wren_holliday` without `minimize_K` may return a solution longer than the sweep it started from |
| C84 | `wren_holliday` without `minimize_K` may alternate between two solutions for ever |
| C85 | an interrupt in `wren_holliday` may hand over a solution without some customers, or with one served twice, also when a complete one is known |
| C86 | `gap_init` with K given may return fewer routes, and `increase_K_on_failure` is not ignored with a length limit and adaptive weights, as documented |
| C88 | `gap_init` with a length limit only may return nothing on solvable instances: its lower bound for K is none; with zero demands the seeds raise ZeroDivisionError |
| C89 | `gap_init` uses the depot as the first seed and ignores the last: the costs of route k are read from row k of a matrix whose row 0 is the depot |
| C90 | `gap_init` does not check that nobody is on two routes |
| C91 | `_sweep_seed_points` makes fewer than K groups if a demand exceeds the average load, and in its last trial; the remaining seeds stay at (0,0) |
| C93 | `solve_tsp_gurobi` returns None as the tour of a single node |
| C94 | `solve_tsp_lkh` treats a closed list as if its first node were two |
| C95 | `solve_tsp_lkh` returns lengths of truncated float distances, to whole numbers for up to three nodes |
| C96 | `solve_tsp_lkh` does not notice that a tour file was cut off and returns a tour of some of the nodes |
| C97 | `solve_tsp_acotsp` with use_ants=True raises UnboundLocalError (nul_f) for four nodes or more |
| C100 | `do_naive_relocate_move` and `do_naive_exchange_move` ignore best_delta |
| C101 | `do_naive_local_search` goes on after max_iterations improvements |
| C102 | `do_naive_2optstar_move` calls the undefined `fast_constraint_check`; `do_naive_3optstar_move` is not implemented |
| C105 | Gaskell's, Paessens' and the suppression savings lose an interrupt that parallel savings does not catch: the handler ignores a KeyboardInterrupt without a solution and the runs go on; with a single run None is returned |
| C106 | `_att` divides the distance by 10, TSPLIB by the square root of 10; EUC_2D and FLOOR_2D distances break the triangle inequality by up to one unit |
| C108 | an interrupt of the parallel nearest neighbour algorithm loses the better solutions of the runs that are finished |
| C109 | `print_solution_statistics` prints the length instead of the cost unless it is verbose |
| C110 | `sweep_init` takes a sweep of two customers for three points |
| C111 | routes without a common direction may count as entangled |
| C112 | the third attempt of `_large_demand_seed_points` raises IndexError; on the second the nearest candidate, or the depot, may be chosen; more seeds than customers repeat or raise ValueError |
| C113 | `_end_of_thoroughfares_seed_points` raises ValueError if all nodes are outliers and may choose the depot; with two customers the second attempt raises IndexError |
| C114 | `_sweep_seed_points` leaves seed points at (0, 0) if a customer needs more than an equal share, and always on its last attempt; divides by zero without demands |
| C115 | `wren_holliday_init` with the command line's single attempt starts from the second position of the sweep and raises IndexError if there is one customer |
| C116 | `cli` takes the value -1 of -v for the option -1, the number of a last option for a random problem (also with -h), accepts `-n 0` and then fails, and prints the usage after every random problem |
| C117 | `tsp_cli` asserts that LKH's length of float distances is exact, and fails for one node with Gurobi |
| C118 | the table fails with a KeyError at a problem without a solution (always for `--simulate`), its titles are those of the first row only, and problems with the same base name overwrite each other |
| C119 | `-D ROUND` calls `np.int` on a matrix, which raises; `-D EXACT` and `-D TRUNCATE` are applied after the rounding of the file's edge weight type |
| C122 | `lr3opt_init` with a length limit only never ends when each node shares its place with another one and the tour found is best and too long: the default multiplier is 0, and doubling 0 gives 0 |
| C34 | selecting a subset when writing VRP files writes all demands |
| C35 | moving the depot does not relabel the last row and column |
| C36 | OPT files written cannot be read back; routes are not counted |
| C39 | suppression savings return None for one customer |
| C40 | with non-metric matrices customers can be served twice |
| C46 | a service time section with 0 for the depot is rejected; the EOF line after it is taken for a service time |
| C48 | a single route is never considered |
| C49 | NameError for interrupts before the first cost; early interrupts exceed the capacity |
| C125 | coordinates and demands are stored by line, not by node id: sections in another order give nodes the wrong demands |
| C126 | missing demands are not noticed, the nodes get None |


## 4. Trusted base

* Coq 8.16.1's kernel; the standard library only (List, ZArith, Permutation, Lia, Sorting, String, Ascii).
* `Print Assumptions` stands under every property theorem. All of them answer
  "Closed under the global context": no axiom is used. (The `Coq.ssr.ssrunder` constants listed by the checker
  come from files of the standard library that are loaded, no theorem depends on them.)
* `vm_compute` is used in examples and refutations only; it is part of the kernel.
* The faithfulness of the model to the Python text, by reading.

### Modelled

| file in /repo/verypy | model |
|----|----|
| `util.py` | `M_util.v` (all pure functions) |
| `cvrp_ops.py` | `M_cvrp_ops.v` |
| `routedata.py` | `M_routedata.v` |
| `local_search/__init__.py` | `M_driver.v` |
| `local_search/intra_route_operators.py`, `tsp_solvers/tsp_solver_ropt.py` | `M_intra.v` |
| `local_search/inter_route_operators.py` | `M_inter.v` |
| `local_search/solution_operators.py` (3-opt*) | `M_3optstar.v` |
| `classic_heuristics/parallel_savings.py` | `M_psavings.v` |
| `classic_heuristics/sequential_savings.py` | `M_ssavings.v` |
| `classic_heuristics/{gaskell,paessens,suppression}_savings.py` | `M_savfam.v` |
| the same with interrupts | `M_savint.v` |
| `cvrp_io.py`: `calculate_D`, `_att`, `generate_CVRP`; the random problem of `shared_cli.cli` | `M_dist.v` |
| `nearest_neighbor.py`: `get_snn_algorithm`, `get_pnn_algorithm` | `M_pnn.v` |
| `shared_cli.py`: `print_solution_statistics` | `M_stats.v` |
| `sweep.py`: `cart2pol`, `get_sweep_from_*`, the parameter `coordinates` of `sweep_init`; `wren_holliday_sweep.py`: `_get_route_phi_range` and the overlap test | `M_polar.v` |
| `gapvrp.py`: `_large_demand_seed_points`, `_end_of_thoroughfares_seed_points` (DBSCAN as a parameter) | `M_seeds.v` |
| `gapvrp.py`: `_sweep_seed_points`; `sweep.py`: `bisect_angle` | `M_cones.v` |
| `wren_holliday_sweep.py`: the choice of the sweeps in `wren_holliday_init`, `get_wh_algorithm` | `M_whstart.v` |
| `shared_cli.py`: `cli`, `tsp_cli` | `M_cmd.v` |
| `VeRyPy.py`: the table of results and the option -D of `main` | `M_table.v` |
| the functions `call_init` of `get_ps_algorithm`, `get_ps2o_algorithm`, `get_gs_algorithm`, `get_ss_algorithm`, `get_gps_algorithm`, `get_ims_algorithm`, `get_si_algorithm`, `get_mj_algorithm`, `get_pi_algorithm`, `get_cmt2p_algorithm`, `get_snn_algorithm`, `get_pnn_algorithm`, `get_ty_algorithm`, `get_swp_algorithm`, `get_gm_algorithm`, `get_rfcs_algorithm`, `get_lr3opt_algorithm` | `M_algos.v` |
| the function `call_init` of `get_wh_algorithm`, wren_holliday_sweep.py:760-762 | `M_algos2.v` |
| the functions `call_init` of `get_mm_algorithm`, `get_gap_algorithm` and `get_ptl_algorithm` | `M_algos3.v` |
| `examples/breedam_to_tsplib.py`: `breedam_to_tsplib95` | `M_breedam.v` |
| `examples/solve_from_data_dict.py` (all but the timing) | `M_dict.v` |
| `examples/single_solve_example.py` | `M_single.v` |
| `lr3opt.py`: `_init_with_tsp`, `_get_max`, the default multipliers | `M_lr3opt3.v` |
| `classic_heuristics/nearest_neighbor.py` | `M_nn.v` |
| `classic_heuristics/cheapest_insertion.py` | `M_cins.v` |
| `classic_heuristics/mole_jameson_insertion.py` | `M_mj.v`, callback in `M_cins.v` |
| `classic_heuristics/sweep.py` (without callbacks; the sweep given as a list of nodes) | `M_sweep.v` |
| `classic_heuristics/gillet_miller_sweep.py`, `sweep.py` with its intra-route callback | `M_gm.v` |
| `classic_heuristics/tyagi_nearest_neighbor.py`, and `nearest_neighbor.py` with its callback for one emerging route | `M_tyagi.v` |
| `classic_heuristics/rfcs.py` | `M_rfcs.v` |
| `classic_heuristics/lr3opt.py` (the default multipliers and the initial solution are parameters) | `M_lr3opt.v`, `M_lr3opt2.v` |
| `classic_heuristics/matchingvrp.py` (the matching solver is a parameter) | `M_mbsa.v` |
| `classic_heuristics/petalvrp.py` (the integer program solver is a parameter) | `M_petal.v` |
| `classic_heuristics/cawlip_savings.py`, the solving loops of `shared_cli.py` and `VeRyPy.py` | `M_cli.v` |
| finding the files and the algorithms: `shared_cli.py`, `util.py:natural_sort`, `__init__.py:get_algorithms` | `M_cli2.v` |
| `classic_heuristics/cmt_2phase.py` (what is shuffled is a parameter) | `M_cmt.v` |
| `classic_heuristics/wren_holliday_sweep.py` (angles only through the sweep order, overlap test and gap position; the starts of the sweeps are a parameter) | `M_wh.v` |
| `classic_heuristics/gapvrp.py` (the search, for any seeds, and the grouping of cones by weight alone; the seeds are in `M_seeds.v` and `M_cones.v`, except k-means) | `M_gap.v` |
| `tsp_solvers/tsp_solver_gurobi.py` (Gurobi is a parameter) | `M_tspg.v` |
| `tsp_solvers/tsp_solver_lkh.py`, `tsp_solver_acotsp.py`, `tsp_solver_fast.py` (the programs are parameters; not LKH's parameter file) | `M_tspx.v` |
| `local_search/naive_implementations.py` (without the messages and what follows the `raise` of 3-opt*) | `M_naive.v` |
| `cvrp_io.py` | `M_text.v`, `M_io.v` |

### Not modelled

Floating point rounding; logging and `__debug__` assertions; time limits; external TSP solvers and Gurobi (parameters; Gurobi is assumed to answer truthfully); plotting; the argument parsing of `VeRyPy.py` (argparse) and the layout of the command line's output; random restarts; the k-means seeds of GAP; the values of the GEO and EXACT_2D distances; `inter_route_3opt_operators.py`.
Interrupts are modelled between statements, except where a definition's comment says otherwise.
