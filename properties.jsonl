{"id": "C01", "title": "is_connected decides connectivity", "statement": "is_connected(adj) is True exactly when the graph has at least one area and every two areas are joined by a path of adjacencies (edge direction ignored); it is False for the empty graph.", "quantifier": "every adjacency matrix of every size", "why_tests_cant": "ranges over all finite graphs; a test fixes a handful", "anchors": ["region/csgraph_utils.py:is_connected"]}
{"id": "C02", "title": "neighbors and sub_adj_matrix give the row support and the induced subgraph", "statement": "neighbors(adj, a) lists, in ascending order and without repetition, exactly the j with adj[a,j] != 0. sub_adj_matrix(adj, nodes, wo_nodes) is the induced subgraph on nodes minus wo_nodes: is_connected of it is True iff that set of areas is non-empty and internally connected in adj.", "quantifier": "every adjacency matrix, every list of distinct in-range nodes, every removed node set", "why_tests_cant": "all node subsets of all graphs", "anchors": ["region/csgraph_utils.py:neighbors", "region/csgraph_utils.py:sub_adj_matrix"]}
{"id": "C03", "title": "assert_feasible accepts exactly the feasible clusterings", "statement": "assert_feasible(labels, adj, n_regions) returns silently iff the number of distinct labels equals n_regions (when given) and every region is spatially contiguous, and otherwise raises ValueError; boolean_assert_feasible answers True iff every region is contiguous and raises ValueError iff the region count is wrong.", "quantifier": "every label array and adjacency matrix of the same size, every n_regions or None", "why_tests_cant": "all labelings of all graphs", "anchors": ["region/util.py:assert_feasible", "region/util.py:boolean_assert_feasible"]}
{"id": "C04", "title": "separate_components splits a labelling without loss", "statement": "separate_components(adj, labels) yields one array per connected component; each agrees with labels inside its component and is -1 outside, every area is in exactly one component, and areas with labels >= 0 are recovered exactly by overlaying the yields.", "quantifier": "every adjacency matrix, every label array", "why_tests_cant": "all graphs and labelings, any number of islands", "anchors": ["region/util.py:separate_components"]}
{"id": "C05", "title": "distribute_regions_among_components respects totals and capacities", "statement": "For n_comps <= n_regions <= n_areas, whatever the random draws, the returned mapping gives every component at least one region and at most as many regions as it has areas, the values add up to n_regions, and no exception is raised.", "quantifier": "every component labelling, every n_regions, every sequence of random draws", "why_tests_cant": "all random histories", "anchors": ["region/util.py:distribute_regions_among_components"]}
{"id": "C06", "title": "_randomly_divide_connected_graph produces exactly n_regions contiguous regions", "statement": "For a connected graph and 1 <= n_regions <= n_areas, whatever spanning tree the MST routine returns and whatever the random draws, the labels are exactly 0..n_regions-1, each label is used and each region is contiguous, and no exception is raised.", "quantifier": "every connected graph, every spanning tree of it, every n_regions, every random history", "why_tests_cant": "all random cut choices on all trees", "anchors": ["region/util.py:_randomly_divide_connected_graph"]}
{"id": "C07", "title": "generate_initial_sol yields a feasible start or a ValueError", "statement": "For n_regions != 1: if there is at least one area and n_comps <= n_regions <= n_areas then the yielded arrays overlay to a labelling with exactly n_regions distinct labels, each region contiguous; otherwise ValueError is raised before anything is yielded.", "quantifier": "every symmetric adjacency matrix, every integer n_regions != 1, every random history", "why_tests_cant": "all graphs with any number of islands and all draws", "anchors": ["region/util.py:generate_initial_sol"]}
{"id": "C08", "title": "A single region can be requested from AZP", "statement": "AZP().fit(adj, attr, n_regions=1) on a connected graph returns the labelling with one region.", "quantifier": "every connected graph and attribute array", "why_tests_cant": "needs all inputs; the refutation must show every input fails", "anchors": ["region/util.py:generate_initial_sol", "region/p_regions/azp.py:AZP.fit_from_scipy_sparse_matrix"]}
{"id": "C09", "title": "Pairwise objective update equals the change of the objective", "statement": "For ObjectiveFunctionPairwise with a symmetric metric vanishing on equal points, update(a, r, labels, attr) equals objective(labels with a moved to r) - objective(labels).", "quantifier": "every labelling, area, recipient region occupied by some area, attribute array and metric", "why_tests_cant": "exact identity over all inputs", "anchors": ["region/objective_function.py:ObjectiveFunctionPairwise.update", "region/objective_function.py:ObjectiveFunctionPairwise.__call__"]}
{"id": "C10", "title": "The pairwise objective depends only on the partition", "statement": "ObjectiveFunctionPairwise is >= 0 for a non-negative metric, is 0 when every area is its own region, equals the sum over unordered same-region pairs, and is unchanged by renaming region labels injectively.", "quantifier": "every labelling, attribute array, metric and injective relabelling", "why_tests_cant": "all labelings and relabelings", "anchors": ["region/objective_function.py:ObjectiveFunctionPairwise.__call__"]}
{"id": "C11", "title": "Center objective update equals the change of the objective for the sum reduction", "statement": "For ObjectiveFunctionCenter with reduction=sum, update(a, r, labels, attr) for a move out of a region with at least two areas into another existing region equals objective(after) - objective(before), and labels is left unchanged by the call.", "quantifier": "every labelling, area, recipient, attribute array, metric and center function", "why_tests_cant": "exact identity over all inputs, and restoration after in-place mutation", "anchors": ["region/objective_function.py:ObjectiveFunctionCenter.update"]}
{"id": "C12", "title": "Center objective update is right for every reduction the constructor accepts", "statement": "ObjectiveFunctionCenter(reduction=np.max).update returns the change in the objective value.", "quantifier": "every labelling and move", "why_tests_cant": "a universally quantified identity; tests only use the default reduction", "anchors": ["region/objective_function.py:ObjectiveFunctionCenter.update", "region/objective_function.py:ObjectiveFunctionCenter.__init__"]}
{"id": "C13", "title": "Metric, solver, method and contiguity names are dispatched totally", "statement": "get_metric_function returns the named metric, returns a callable unchanged, treats None as 'manhattan' (the docstring says euclidean) and raises ValueError for every other argument; check_solver, _check_method and w_from_gdf accept exactly their documented names case-insensitively.", "quantifier": "every argument value", "why_tests_cant": "all strings", "anchors": ["region/util.py:get_metric_function", "region/util.py:check_solver", "region/p_regions/exact.py:PRegionsExact._check_method", "region/util.py:w_from_gdf"]}
{"id": "C14", "title": "AllowMoveAZP tracks the objective exactly", "statement": "Starting from start_new_component, after any sequence of calls in which every accepted move is made, AllowMoveAZP.objective_val equals the objective of the current labels, a call is accepted iff it does not increase the objective, and rejected calls change nothing.", "quantifier": "every call/move sequence, labelling and objective whose update is exact", "why_tests_cant": "all histories of calls", "anchors": ["region/p_regions/azp_util.py:AllowMoveAZP.__call__", "region/p_regions/azp_util.py:AllowMoveStrategy.start_new_component"]}
{"id": "C15", "title": "Simulated-annealing acceptance rule and counters", "statement": "AllowMoveAZPSimulatedAnnealing accepts every non-worsening move, accepts a worsening one iff the uniform draw is below exp(-diff/t), counts exactly the accepted worsening moves since reset, signals move_made exactly for accepted moves and the sa_moves_term alert exactly when an accepted worsening move brings the count to at least the limit.", "quantifier": "every call sequence, temperature and random draw", "why_tests_cant": "all histories and draws", "anchors": ["region/p_regions/azp_util.py:AllowMoveAZPSimulatedAnnealing"]}
{"id": "C16", "title": "The max-p wrapper never lets a region drop below the threshold", "statement": "With non-negative spatially extensive attributes, if every region meets the threshold before a move accepted by AllowMoveAZPMaxPRegions then every non-empty region meets it after the move, for any decorated strategy.", "quantifier": "every labelling, attribute array, threshold vector, decorated strategy and move", "why_tests_cant": "all states and strategies", "anchors": ["region/p_regions/azp_util.py:AllowMoveAZPMaxPRegions.__call__"]}
{"id": "C17", "title": "The max-p wrapper also protects the recipient when an attribute is negative", "statement": "With arbitrary (possibly negative) spatially extensive attributes, moves accepted by AllowMoveAZPMaxPRegions preserve the threshold in the recipient region (as its docstring says).", "quantifier": "every labelling, attribute array and move", "why_tests_cant": "the guard is dead code for every input; a universal statement", "anchors": ["region/p_regions/azp_util.py:AllowMoveAZPMaxPRegions.__call__"]}
{"id": "C18", "title": "AZP.fit returns a feasible clustering", "statement": "Whenever AZP.fit returns (n_regions >= 2 or initial labels given), labels_ assigns every area, has exactly n_regions distinct labels and every region is contiguous -- for every allow-move strategy, objective, random history, and for random or given feasible initial labels.", "quantifier": "every symmetric adjacency matrix, attribute array, strategy, objective, feasible start, random history", "why_tests_cant": "all random histories and strategies on all graphs", "anchors": ["region/p_regions/azp.py:AZP.fit_from_scipy_sparse_matrix", "region/p_regions/azp.py:AZP._azp_connected_component"]}
{"id": "C19", "title": "AZP.fit never worsens the objective", "statement": "With the default strategy and an exact objective, the objective of labels_ is at most the objective of the initial labels, in every connected component and hence overall for the pairwise objective.", "quantifier": "every input and random history", "why_tests_cant": "all histories", "anchors": ["region/p_regions/azp.py:AZP._azp_connected_component", "region/p_regions/azp_util.py:AllowMoveAZP.__call__"]}
{"id": "C20", "title": "AZP.fit terminates", "statement": "With the default strategy and an exact objective AZP.fit terminates for every random history, even when zero-gain moves are possible.", "quantifier": "every input and random history", "why_tests_cant": "termination cannot be tested", "anchors": ["region/p_regions/azp.py:AZP._azp_connected_component"]}
{"id": "C21", "title": "AZP.fit raises only on bad input", "statement": "For symmetric adj and feasible initial labels (or 2 <= n_regions within the component/area bounds) AZP.fit raises no exception; initial labels (one per area) that are not feasible, and n_regions outside the bounds, are answered by ValueError.", "quantifier": "every input, strategy that does not raise, and random history", "why_tests_cant": "all histories", "anchors": ["region/p_regions/azp.py:AZP.fit_from_scipy_sparse_matrix"]}
{"id": "C22", "title": "AZP.fit stops in a local optimum", "statement": "When AZP.fit with the default strategy returns, no single feasible move of one area to a bordering region strictly lowers the objective (under the condition that no move is objective-neutral; without it the statement is false).", "quantifier": "every input and random history", "why_tests_cant": "all histories and all moves", "anchors": ["region/p_regions/azp.py:AZP._azp_connected_component"]}
{"id": "C23", "title": "AZP keeps region labels and islands apart", "statement": "AZP.fit with initial labels keeps the set of labels, and every area ends in a region that had an area in the same connected component initially, so no region spans two islands.", "quantifier": "every input, strategy and random history", "why_tests_cant": "all histories", "anchors": ["region/p_regions/azp.py:AZP.fit_from_scipy_sparse_matrix"]}
{"id": "C24", "title": "AZPSimulatedAnnealing.fit returns a feasible clustering", "statement": "Whenever it returns after at least one AZP run, labels_ has exactly n_regions contiguous regions covering all areas; a cooling_factor outside (0,1) raises ValueError before any work is done.", "quantifier": "every input, temperature, cooling factor, termination parameters and random history", "why_tests_cant": "all histories", "anchors": ["region/p_regions/azp.py:AZPSimulatedAnnealing.fit_from_scipy_sparse_matrix"]}
{"id": "C25", "title": "AZPSimulatedAnnealing.fit terminates", "statement": "With finite max_iterations the fit terminates for every random history (a solution can only be revisited repetitions_before_termination times); with the default max_iterations=inf it need not.", "quantifier": "every input and random history", "why_tests_cant": "termination", "anchors": ["region/p_regions/azp.py:AZPSimulatedAnnealing.fit_from_scipy_sparse_matrix"]}
{"id": "C26", "title": "Refitting an AZPSimulatedAnnealing object equals fitting a fresh one", "statement": "The result of fit depends only on the constructor arguments, the fit arguments and the random history, not on earlier fits of the same object.", "quantifier": "every history of fits", "why_tests_cant": "history property", "anchors": ["region/p_regions/azp.py:AZPSimulatedAnnealing.__init__", "region/p_regions/azp.py:AZPSimulatedAnnealing.fit_from_scipy_sparse_matrix"]}
{"id": "C27", "title": "AZPBasicTabu.fit returns contiguous regions", "statement": "Whenever AZPBasicTabu.fit returns, every area is labelled with the name of a region of the start and every region is contiguous; with the pairwise objective (non-negative symmetric metric) or a center objective (sum reduction) there are exactly n_regions regions.", "quantifier": "every input, tabu length, repetition bound and random history", "why_tests_cant": "all histories", "anchors": ["region/p_regions/azp.py:AZPBasicTabu._azp_connected_component", "region/p_regions/azp.py:AZPTabu._make_move"]}
{"id": "C28", "title": "AZPBasicTabu never worsens the objective", "statement": "Every move AZPBasicTabu makes is accepted by AllowMoveAZP, so the objective never increases during the search (and hence the documented step 4, making the best move even if it worsens the objective, never happens).", "quantifier": "every input and random history", "why_tests_cant": "all histories", "anchors": ["region/p_regions/azp.py:AZPBasicTabu._azp_connected_component"]}
{"id": "C29", "title": "AZPBasicTabu terminates after repetitions_before_termination visits", "statement": "If a solution has been visited repetitions_before_termination times the clustering function terminates.", "quantifier": "every input and random history", "why_tests_cant": "non-termination cannot be observed by a test", "anchors": ["region/p_regions/azp.py:AZPBasicTabu._azp_connected_component"]}
{"id": "C30", "title": "AZPReactiveTabu.fit returns contiguous regions on a connected graph", "statement": "On a connected graph with a freshly constructed object, whenever fit returns, every region is contiguous; with an objective function whose update is exact the number of regions is n_regions and the objective is not worse than at the start. With k1 >= 1 the regions are those of the start, n_regions of them, for every objective function and strategy.", "quantifier": "every connected input, max_iterations, k1, k2 and random history", "why_tests_cant": "all histories", "anchors": ["region/p_regions/azp.py:AZPReactiveTabu._azp_connected_component"]}
{"id": "C31", "title": "AZPReactiveTabu handles several islands and refits", "statement": "On a graph with several components, or on a second fit of the same object, AZPReactiveTabu.fit returns a feasible clustering.", "quantifier": "every input and history", "why_tests_cant": "history property: state carried over between components", "anchors": ["region/p_regions/azp.py:AZPReactiveTabu._azp_connected_component"]}
{"id": "C32", "title": "AZPReactiveTabu never crashes on a feasible start", "statement": "AZPReactiveTabu.fit with feasible initial labels raises no exception.", "quantifier": "every input and history", "why_tests_cant": "universal", "anchors": ["region/p_regions/azp.py:AZPReactiveTabu._azp_connected_component"]}
{"id": "C33", "title": "grow_regions builds disjoint contiguous regions that meet the threshold", "statement": "For a symmetric adjacency matrix without self loops, whatever the random draws, grow_regions terminates without exception and returns disjoint contiguous regions each meeting the threshold; regions and enclaves together contain every area exactly once.", "quantifier": "every graph, attribute arrays, threshold and random history", "why_tests_cant": "all histories", "anchors": ["region/max_p_regions/heuristics.py:MaxPRegionsHeu.grow_regions", "region/max_p_regions/heuristics.py:MaxPRegionsHeu.find_best_area"]}
{"id": "C34", "title": "assign_enclaves completes the partition contiguously", "statement": "Given disjoint contiguous regions and enclaves covering all areas of a symmetric graph, assign_enclaves either raises ValueError (exactly when some connected component contains no region) or terminates with the same number of regions, each a contiguous superset of the original one, partitioning all areas.", "quantifier": "every partial partition and random history", "why_tests_cant": "all histories", "anchors": ["region/max_p_regions/heuristics.py:MaxPRegionsHeu.assign_enclaves", "region/max_p_regions/heuristics.py:MaxPRegionsHeu.find_best_region_idx"]}
{"id": "C35", "title": "MaxPRegionsHeu.fit returns a valid max-p clustering", "statement": "With non-negative spatially extensive attributes and the default local search, whenever fit returns (max_it >= 1), labels_ covers all areas with contiguous regions each meeting the threshold, as many regions as the best constructed partition.", "quantifier": "every symmetric graph without self loops, attributes, threshold, max_it and random history", "why_tests_cant": "all histories", "anchors": ["region/max_p_regions/heuristics.py:MaxPRegionsHeu.fit_from_scipy_sparse_matrix"]}
{"id": "C36", "title": "MaxPRegionsHeu.fit fails exactly when the threshold is unattainable on some island", "statement": "With non-negative spatially extensive attributes and max_it >= 1, fit raises ValueError if some connected component's total is below the threshold, and raises nothing otherwise.", "quantifier": "every input and random history", "why_tests_cant": "all histories", "anchors": ["region/max_p_regions/heuristics.py:MaxPRegionsHeu.fit_from_scipy_sparse_matrix", "region/max_p_regions/heuristics.py:MaxPRegionsHeu.assign_enclaves"]}
{"id": "C37", "title": "MaxPRegionsHeu keeps the threshold with any documented local search", "statement": "With local_search=AZPSimulatedAnnealing(...) every region of labels_ meets the threshold.", "quantifier": "every input and random history", "why_tests_cant": "universal over local searches", "anchors": ["region/max_p_regions/heuristics.py:MaxPRegionsHeu.fit_from_scipy_sparse_matrix", "region/p_regions/azp.py:AZPSimulatedAnnealing.fit_from_scipy_sparse_matrix"]}
{"id": "C38", "title": "The local search of MaxPRegionsHeu runs until no improvement", "statement": "The AZP local search inside MaxPRegionsHeu repeats its passes while they improve the objective.", "quantifier": "every input and random history", "why_tests_cant": "universal; the wrapper's stale objective value stops it after one pass on every input", "anchors": ["region/p_regions/azp_util.py:AllowMoveAZPMaxPRegions", "region/p_regions/azp.py:AZP._azp_connected_component"]}
{"id": "C39", "title": "random_state makes results reproducible", "statement": "Two runs constructing an object with the same random_state and fitting the same data give the same labels.", "quantifier": "every input, seed, OS entropy and interleaving of constructions and fits", "why_tests_cant": "histories of constructions and fits sharing the global generator", "anchors": ["region/p_regions/azp.py:AZP.__init__", "region/max_p_regions/heuristics.py:MaxPRegionsHeu.__init__", "region/max_p_regions/heuristics.py:MaxPRegionsHeu.fit_from_scipy_sparse_matrix"]}
{"id": "C40", "title": "Spanning_Forest.fit returns contiguous regions", "statement": "Every region of current_labels_ is contiguous in W, and current_labels_ are the components of minimum_spanning_forest_, numbered 0..k-1.", "quantifier": "every symmetric W, data, quorum, n_clusters, islands option and spanning forest chosen by scipy", "why_tests_cant": "all graphs", "anchors": ["region/skater/skater.py:Spanning_Forest.fit"]}
{"id": "C41", "title": "Spanning_Forest.fit returns the requested number of regions or warns", "statement": "Without the no-valid-moves warning the number of regions is the maximum of the number of initial subtrees and the (island-adjusted) n_clusters; with it, it is smaller than that and no remaining edge can be cut without breaking the quorum.", "quantifier": "every input", "why_tests_cant": "all inputs", "anchors": ["region/skater/skater.py:Spanning_Forest.fit"]}
{"id": "C42", "title": "Spanning_Forest.fit respects the quorum", "statement": "Every region has at least quorum areas, or the graph is connected with fewer than quorum areas and one region is returned; a disconnected forest with a component below the quorum raises ValueError.", "quantifier": "every input", "why_tests_cant": "all inputs", "anchors": ["region/skater/skater.py:Spanning_Forest.fit", "region/skater/skater.py:Spanning_Forest.score"]}
{"id": "C43", "title": "find_cut returns a cheapest admissible cut", "statement": "find_cut returns the first edge in the forest (restricted to the target label if given) whose removal has the smallest finite score, and an infinite score iff no admissible edge has a finite score; it never raises 'Malformed MSF' on a forest.", "quantifier": "every forest, data, quorum, labels/target", "why_tests_cant": "all forests", "anchors": ["region/skater/skater.py:Spanning_Forest.find_cut", "region/skater/skater.py:Spanning_Forest.score"]}
{"id": "C44", "title": "The cut sequence is hierarchical", "statement": "Each accepted cut splits exactly one region into two and leaves the others unchanged, so the labellings stored in _trace are successive refinements.", "quantifier": "every input", "why_tests_cant": "all inputs", "anchors": ["region/skater/skater.py:Spanning_Forest.fit", "region/skater/skater.py:Spanning_Forest.make_cut"]}
{"id": "C45", "title": "Identical neighbours stay connected in Spanning_Forest", "statement": "On a connected W, fit(n_clusters=1) returns one region whatever the data.", "quantifier": "every connected W and data", "why_tests_cant": "universal; violated when neighbouring areas have identical attributes", "anchors": ["region/skater/skater.py:Spanning_Forest.fit"]}
{"id": "C46", "title": "Spanning_Forest.fit terminates, also for n_clusters=inf", "statement": "fit performs at most as many cuts as the forest has edges and always returns or raises the island ValueError.", "quantifier": "every input", "why_tests_cant": "termination", "anchors": ["region/skater/skater.py:Spanning_Forest.fit"]}
{"id": "C47", "title": "Flow model solutions decode to p contiguous regions", "statement": "Every feasible integer assignment of the flow MIP decodes to labels 0..p-1, all used, each region contiguous; an optimal one has objective equal to the pairwise heterogeneity of the labels (non-negative distances).", "quantifier": "every symmetric graph, distances, p and solver answer", "why_tests_cant": "all solver answers", "anchors": ["region/p_regions/exact.py:_flow"]}
{"id": "C48", "title": "The flow model admits every p-region partition", "statement": "Every partition into p contiguous regions is representable by a feasible assignment, so an optimal answer is a globally best partition.", "quantifier": "every symmetric graph, p and partition", "why_tests_cant": "universal; violated by partitions with a region of n-p+1 areas", "anchors": ["region/p_regions/exact.py:_flow"]}
{"id": "C49", "title": "Order model solutions decode to p contiguous regions", "statement": "Every feasible integer assignment of the order MIP decodes to labels 0..p-1, all used, each region contiguous.", "quantifier": "every graph, p and solver answer", "why_tests_cant": "all solver answers", "anchors": ["region/p_regions/exact.py:_order"]}
{"id": "C50", "title": "The order model admits every p-region partition", "statement": "Every partition into p contiguous regions is representable (n - p >= 2), hence an optimal answer is globally optimal; for n - p = 1 the model is infeasible and for n = p building it raises KeyError.", "quantifier": "every symmetric graph, p and partition", "why_tests_cant": "universal", "anchors": ["region/p_regions/exact.py:_order"]}
{"id": "C51", "title": "Tree model solutions decode to p contiguous regions", "statement": "For positive distances every optimal assignment of the tree MIP decodes to p contiguous regions (n - p >= 2); with a zero distance an optimal assignment may make the decoder raise.", "quantifier": "every symmetric graph, distances, p and solver answer", "why_tests_cant": "all solver answers", "anchors": ["region/p_regions/exact.py:_tree"]}
{"id": "C52", "title": "The tree model admits every p-region partition", "statement": "Every partition into p contiguous regions is representable when n - p >= 2; for n - p <= 1 the model is infeasible.", "quantifier": "every symmetric graph, p and partition", "why_tests_cant": "universal", "anchors": ["region/p_regions/exact.py:_tree"]}
{"id": "C53", "title": "MaxPRegionsExact solutions decode to contiguous threshold-meeting regions", "statement": "Every feasible assignment decodes to a labelling in which every region is contiguous and meets the threshold in every attribute.", "quantifier": "every graph, attributes, threshold and solver answer", "why_tests_cant": "all solver answers", "anchors": ["region/max_p_regions/exact.py:MaxPRegionsExact.fit_from_scipy_sparse_matrix"]}
{"id": "C54", "title": "MaxPRegionsExact maximises the number of regions, then minimises heterogeneity", "statement": "An optimal assignment has the largest number of regions of any contiguous threshold-meeting partition and, among those, the least pairwise heterogeneity, because 10**h exceeds the total of all distances.", "quantifier": "every symmetric graph, attributes, threshold, distances with positive total and solver answer", "why_tests_cant": "universal over competing partitions", "anchors": ["region/max_p_regions/exact.py:MaxPRegionsExact.fit_from_scipy_sparse_matrix"]}
{"id": "C55", "title": "MaxPRegionsExact works for identical attributes", "statement": "fit returns a clustering also when all pairwise distances are zero.", "quantifier": "every such input", "why_tests_cant": "universal refutation: log10(0)", "anchors": ["region/max_p_regions/exact.py:MaxPRegionsExact.fit_from_scipy_sparse_matrix"]}
{"id": "C56", "title": "PRegionsExact validates its arguments", "statement": "fit raises ValueError for n_regions <= 0 or n_regions > n_areas, an unknown method, solver or metric, without changing labels_; otherwise it reaches the solver.", "quantifier": "every argument combination", "why_tests_cant": "all arguments", "anchors": ["region/p_regions/exact.py:PRegionsExact.fit_from_scipy_sparse_matrix"]}
{"id": "C57", "title": "A neighbour dict and its adjacency matrix describe the same graph", "statement": "scipy_sparse_matrix_from_dict numbers areas by sorted key; entry (rank i, rank j) is 1 iff j is listed among i's neighbours; a neighbour that is not a key raises KeyError.", "quantifier": "every neighbour dict", "why_tests_cant": "all dicts", "anchors": ["region/util.py:scipy_sparse_matrix_from_dict"]}
{"id": "C58", "title": "array_from_dict_values aligns rows with keys", "statement": "With uniform value lengths, row r of the result is the value of the r-th (sorted or given) key when sorted_keys has as many entries as the dict; for a subset of the keys, as the docstring allows, the 2-D result has one row per requested key.", "quantifier": "every dict and key list", "why_tests_cant": "all dicts; violated for subsets", "anchors": ["region/util.py:array_from_dict_values"]}
{"id": "C59", "title": "Networkx input keeps attributes aligned with areas", "statement": "In fit_from_networkx row i of the attribute array belongs to the same node as row i of the adjacency matrix.", "quantifier": "every graph and attribute specification", "why_tests_cant": "universal; violated when node insertion order is not sorted", "anchors": ["region/p_regions/azp.py:AZP.fit_from_networkx", "region/util.py:array_from_graph_or_dict", "region/util.py:dict_from_graph_attr"]}
{"id": "C60", "title": "array_from_region_list inverts a region list", "statement": "For a list of disjoint regions covering 0..n-1, the label of an area is the index of the region containing it.", "quantifier": "every partition", "why_tests_cant": "all partitions", "anchors": ["region/util.py:array_from_region_list"]}
{"id": "C61", "title": "Search and count helpers are exact", "statement": "find_sublist_containing returns the first sublist (or its index) containing the element and raises LookupError iff there is none; count(arr, el) is the number of occurrences; pop_randomly_from removes exactly the returned element and random_element_from returns a member, both raising ValueError only on an empty list.", "quantifier": "every argument and random draw", "why_tests_cant": "all inputs", "anchors": ["region/util.py:find_sublist_containing", "region/util.py:count", "region/util.py:pop_randomly_from", "region/util.py:random_element_from"]}
{"id": "C62", "title": "Refitting a MaxPRegionsHeu object equals fitting a fresh one", "statement": "The result of a second fit depends only on its own arguments and the random history.", "quantifier": "every history of fits", "why_tests_cant": "history property; violated because wrappers from earlier fits stay in force", "anchors": ["region/max_p_regions/heuristics.py:MaxPRegionsHeu.fit_from_scipy_sparse_matrix"]}
{"id": "C63", "title": "AZP networkx initial_labels are usable", "statement": "fit_from_networkx(graph, attr, n, initial_labels=dict) starts from the given labels.", "quantifier": "every graph and label dict", "why_tests_cant": "universal refutation: always TypeError", "anchors": ["region/p_regions/azp.py:AZP.fit_from_networkx", "region/util.py:array_from_graph_or_dict"]}
{"id": "C64", "title": "Initial labels may use any integers as region names", "statement": "AZP.fit with feasible initial labels works whatever integers name the regions.", "quantifier": "every connected graph and every naming", "why_tests_cant": "-1 doubles as the internal 'not in this component' marker; the refutation covers every connected graph", "anchors": ["region/p_regions/azp.py:AZP.fit_from_scipy_sparse_matrix", "region/util.py:separate_components"]}
{"id": "C65", "title": "AZPBasicTabu.fit raises no exception on a valid request", "statement": "On a valid request (feasible initial labels, or n_regions between the number of islands and of areas and not 1) AZPBasicTabu.fit raises no exception, whichever of the package's objective functions is used.", "quantifier": "every input, tabu length, repetition bound and random history", "why_tests_cant": "all histories; depends on which moves are tabu when a region has shrunk to one area", "anchors": ["region/p_regions/azp.py:AZPBasicTabu._azp_connected_component"]}
{"id": "C66", "title": "The max-p local search never loses", "statement": "With the pairwise objective (symmetric metric, zero on equal rows) and an AZP local search with the default strategy, the heterogeneity of labels_ is at most that of every completed partition of the construction phase.", "quantifier": "every input, state left by earlier fits and random history", "why_tests_cant": "all histories", "anchors": ["region/max_p_regions/heuristics.py:MaxPRegionsHeu.fit_from_scipy_sparse_matrix", "region/p_regions/azp_util.py:AllowMoveAZPMaxPRegions"]}
{"id": "C67", "title": "Max-p growth choices are greedy and unbiased among ties", "statement": "find_best_area (find_best_region_idx) returns a candidate whose total distance to the region is minimal, and every such candidate is returned for some random draw.", "quantifier": "every candidate list, region, attribute array, metric and draw", "why_tests_cant": "all draws; existence of a draw for every tie", "anchors": ["region/max_p_regions/heuristics.py:MaxPRegionsHeu.find_best_area", "region/max_p_regions/heuristics.py:MaxPRegionsHeu.find_best_region_idx"]}
{"id": "C68", "title": "grow_regions leaves no further region among the enclaves", "statement": "With non-negative spatially extensive attributes no contiguous set of the enclaves returned by grow_regions meets the threshold.", "quantifier": "every input, random history and subset of the enclaves", "why_tests_cant": "universal over subsets", "anchors": ["region/max_p_regions/heuristics.py:MaxPRegionsHeu.grow_regions"]}
{"id": "C69", "title": "Spanning_Forest works with an affinity", "statement": "An object constructed with an affinity can be fitted like one constructed with a dissimilarity.", "quantifier": "every affinity, graph and data", "why_tests_cant": "universal refutation: every fit that has to score a cut raises TypeError", "anchors": ["region/skater/skater.py:Spanning_Forest.__init__", "region/skater/skater.py:Spanning_Forest.score"]}
{"id": "C70", "title": "score depends only on the partition", "statement": "score(data, labels) is the same for every naming of the regions of one partition.", "quantifier": "every data, partition and naming", "why_tests_cant": "universal over namings; violated by every naming that does not use 0", "anchors": ["region/skater/skater.py:Spanning_Forest.score"]}
{"id": "C71", "title": "find_cut(make=True) cuts or refuses", "statement": "On a forest, find_cut(make=True) raises OptimizeWarning iff every cut breaks the quorum; otherwise it returns the forest without a cheapest edge, the number of its components and their labels, which meet the quorum.", "quantifier": "every forest, data and quorum", "why_tests_cant": "all forests", "anchors": ["region/skater/skater.py:Spanning_Forest.find_cut", "region/skater/skater.py:Spanning_Forest.make_cut"]}
{"id": "C72", "title": "A finer map never has a larger score", "statement": "If one labelling refines another then its score is not larger, so each cut made by fit does not raise the score.", "quantifier": "every data and pair of labellings", "why_tests_cant": "universal; violated by the default mean centre with Manhattan distances", "anchors": ["region/skater/skater.py:Spanning_Forest.score", "region/skater/skater.py:Spanning_Forest.fit"]}
{"id": "C73", "title": "PRegionsExact minimises heterogeneity of attribute vectors", "statement": "With several attributes an optimal answer minimises the sum of pairwise distances between the attribute vectors of areas in the same region.", "quantifier": "every graph, attributes, metric and optimal answer", "why_tests_cant": "universal; violated because rows are reshaped to columns and all pairs of attribute values are added up", "anchors": ["region/p_regions/exact.py:_order", "region/p_regions/exact.py:_flow", "region/p_regions/exact.py:_tree"]}
{"id": "C74", "title": "PRegionsExact never returns labels that are not p contiguous regions", "statement": "If no feasible assignment exists (or the solver reports none), fit raises instead of storing labels.", "quantifier": "every graph, p, method and solver answer", "why_tests_cant": "universal over unsolvable instances; violated: the solver status is not read", "anchors": ["region/p_regions/exact.py:_flow", "region/p_regions/exact.py:_order"]}
{"id": "C75", "title": "MaxPRegionsExact reports an unattainable threshold", "statement": "If no contiguous partition meets the threshold, fit raises instead of storing labels.", "quantifier": "every graph, attributes and unattainable threshold", "why_tests_cant": "universal over unsolvable instances; violated: the solver status is not read", "anchors": ["region/max_p_regions/exact.py:MaxPRegionsExact.fit_from_scipy_sparse_matrix"]}
{"id": "C76", "title": "MaxPRegionsExact enforces a threshold given as a list", "statement": "With several spatially extensive attributes a threshold given as a list is enforced like an array.", "quantifier": "every graph, attributes, list threshold and optimal answer", "why_tests_cant": "universal; violated: the isinstance tests skip the constraint silently", "anchors": ["region/max_p_regions/exact.py:MaxPRegionsExact.fit_from_scipy_sparse_matrix"]}
{"id": "C77", "title": "Regions of AZP.fit_from_dict are contiguous along the neighbour lists", "statement": "When AZP.fit_from_dict returns, there is one label per area (areas in sorted order), exactly n_regions labels, and any two areas with the same label are joined by a chain of listed neighbours inside their region.", "quantifier": "every neighbour dict, attributes, start, strategy and random history", "why_tests_cant": "all dicts and histories", "anchors": ["region/p_regions/azp.py:AZP.fit_from_dict", "region/util.py:scipy_sparse_matrix_from_dict"]}
{"id": "C78", "title": "The order in which dicts were filled does not matter", "statement": "Dicts with the same entries in another insertion order (and neighbour lists in another order or with repetitions) are converted to the same matrix and array, or raise the same exception.", "quantifier": "every dict and reordering", "why_tests_cant": "all permutations", "anchors": ["region/util.py:scipy_sparse_matrix_from_dict", "region/util.py:array_from_dict_values"]}
{"id": "C79", "title": "AZP.fit_from_dict aligns attributes with areas", "statement": "If attr has an entry for every area, the algorithm receives, for each area, the row with that area's attributes.", "quantifier": "every neighbour dict and attribute dict", "why_tests_cant": "universal; violated when attr has entries for further areas", "anchors": ["region/p_regions/azp.py:AZP.fit_from_dict", "region/util.py:array_from_dict_values"]}
{"id": "C80", "title": "A node without an attribute is reported", "statement": "fit_from_networkx with attribute names raises an exception if some node lacks one of the attributes.", "quantifier": "every graph and list of attribute names", "why_tests_cant": "universal; violated for two attributes: columns are mixed silently", "anchors": ["region/util.py:dict_from_graph_attr", "region/util.py:array_from_graph"]}
{"id": "C81", "title": "Dict input of the exact and max-p solvers is validated and aligned", "statement": "fit_from_dict of PRegionsExact, MaxPRegionsExact and MaxPRegionsHeu raises ValueError if an argument is not a dict or the keys differ; otherwise the row of each area holds its values.", "quantifier": "every combination of dicts", "why_tests_cant": "all dicts", "anchors": ["region/p_regions/exact.py:PRegionsExact.fit_from_dict", "region/max_p_regions/exact.py:MaxPRegionsExact.fit_from_dict", "region/max_p_regions/heuristics.py:MaxPRegionsHeu.fit_from_dict"]}
{"id": "C82", "title": "array_from_df_col extracts exactly the named columns", "statement": "Row i lists the i-th entries of the named columns in the order given; ValueError iff attr is neither a string nor a sequence of strings, KeyError iff a column does not exist.", "quantifier": "every frame and attr argument", "why_tests_cant": "all frames", "anchors": ["region/util.py:array_from_df_col"]}
{"id": "C83", "title": "dataframe_to_dict keeps every row", "statement": "The result maps the index entry of every row to the values of that row.", "quantifier": "every frame and list of columns", "why_tests_cant": "universal; violated by repeated index entries", "anchors": ["region/util.py:dataframe_to_dict"]}
{"id": "C84", "title": "The max-p wrapper refuses only what it must", "statement": "If the donor region meets the threshold, AllowMoveAZPMaxPRegions refuses a move exactly when the donor region would fall below the threshold; otherwise its answer, the effect on the wrapped strategy and the use of random numbers are those of the wrapped strategy.", "quantifier": "every labelling, attribute matrix of any sign, threshold vector, move, wrapped strategy and random history", "why_tests_cant": "universal; a wrapper that refuses too much still keeps every region at the threshold", "anchors": ["region/p_regions/azp_util.py:AllowMoveAZPMaxPRegions.__call__"]}
{"id": "C85", "title": "Annealing gives up after nonmoving_steps_before_stop rounds", "statement": "If nothing can be moved, AZPSimulatedAnnealing.fit returns the initial labels after exactly min(nonmoving_steps_before_stop, repetitions_before_termination minus the number of times the solution was recorded before) recorded rounds (one non-moving step more if an earlier fit left the move flag set), whatever the draws, even with max_iterations = inf.", "quantifier": "every graph, objective, initial labels without legal move, parameters, memory of earlier fits and random history", "why_tests_cant": "all draws and histories; a run that never stops cannot be observed", "anchors": ["region/p_regions/azp.py:AZPSimulatedAnnealing.fit_from_scipy_sparse_matrix"]}
{"id": "C86", "title": "Values that cannot be put into an array are reported", "statement": "array_from_dict_values raises IndexError for no keys, KeyError for a missing key, TypeError for a number among iterables and ValueError for an iterable among numbers (the first key that cannot be read decides), and otherwise returns the values in order; attr that is not iterable is a ValueError in fit_from_networkx.", "quantifier": "every dict and key list", "why_tests_cant": "all dicts", "anchors": ["region/util.py:array_from_dict_values", "region/util.py:array_from_graph_or_dict"]}
{"id": "C87", "title": "The tabu searches leave local optima", "statement": "AZPBasicTabu makes the best move even if it is non-improving (step 4), and AZPReactiveTabu makes the best non-tabu move (step 5), so started at labels from which every single move worsens the objective they explore further labels.", "quantifier": "every start that is a strict local optimum, every parameter and random history", "why_tests_cant": "universal refutation: the move strategy refuses every worsening move, so the start is returned", "anchors": ["region/p_regions/azp.py:AZPBasicTabu._azp_connected_component", "region/p_regions/azp.py:AZPReactiveTabu._azp_connected_component"]}
{"id": "C88", "title": "AZPReactiveTabu returns the best labels it has reached", "statement": "The labels returned by AZPReactiveTabu.fit are at least as good as those reached after each of the at most max_iterations repetitions of steps 3-11.", "quantifier": "every connected input, k1, k2, max_iterations and random history", "why_tests_cant": "universal: visited[-2] drops the last repetition when max_iterations is used up", "anchors": ["region/p_regions/azp.py:AZPReactiveTabu._azp_connected_component"]}
{"id": "C89", "title": "AZPBasicTabu.fit stops in a local optimum", "statement": "When AZPBasicTabu.fit returns, no single legal move of one area strictly lowers the objective of its island.", "quantifier": "every input, tabu length, repetition bound and random history", "why_tests_cant": "all histories; depends on which improving moves are tabu when the repetition bound is hit", "anchors": ["region/p_regions/azp.py:AZPBasicTabu._azp_connected_component"]}
{"id": "C90", "title": "If no area can be moved the searches return the initial labels", "statement": "Started from feasible labels from which no single legal move exists, AZP.fit, AZPBasicTabu.fit and AZPReactiveTabu.fit return these labels.", "quantifier": "every input without a legal move, every parameter, strategy and random history", "why_tests_cant": "universal; violated by AZPReactiveTabu, which raises AttributeError", "anchors": ["region/p_regions/azp.py:AZP._azp_connected_component", "region/p_regions/azp.py:AZPBasicTabu._azp_connected_component", "region/p_regions/azp.py:AZPReactiveTabu._azp_connected_component"]}
{"id": "C91", "title": "Unusable arguments are reported", "statement": "AZPSimulatedAnnealing without an initial temperature raises NotImplementedError; for a valid request its fit raises (and then ValueError) iff the cooling factor is not between 0 and 1 or sa_moves_term is not a positive integer. AZPReactiveTabu refuses max_iterations <= 0 and the random division n_regions < 1 or > number of areas with ValueError; score without labels or fit raises ValueError; a threshold array with too few entries makes MaxPRegionsExact raise IndexError.", "quantifier": "every argument value, input, memory of earlier fits and random history", "why_tests_cant": "iff over all argument values; violated by max_iterations = 0, which skips all validation", "anchors": ["region/p_regions/azp.py:AZPSimulatedAnnealing.__init__", "region/p_regions/azp_util.py:AllowMoveAZPSimulatedAnnealing.__init__", "region/p_regions/azp.py:AZPReactiveTabu.__init__", "region/util.py:randomly_divide_connected_graph", "region/skater/skater.py:Spanning_Forest.score", "region/max_p_regions/exact.py:MaxPRegionsExact.fit_from_scipy_sparse_matrix"]}
{"id": "C92", "title": "The construction phase of max-p can produce exactly the greedy partitions", "statement": "For non-negative spatially extensive attributes the region lists that grow_regions returns for some random draws are exactly those whose regions are grown one after the other from free areas, always adding a closest free neighbour and stopping as soon as the threshold is met, such that no contiguous set of remaining areas meets the threshold; assign_enclaves returns exactly the completions that hand out the enclaves one by one, each to a closest neighbouring region.", "quantifier": "every graph, attributes, metric, threshold and region list", "why_tests_cant": "exact set of outcomes over all random histories", "anchors": ["region/max_p_regions/heuristics.py:MaxPRegionsHeu.grow_regions", "region/max_p_regions/heuristics.py:MaxPRegionsHeu.assign_enclaves"]}
{"id": "C93", "title": "Areas that meet the threshold alone stay alone, and only then", "statement": "MaxPRegionsHeu.fit returns every area as its own region iff every single area meets the threshold.", "quantifier": "every input with non-negative attributes, state left by earlier fits and random history", "why_tests_cant": "all inputs and histories", "anchors": ["region/max_p_regions/heuristics.py:MaxPRegionsHeu.fit_from_scipy_sparse_matrix"]}
{"id": "C94", "title": "The possible numbers of regions of MaxPRegionsHeu", "statement": "MaxPRegionsHeu.fit can return p regions (for some random draws) iff some greedy partition has p regions, whatever max_it >= 1.", "quantifier": "every input with attainable threshold, max_it, state left by earlier fits and p", "why_tests_cant": "existence of random histories", "anchors": ["region/max_p_regions/heuristics.py:MaxPRegionsHeu.fit_from_scipy_sparse_matrix", "region/max_p_regions/heuristics.py:MaxPRegionsHeu.grow_regions"]}
{"id": "C95", "title": "MaxPRegionsHeu can find the maximum number of regions", "statement": "For some random draws MaxPRegionsHeu.fit returns as many regions as the best contiguous partition that meets the threshold; it never returns more, and never fewer than there are islands.", "quantifier": "every input, max_it and random history", "why_tests_cant": "universal refutation over all histories: on some inputs the greedy growth always misses the maximum", "anchors": ["region/max_p_regions/heuristics.py:MaxPRegionsHeu.fit_from_scipy_sparse_matrix", "region/max_p_regions/heuristics.py:MaxPRegionsHeu.grow_regions"]}
{"id": "C96", "title": "Annealing is a sequence of rounds at decreasing temperature", "statement": "A fit of AZPSimulatedAnnealing is its first round (the fit with repetitions_before_termination = 0), after which it returns if the labels have been recorded repetitions_before_termination times, and otherwise continues exactly like a fit of a new object started at these labels with the temperature multiplied by the cooling factor, these labels recorded, and one non-moving step less unless the round moved something. With max_iterations = 1 a round is one AZP run with the annealing strategy at that temperature.", "quantifier": "every input, parameter, memory of earlier fits and random history", "why_tests_cant": "relational over pairs of runs with arbitrary histories", "anchors": ["region/p_regions/azp.py:AZPSimulatedAnnealing.fit_from_scipy_sparse_matrix", "region/p_regions/azp_util.py:AllowMoveAZPSimulatedAnnealing.update_temperature"]}
{"id": "C97", "title": "The default centre is the mean, and squared distances to it behave", "statement": "The default centre of a region is the mean of each attribute; it minimises the total squared Euclidean distance to the areas of the region. With squared distances ObjectiveFunctionCenter is the sum over the regions of the pairwise sum divided by the number of areas, and the score of Spanning_Forest never rises when regions are split.", "quantifier": "every attribute array, labelling and point", "why_tests_cant": "identities over all arrays", "anchors": ["region/objective_function.py:ObjectiveFunctionCenter.__call__", "region/skater/skater.py:Spanning_Forest.score"]}
{"id": "C98", "title": "AZPReactiveTabu.fit is steepest descent", "statement": "On a connected graph a newly created AZPReactiveTabu with k1 >= 1 moves from the start by best legal moves that lower the objective, until none does or max_iterations - 1 moves were made (one move for max_iterations = 1). The only other result is one move of equal objective away from a start that is a local optimum. AttributeError is raised only at labels that no legal move changes, except by taking back the last move.", "quantifier": "every connected symmetric graph, exact objective, start, max_iterations >= 1, k1 >= 1, k2 and random draws", "why_tests_cant": "the whole sequence of moves, for all inputs; tests see single results", "anchors": ["region/p_regions/azp.py:AZPReactiveTabu._azp_connected_component", "region/p_regions/azp.py:AZPTabu._make_move"]}
{"id": "C99", "title": "With enough iterations AZPReactiveTabu.fit stops in a local optimum", "statement": "If max_iterations is large enough, no legal move lowers the objective of the labels returned by a newly created AZPReactiveTabu (connected graph, k1 >= 1).", "quantifier": "every connected symmetric graph, exact objective, start, k2 and random draws", "why_tests_cant": "quantifies over all legal moves and needs a bound for max_iterations that holds for all inputs", "anchors": ["region/p_regions/azp.py:AZPReactiveTabu._azp_connected_component"]}
{"id": "C100", "title": "The possible results of AZP.fit are exactly those of the documented algorithm", "statement": "From given initial labels the labels AZP.fit can return are exactly those that arise, on each island independently, by rounds in which every region in some order takes areas one after the other - any area whose move is legal and does not raise the objective of the island - until none is left, the rounds ending with the first that does not lower the objective. Every such result occurs for some random draws. Without initial labels every result arises like this from some feasible labelling with the labels 0 .. p-1.", "quantifier": "every symmetric graph with any number of islands, exact objective, attributes, feasible start and random history", "why_tests_cant": "the set of possible results over all random draws, in both directions", "anchors": ["region/p_regions/azp.py:AZP._azp_connected_component", "region/p_regions/azp.py:AZP.fit_from_scipy_sparse_matrix", "region/p_regions/azp_util.py:AllowMoveAZP.__call__"]}
{"id": "C101", "title": "The numbering of the areas and the names of the regions do not matter", "statement": "If the areas are listed in another order (adjacency, attributes and initial labels permuted alike) and the regions of the initial labels are renamed one to one, the labels AZP.fit can return change in exactly that way, for any objective that does not itself depend on order and names - the pairwise objective with a symmetric metric and the sum of distances to the mean among them.", "quantifier": "every symmetric graph, permutation of its areas, one-to-one renaming, exact objective, feasible start and random history", "why_tests_cant": "relational over pairs of inputs and all random draws", "anchors": ["region/p_regions/azp.py:AZP.fit_from_scipy_sparse_matrix", "region/p_regions/azp.py:AZP._azp_connected_component", "region/objective_function.py:ObjectiveFunctionPairwise.__call__", "region/objective_function.py:ObjectiveFunctionCenter.__call__"]}
{"id": "C102", "title": "The random initial clusterings are exactly the cuts of one spanning forest", "statement": "For a given neighbour relation there is one spanning forest such that the initial clusterings with p regions that can be drawn are exactly those obtained by cutting links of this forest until p parts are left, the parts numbered 0 .. p-1 island by island and within an island by their first areas. Every distribution of the regions over the islands (at least one each, at most as many as there are areas) and every choice of the links to cut occurs for some random draws. If the neighbour relation has no cycles, every feasible clustering can therefore be drawn; in general not every one can: on a circle of four areas some clustering in two regions is never drawn, whatever the draws.", "quantifier": "every neighbour relation with any number of islands, every p between the number of islands and the number of areas other than 1, all random draws", "why_tests_cant": "the set of possible results over all random draws, in both directions", "anchors": ["region/util.py:generate_initial_sol", "region/util.py:_randomly_divide_connected_graph", "region/util.py:distribute_regions_among_components"]}
{"id": "C103", "title": "The possible results of AZP.fit without initial labels", "statement": "Without initial labels the labels AZP.fit can return are exactly the results of the documented rounds (see C100) from the clusterings that can be cut from one spanning forest of the neighbour relation (see C102); each occurs for some random draws.", "quantifier": "every symmetric graph with any number of islands, exact objective, attributes, p other than 1 between the number of islands and of areas", "why_tests_cant": "the set of possible results over all random draws, in both directions", "anchors": ["region/p_regions/azp.py:AZP.fit_from_scipy_sparse_matrix", "region/p_regions/azp.py:AZP._azp_connected_component", "region/util.py:generate_initial_sol"]}
{"id": "C104", "title": "Fitting without initial labels is fitting from a random cut of a spanning forest", "statement": "There is one spanning forest of the neighbour relation such that what AZP.fit (with any allow-move strategy), AZPBasicTabu.fit or AZPReactiveTabu.fit can return or raise without initial labels - labels and state of the object - is exactly what it can return or raise when the clusterings with p regions cut from that forest are passed as initial labels.", "quantifier": "every graph with any number of islands, attributes, objective function, state of the object, p other than 1 between the number of islands and of areas; any random draws (per island the cuts are drawn only after the previous island has been optimised)", "why_tests_cant": "relates the sets of all possible answers of two kinds of calls over all random histories", "anchors": ["region/p_regions/azp.py:AZP.fit_from_scipy_sparse_matrix", "region/util.py:generate_initial_sol", "region/util.py:_randomly_divide_connected_graph"]}
{"id": "C105", "title": "Spanning_Forest.fit is greedy pruning of a lightest spanning forest", "statement": "A fit succeeds exactly if, with more than one island of dissimilar neighbours, every island meets the quorum. Its outcome - labels, remaining forest, trace and the no-moves warning - is then the only one that arises as follows: take a spanning forest, of least total dissimilarity, of the pairs of neighbours that are not identical; as long as there are fewer regions than wanted, cut the first link (row by row) whose removal gives the lowest score among those that respect the quorum, and record the labels and the link; stop when there are enough regions, or with a warning when no link may be cut.", "quantifier": "every graph, attribute array, metric, reduction, centre function, n_clusters, quorum and islands option; every tie-breaking of the spanning-tree routine", "why_tests_cant": "minimality over all spanning forests and uniqueness of the outcome for all inputs", "anchors": ["region/skater/skater.py:Spanning_Forest.fit", "region/skater/skater.py:Spanning_Forest.find_cut", "region/skater/skater.py:Spanning_Forest.make_cut"]}
{"id": "C106", "title": "Without ties Spanning_Forest.fit does not depend on how the spanning tree is computed", "statement": "If neighbouring pairs have pairwise different dissimilarities, a fit that cuts nothing keeps exactly the links between dissimilar neighbours whose ends are not joined by a chain of lighter links. If, besides, no two cuts of a forest of neighbours have the same score, two fits whose spanning-tree routines order equal or reversed links differently agree on labels, labels and scores of the trace, warning, and forest (up to the direction in which a link is stored).", "quantifier": "every symmetric graph, attribute array, symmetric metric, n_clusters, quorum and islands option, any two ways to order the links by dissimilarity", "why_tests_cant": "relational over two implementations of an external routine and all inputs", "anchors": ["region/skater/skater.py:Spanning_Forest.fit", "region/skater/skater.py:Spanning_Forest.find_cut"]}
{"id": "C107", "title": "The possible results of MaxPRegionsHeu.fit, exactly", "statement": "With the default local search the labels MaxPRegionsHeu.fit can return are exactly those that arise as follows: regions are grown greedily until no further one fits, the remaining areas are handed out one after the other to closest neighbouring regions, and then on each island every region, in some order, takes areas one after the other - any area whose move is legal, does not raise the objective of the island and leaves its old region at the threshold - until none is left; each region has exactly one such turn. Every such result occurs for some random draws, and which results are possible does not depend on max_it >= 1.", "quantifier": "every symmetric graph without self loops and any number of islands, non-negative extensive attributes, any number of threshold components, exact objective, metric, max_it >= 1, random history, and local search object not used with other thresholds", "why_tests_cant": "the set of possible results over all random draws and all max_it, in both directions", "anchors": ["region/max_p_regions/heuristics.py:MaxPRegionsHeu.fit_from_scipy_sparse_matrix", "region/max_p_regions/heuristics.py:MaxPRegionsHeu.grow_regions", "region/max_p_regions/heuristics.py:MaxPRegionsHeu.assign_enclaves", "region/p_regions/azp_util.py:AllowMoveAZPMaxPRegions.__call__"]}
{"id": "C108", "title": "The numbering of the areas does not matter to MaxPRegionsHeu", "statement": "If the areas are listed in another order (adjacency, attributes and spatially extensive attributes permuted alike), the labels MaxPRegionsHeu.fit can return are permuted in the same way and otherwise stay the same, for any objective that does not itself depend on the order of areas and the names of regions, whatever max_it >= 1 is used for either input.", "quantifier": "every symmetric graph without self loops, permutation of its areas, non-negative extensive attributes, threshold, metric, exact objective, max_it >= 1 and random history", "why_tests_cant": "relational over pairs of inputs and all random draws", "anchors": ["region/max_p_regions/heuristics.py:MaxPRegionsHeu.fit_from_scipy_sparse_matrix", "region/max_p_regions/heuristics.py:MaxPRegionsHeu.grow_regions", "region/max_p_regions/heuristics.py:MaxPRegionsHeu.assign_enclaves", "region/max_p_regions/heuristics.py:MaxPRegionsHeu.find_best_area"]}
{"id": "C109", "title": "The possible results of AZPSimulatedAnnealing.fit, exactly", "statement": "The labels AZPSimulatedAnnealing.fit can return are exactly the ends of annealings. An annealing starts at the initial labels, or without them at a clustering cut from the spanning forest of C102. At each temperature AZP runs follow one another until max_iterations runs were made, sa_moves_term worsening moves were made at this temperature, or a run ends where it began. In a run, on each island, every region in some order takes areas one after the other: any area whose move is legal and either does not raise the objective of the island or is accepted with positive probability exp(-increase/temperature); it stops when no area is left that is certain to be accepted; rounds end with the first that does not lower the objective. Then the temperature is multiplied by the cooling factor and the labels are recorded; the annealing ends at labels recorded repetitions_before_termination times, or after nonmoving_steps_before_stop temperatures without a move. Every such end occurs for some random draws, together with what the object then remembers (recorded labels, move flag).", "quantifier": "every symmetric graph with any number of islands, exact objective, attributes, feasible start or none, parameters (max_iterations = inf included), memory of earlier fits, exponential function and random history", "why_tests_cant": "the set of possible results over all random draws, in both directions", "anchors": ["region/p_regions/azp.py:AZPSimulatedAnnealing.fit_from_scipy_sparse_matrix", "region/p_regions/azp_util.py:AllowMoveAZPSimulatedAnnealing.__call__", "region/p_regions/azp.py:AZP._azp_connected_component"]}
{"id": "C110", "title": "The numbering of the areas and the names of the regions do not matter to AZPSimulatedAnnealing", "statement": "If the areas are listed in another order (adjacency, attributes and initial labels permuted alike) and the regions of the initial labels are renamed one to one, the labels AZPSimulatedAnnealing.fit can return, and the labels the object then has on record, change in exactly that way, for any objective that does not itself depend on order and names. Objects used before are included, if the labels they have recorded correspond.", "quantifier": "every symmetric graph, permutation of its areas, one-to-one renaming, exact objective, feasible start, parameters, memory of earlier fits and random history", "why_tests_cant": "relational over pairs of inputs and all random draws", "anchors": ["region/p_regions/azp.py:AZPSimulatedAnnealing.fit_from_scipy_sparse_matrix", "region/p_regions/azp_util.py:AllowMoveAZPSimulatedAnnealing.__call__", "region/p_regions/azp.py:AZP._azp_connected_component"]}
{"id": "C111", "title": "AZP gives the same results through a dict, a W and a GeoDataFrame", "statement": "Give AZP the same areas, neighbours, attributes and initial labels through fit_from_dict (any insertion order), fit_from_w (areas in the order of the W) and fit_from_geodataframe (areas in the order of the rows). An assignment of areas to regions is a possible result of one of them exactly if it is a possible result of the others; fit_from_dict lists it in increasing order of the names, the other two in their own order.", "quantifier": "every finite set of named areas, symmetric neighbour relation, attributes, feasible initial labels, exact order-free objective, presentation of the data in each of the three forms, geometry function that reports the neighbours, and random history", "why_tests_cant": "relational over the presentations of the data and all random draws", "anchors": ["region/p_regions/azp.py:AZP.fit_from_dict", "region/p_regions/azp.py:AZP.fit_from_w", "region/p_regions/azp.py:AZP.fit_from_geodataframe", "region/util.py:w_from_gdf", "region/util.py:scipy_sparse_matrix_from_w", "region/util.py:array_from_df_col"]}
{"id": "C112", "title": "AZPSimulatedAnnealing gives the same results through a dict, a W and a GeoDataFrame", "statement": "As C111 for a new AZPSimulatedAnnealing object with any parameters.", "quantifier": "as C111, and every temperature, cooling factor, limit and repetition count", "why_tests_cant": "relational over the presentations of the data and all random draws", "anchors": ["region/p_regions/azp.py:AZPSimulatedAnnealing.fit_from_dict", "region/p_regions/azp.py:AZPSimulatedAnnealing.fit_from_w", "region/p_regions/azp.py:AZPSimulatedAnnealing.fit_from_geodataframe", "region/util.py:w_from_gdf"]}
{"id": "C113", "title": "MaxPRegionsHeu gives the same results through a dict, a W, a GeoDataFrame and a networkx graph", "statement": "Give MaxPRegionsHeu the same areas, neighbours, attributes and spatially extensive attributes through fit_from_dict, fit_from_w, fit_from_geodataframe and fit_from_networkx (nodes inserted in increasing order; attributes by name or as a dict). An assignment of areas to regions is a possible result of one of them exactly if it is a possible result of the others.", "quantifier": "every finite set of named areas, symmetric neighbour relation, attributes, non-negative spatially extensive attributes, threshold, exact order-free objective, presentation of the data and random history", "why_tests_cant": "relational over the presentations of the data and all random draws", "anchors": ["region/max_p_regions/heuristics.py:MaxPRegionsHeu.fit_from_dict", "region/max_p_regions/heuristics.py:MaxPRegionsHeu.fit_from_w", "region/max_p_regions/heuristics.py:MaxPRegionsHeu.fit_from_geodataframe", "region/max_p_regions/heuristics.py:MaxPRegionsHeu.fit_from_networkx"]}
{"id": "C114", "title": "fit_from_geodataframe accepts rook and queen in any capitalisation and keeps rows aligned", "statement": "In every class, fit_from_geodataframe raises ValueError for a contiguity argument that is not a string or not a capitalisation of rook or queen, before anything else is read. Otherwise the algorithm gets the matrix of the W of that contiguity, with an entry exactly where an area lists another as neighbour, and row i of each array holds the asked columns of row i of the frame. fit_from_w hands over the same matrix, and PRegionsExact.fit_from_networkx rows and matrix in the same order if the nodes were inserted in increasing order.", "quantifier": "every frame, column selection, contiguity argument and geometry function", "why_tests_cant": "all strings and all frames", "anchors": ["region/util.py:w_from_gdf", "region/util.py:scipy_sparse_matrix_from_w", "region/p_regions/azp.py:AZP.fit_from_geodataframe", "region/p_regions/exact.py:PRegionsExact.fit_from_geodataframe", "region/p_regions/exact.py:PRegionsExact.fit_from_networkx", "region/max_p_regions/exact.py:MaxPRegionsExact.fit_from_geodataframe", "region/max_p_regions/heuristics.py:MaxPRegionsHeu.fit_from_geodataframe"]}
{"id": "C115", "title": "With initial labels, k1, k2 and the random state of AZPReactiveTabu do not matter", "statement": "A new AZPReactiveTabu object with k1 >= 1, fitted to a connected graph with given initial labels, returns the same labels, or raises the same exception, whatever k1, k2 and the random draws are; only max_iterations, the data and the initial labels matter.", "quantifier": "every connected symmetric graph, exact objective, attributes, feasible start, max_iterations, pairs k1 >= 1, k2 and random histories", "why_tests_cant": "relational over pairs of parameters and all random draws", "anchors": ["region/p_regions/azp.py:AZPReactiveTabu._azp_connected_component", "region/p_regions/azp.py:AZPReactiveTabu.__init__"]}
{"id": "C116", "title": "The numbering of the areas and the names of the regions do not matter to the tabu searches", "statement": "If the areas are listed in another order (adjacency, attributes and initial labels permuted alike) and the regions of the initial labels are renamed one to one, the labels AZPBasicTabu.fit and AZPReactiveTabu.fit return change in exactly that way, and the same exceptions are raised.", "quantifier": "every connected symmetric graph, permutation of its areas, one-to-one renaming, exact objective, feasible start, parameters and random draws", "why_tests_cant": "relational over pairs of inputs and all random draws", "anchors": ["region/p_regions/azp.py:AZPBasicTabu._azp_connected_component", "region/p_regions/azp.py:AZPReactiveTabu._azp_connected_component", "region/p_regions/azp.py:AZPTabu._make_move"]}
{"id": "C117", "title": "AZP.fit terminates in double precision", "statement": "For every valid request and all random draws AZP.fit terminates and returns a feasible labelling when sums and differences are rounded - to double precision, or in any other way that leaves finitely many possible objective values - whatever the rounding errors do to the values that are compared.", "quantifier": "every symmetric graph, attribute array, valid request, finite number format, objective function that answers with such numbers, and random history", "why_tests_cant": "termination over all inputs and rounding behaviours; exact-arithmetic arguments do not apply since tracked and recomputed objective drift apart", "anchors": ["region/p_regions/azp.py:AZP._azp_connected_component", "region/p_regions/azp_util.py:AllowMoveAZP.__call__", "region/objective_function.py:ObjectiveFunctionPairwise.update"]}
{"id": "C118", "title": "On whole numbers double precision makes no difference", "statement": "If all attributes are whole numbers and the Manhattan distances between all pairs of areas add up to at most 2^53, AZP.fit with the default objective in double precision has the same outcome as in exact arithmetic: the same labels, the same random draws left, or the same exception. More generally this holds for every arithmetic that is exact on whole numbers up to the total.", "quantifier": "every symmetric graph, whole-number attribute array, request, enumeration order of label sets, and random history", "why_tests_cant": "relational over two arithmetics, all inputs and all random draws", "anchors": ["region/objective_function.py:ObjectiveFunctionPairwise.__call__", "region/objective_function.py:ObjectiveFunctionPairwise.update", "region/p_regions/azp_util.py:AllowMoveAZP.__call__", "region/p_regions/azp.py:AZP._azp_connected_component"]}
{"id": "C119", "title": "AZP.fit does not raise the objective in double precision", "statement": "The true objective of the labels AZP.fit returns in double precision is not above that of the labels it started from.", "quantifier": "every symmetric graph, attribute array, request and random history", "why_tests_cant": "needs all inputs; the violations need sums in which small terms are absorbed", "anchors": ["region/objective_function.py:ObjectiveFunctionPairwise.update", "region/p_regions/azp_util.py:AllowMoveAZP.__call__"]}
{"id": "C120", "title": "Rounding errors can mislead AZP.fit only a little per move", "statement": "In double precision, with the default objective, AZP.fit gets from its start to its result, on every island, by legal moves none of which multiplies the true objective of the island by more than ((1+u)/(1-u))^N, where u = 2^-53 and N is the number of areas plus the number of attributes plus one, as long as the distances between all pairs of areas can be added up without overflow. A move that is refused would not have divided it by more. The same holds for every arithmetic that rounds with relative error at most u < 1.", "quantifier": "every symmetric graph, attribute array of representable numbers, request, arithmetic with bounded relative error, enumeration order of label sets, and random history", "why_tests_cant": "an error bound over all inputs and executions; tests see single data sets", "anchors": ["region/objective_function.py:ObjectiveFunctionPairwise.update", "region/p_regions/azp_util.py:AllowMoveAZP.__call__", "region/p_regions/azp.py:AZP._azp_connected_component"]}
{"id": "C121", "title": "Rounding can leave a max-p region below the threshold only by a known amount", "statement": "In double precision, MaxPRegionsHeu.fit with AZP as local search returns contiguous regions each of whose totals of every spatially extensive attribute falls short of the threshold by at most ((1+u)^n - 1) times the total over the map, where u = 2^-53 and n is the number of areas. If every island exceeds the thresholds by that much, fit returns; if an island misses one by more, fit raises ValueError. The same holds for every arithmetic that rounds with relative error at most u < 1, with any objective. With AZPBasicTabu or AZPReactiveTabu as local search the bound on the totals and the ValueError are the same, if some threshold exceeds the bound.", "quantifier": "every symmetric graph without loops, every non-negative spatially extensive attribute array of representable numbers whose totals do not overflow, thresholds, objective, arithmetic with bounded relative error, AZP or AZPBasicTabu object with any history of max-p fits, or new AZPReactiveTabu object on a connected map, and random history", "why_tests_cant": "an error bound over all inputs and executions; tests see single data sets", "anchors": ["region/max_p_regions/heuristics.py:MaxPRegionsHeu.fit_from_scipy_sparse_matrix", "region/max_p_regions/heuristics.py:MaxPRegionsHeu.grow_regions", "region/p_regions/azp_util.py:AllowMoveAZPMaxPRegions.__call__"]}
{"id": "C122", "title": "Max-p thresholds hold exactly in double precision", "statement": "In double precision every region returned by MaxPRegionsHeu.fit with AZP, AZPBasicTabu or AZPReactiveTabu as local search reaches the thresholds exactly, and with AZP fit returns if and only if every island reaches them (ValueError otherwise).", "quantifier": "every symmetric graph without loops, non-negative spatially extensive attributes, thresholds, objective and random history", "why_tests_cant": "whether rounding can break the guarantee is a question about all inputs; tests use small whole numbers, where it cannot", "anchors": ["region/max_p_regions/heuristics.py:MaxPRegionsHeu.fit_from_scipy_sparse_matrix", "region/max_p_regions/heuristics.py:MaxPRegionsHeu.grow_regions", "region/p_regions/azp_util.py:AllowMoveAZPMaxPRegions.__call__"]}
{"id": "C123", "title": "The three exact methods agree", "statement": "For non-negative distances and p <= n - 2, PRegionsExact with method order and with method tree gives partitions of equal heterogeneity whenever the solver reaches an optimum. Method flow never gives a lower one; it gives the same one exactly if some best partition consists of regions of at most n - p areas.", "quantifier": "every symmetric graph, distances, p and optimal answers of the solver", "why_tests_cant": "relational over three integer programs and all their optimal answers", "anchors": ["region/p_regions/exact.py:_flow", "region/p_regions/exact.py:_order", "region/p_regions/exact.py:_tree"]}
{"id": "C124", "title": "The heuristics never beat the exact methods", "statement": "No labels returned by AZP, AZPSimulatedAnnealing, AZPBasicTabu or AZPReactiveTabu for p regions have a lower pairwise objective than the labels of PRegionsExact; MaxPRegionsHeu never returns more regions than MaxPRegionsExact, nor a lower heterogeneity with the same number.", "quantifier": "every symmetric graph, attributes, p or threshold, optimal answer of the solver, start and random history", "why_tests_cant": "universal over all random histories of the heuristics and all optimal answers; violated by method flow and with several attributes", "anchors": ["region/p_regions/exact.py:PRegionsExact.fit_from_scipy_sparse_matrix", "region/max_p_regions/exact.py:MaxPRegionsExact.fit_from_scipy_sparse_matrix", "region/p_regions/azp.py:AZP.fit_from_scipy_sparse_matrix", "region/max_p_regions/heuristics.py:MaxPRegionsHeu.fit_from_scipy_sparse_matrix"]}
{"id": "C125", "title": "Asking for less never gives a worse exact answer", "statement": "With more regions (up to n - 2) or with more links between the areas the heterogeneity of the labels of PRegionsExact does not go up, whichever of order and tree is used (and likewise for flow). With lower thresholds or more links MaxPRegionsExact does not give fewer regions, nor a higher heterogeneity with the same number.", "quantifier": "every pair of requests and optimal answers of the solver", "why_tests_cant": "relational over two requests; needs every partition to have a finer one with one region more", "anchors": ["region/p_regions/exact.py:_flow", "region/p_regions/exact.py:_order", "region/p_regions/exact.py:_tree", "region/max_p_regions/exact.py:MaxPRegionsExact.fit_from_scipy_sparse_matrix"]}
{"id": "C126", "title": "The units and origins of the data do not matter", "statement": "Multiply all attributes by the same positive factor and add to each attribute a constant of its own. With the default objective (or any objective, metric and centre that follow such a change) AZP, AZPBasicTabu, AZPReactiveTabu and MaxPRegionsHeu return the same labels for the same random draws, or raise the same exception; in max-p each spatially extensive attribute may be given in another unit together with its threshold. AZPSimulatedAnnealing does so if init_temperature is multiplied by the same factor, not in general if it is kept. Spanning_Forest keeps the same forest, makes the same cuts and gives the same labels, and what is an optimal answer of PRegionsExact or MaxPRegionsExact stays one. Changing the unit of one attribute among several can change the answer.", "quantifier": "every graph, attribute array, factor and origins, initial labels, parameters, object history and random draws", "why_tests_cant": "relational over two runs on all inputs; needs every comparison the algorithms make to be unaffected", "anchors": ["region/p_regions/azp.py:AZP.fit_from_scipy_sparse_matrix", "region/p_regions/azp.py:AZPSimulatedAnnealing.fit_from_scipy_sparse_matrix", "region/p_regions/azp.py:AZPBasicTabu._azp_connected_component", "region/p_regions/azp.py:AZPReactiveTabu._azp_connected_component", "region/max_p_regions/heuristics.py:MaxPRegionsHeu.fit_from_scipy_sparse_matrix", "region/skater/skater.py:Spanning_Forest.fit", "region/p_regions/exact.py:PRegionsExact.fit_from_scipy_sparse_matrix", "region/max_p_regions/exact.py:MaxPRegionsExact.fit_from_scipy_sparse_matrix", "region/objective_function.py:ObjectiveFunctionPairwise.update", "region/p_regions/azp_util.py:AllowMoveAZPSimulatedAnnealing.__call__"]}
{"id": "C127", "title": "A single threshold applies to every spatially extensive attribute", "statement": "In both max-p classes a threshold that is a number means that number for each spatially extensive attribute: MaxPRegionsHeu gives the same labels (or the same exception) as with an array that repeats it, every region reaches it in every attribute, and fit returns exactly if every island does; MaxPRegionsExact solves the same program. The same holds for an array with one entry, and several thresholds for a single attribute must all be reached.", "quantifier": "every symmetric graph without loops, attributes, spatially extensive attributes, threshold, objective and random history; every program", "why_tests_cant": "relational over two ways to pass the threshold; the two classes disagree only on shapes tests do not use", "anchors": ["region/max_p_regions/heuristics.py:MaxPRegionsHeu.grow_regions", "region/p_regions/azp_util.py:AllowMoveAZPMaxPRegions.__call__", "region/max_p_regions/exact.py:MaxPRegionsExact.fit_from_scipy_sparse_matrix"]}
{"id": "C128", "title": "Every island is treated as if it were alone", "statement": "AZP.fit from initial labels can return given labels exactly if, for every island, AZP.fit can return their part on the island when it is called with nothing but that island: its areas, the links among them, their attributes and initial labels. So what can be returned on an island does not depend on other areas, links, attributes or labels.", "quantifier": "every symmetric graph with any number of islands, attributes, exact objective, valid initial labels and result", "why_tests_cant": "relational over maps that share one island, and over all random histories; a leak of data between islands shows only for particular combinations", "anchors": ["region/p_regions/azp.py:AZP.fit_from_scipy_sparse_matrix", "region/p_regions/azp.py:AZP._azp_connected_component", "region/util.py:separate_components"]}
{"id": "C129", "title": "Fitting again from a result returns the result", "statement": "AZP.fit started from labels for which every legal move raises the objective returns these labels, whatever the random state; AZP.fit started from labels that AZP.fit has returned returns them again.", "quantifier": "every symmetric graph, attributes, exact objective, valid request and pair of random histories", "why_tests_cant": "quantifies over all runs of two successive fits; the second fit draws other numbers than the first", "anchors": ["region/p_regions/azp.py:AZP._azp_connected_component", "region/p_regions/azp_util.py:AllowMoveAZP.__call__"]}
{"id": "C130", "title": "Regions are contiguous also if neighbour relations are not mutual", "statement": "If some areas list neighbours that do not list them (as with k nearest neighbours), AZP, AZPBasicTabu and AZPReactiveTabu, given a valid request, still return as many regions as asked for, each contiguous when links are used in either direction, no region spans two islands, and the objective of no island rises above that of the start.", "quantifier": "every neighbour relation, symmetric or not, attributes, exact objective, valid request and random history", "why_tests_cant": "the neighbourhood bookkeeping goes wrong only for particular sequences of moves; tests use symmetric weights", "anchors": ["region/p_regions/azp.py:AZP._azp_connected_component", "region/p_regions/azp.py:AZPTabu._make_move", "region/p_regions/azp.py:AZPBasicTabu._azp_connected_component", "region/p_regions/azp.py:AZPReactiveTabu._azp_connected_component"]}
{"id": "C131", "title": "AZPSimulatedAnnealing.fit terminates in double precision", "statement": "With a finite max_iterations, AZPSimulatedAnnealing.fit returns on every valid request although the objective is summed up with rounding errors, whatever math.exp and the cooling round to, and its result is a contiguous partition with the requested number of regions.", "quantifier": "every symmetric graph, attributes, request, parameters, way of rounding and random history", "why_tests_cant": "whether rounding errors keep a search going for ever depends on rare combinations of values; a test cannot show that a loop always ends", "anchors": ["region/p_regions/azp.py:AZPSimulatedAnnealing.fit_from_scipy_sparse_matrix", "region/p_regions/azp_util.py:AllowMoveAZPSimulatedAnnealing.__call__", "region/p_regions/azp.py:AZP._azp_connected_component"]}
{"id": "C132", "title": "On whole-number data rounding changes no decision of any heuristic", "statement": "If the attributes are whole numbers whose distances (and, for MaxPRegionsHeu, totals) add up to at most 2^53, AZPBasicTabu, AZPReactiveTabu, AZPSimulatedAnnealing and MaxPRegionsHeu return in double precision the labels, draws and exceptions that exact arithmetic gives (for annealing: with the same acceptance probabilities and cooling).", "quantifier": "every symmetric graph, whole-number attributes, request, parameters and random history", "why_tests_cant": "compares two arithmetics on all histories", "anchors": ["region/p_regions/azp.py:AZPBasicTabu._azp_connected_component", "region/p_regions/azp.py:AZPReactiveTabu._azp_connected_component", "region/p_regions/azp.py:AZPSimulatedAnnealing.fit_from_scipy_sparse_matrix", "region/max_p_regions/heuristics.py:MaxPRegionsHeu.fit_from_scipy_sparse_matrix"]}
{"id": "C133", "title": "Islands are independent with any objective and neighbour relation, also for AZPBasicTabu", "statement": "AZPBasicTabu.fit and AZP.fit from initial labels can return given labels exactly if, for every island, they can return their part on the island when called with nothing but that island - also if neighbour relations are not mutual and whatever the objective function computes. What a call has returned on an island, any other call that agrees with it there can return there too, together with whatever that call returns elsewhere.", "quantifier": "every neighbour relation with any number of islands, attributes, objective function, valid initial labels, tabu length, repetition count and result", "why_tests_cant": "relational over maps that share one island, and over all random histories; tabu lists and visited solutions could leak from one island to the next", "anchors": ["region/p_regions/azp.py:AZPBasicTabu._azp_connected_component", "region/p_regions/azp.py:AZP._azp_connected_component", "region/p_regions/azp.py:AZP.fit_from_scipy_sparse_matrix"]}
{"id": "C134", "title": "The exact methods are exact island by island", "statement": "On every island the regions found by PRegionsExact with order or tree have the lowest heterogeneity among all partitions of the island into as many contiguous regions; solving the island on its own for that number gives the same heterogeneity, and no other way of dividing the number of regions among the islands gives a lower sum. With flow the same holds among regions of at most n - p areas. MaxPRegionsExact gives on every island the largest possible number of regions and then the lowest heterogeneity, and number and heterogeneity for the whole map are the sums of those for the islands solved one by one.", "quantifier": "every symmetric graph with any number of islands, attributes, p or threshold and optimal answers of the solver", "why_tests_cant": "relational over the integer programs of the map and of each island, and over all partitions", "anchors": ["region/p_regions/exact.py:_order", "region/p_regions/exact.py:_tree", "region/p_regions/exact.py:_flow", "region/max_p_regions/exact.py:MaxPRegionsExact.fit_from_scipy_sparse_matrix"]}
{"id": "C135", "title": "Initial labels with a wrong number of entries are rejected", "statement": "If initial_labels has not exactly one entry per area, fit of AZP (any strategy), AZPSimulatedAnnealing, AZPBasicTabu and AZPReactiveTabu raises ValueError or IndexError, whatever the labels, the data, earlier fits and the random draws, and so do assert_feasible and boolean_assert_feasible on such labels.", "quantifier": "every adjacency matrix, every label array of another length, every n_regions, strategy, objective, object history and random history", "why_tests_cant": "all wrong arrays of all lengths on all graphs", "anchors": ["region/p_regions/azp.py:AZP.fit_from_scipy_sparse_matrix", "region/p_regions/azp.py:AZPSimulatedAnnealing.fit_from_scipy_sparse_matrix", "region/util.py:assert_feasible", "region/util.py:boolean_assert_feasible", "region/util.py:separate_components"]}
{"id": "C136", "title": "The numbering of the areas does not matter to Spanning_Forest", "statement": "Numbering the areas differently gives the same regions, the same sequence of intermediate maps with the same scores and the same warning; an island below the quorum is reported for both numberings or for neither.", "quantifier": "every symmetric W, data, numbering, quorum, number of clusters, islands option and order of ties in the spanning-tree routine", "why_tests_cant": "all renumberings of all maps", "anchors": ["region/skater/skater.py:Spanning_Forest.fit", "region/skater/skater.py:Spanning_Forest.find_cut"]}
{"id": "C137", "title": "The exact methods give equally good partitions through every interface", "statement": "Give the same named areas, neighbours and attributes to PRegionsExact as a dict, a W, a GeoDataFrame or a networkx graph (nodes in increasing order): if the solver solves the program built from them to optimality, the labels come back in the order of the areas of that interface and divide the named areas into p contiguous regions of least heterogeneity, so any two interfaces (and the methods order and tree, and any two solvers) give partitions of equal heterogeneity, and the same regions if only one partition is best. MaxPRegionsExact likewise gives the largest possible number of regions and among these the least heterogeneity.", "quantifier": "all sets of named areas with mutual neighbours, attributes, orders of the areas in the interface, methods, solvers and optimal answers", "why_tests_cant": "all orders of the areas and all optimal solutions of the programs", "anchors": ["region/p_regions/exact.py:PRegionsExact.fit_from_dict", "region/p_regions/exact.py:PRegionsExact.fit_from_w", "region/p_regions/exact.py:PRegionsExact.fit_from_geodataframe", "region/p_regions/exact.py:PRegionsExact.fit_from_networkx", "region/max_p_regions/exact.py:MaxPRegionsExact.fit_from_dict", "region/max_p_regions/exact.py:MaxPRegionsExact.fit_from_w", "region/max_p_regions/exact.py:MaxPRegionsExact.fit_from_geodataframe", "region/max_p_regions/exact.py:MaxPRegionsExact.fit_from_networkx"]}
{"id": "C138", "title": "AZPSimulatedAnnealing does not return labels worse than the initial ones", "statement": "The labels AZPSimulatedAnnealing.fit returns for given initial labels have, on every island, an objective not above that of the initial labels.", "quantifier": "every symmetric graph, exact objective, attributes, feasible initial labels, temperature, parameters, memory of earlier fits and random history", "why_tests_cant": "all random draws; a worse result needs a worsening move accepted late", "anchors": ["region/p_regions/azp.py:AZPSimulatedAnnealing.fit_from_scipy_sparse_matrix", "region/p_regions/azp_util.py:AllowMoveAZPSimulatedAnnealing.__call__"]}
{"id": "C139", "title": "More construction rounds never give fewer regions in MaxPRegionsHeu", "statement": "With the same random draws a fit of MaxPRegionsHeu that makes more construction rounds returns at least as many regions, and the number of regions does not depend on the local search object, the objective or the object's history: it is a function of the draws, the number of rounds, the metric and the data.", "quantifier": "every symmetric graph, data, thresholds with a positive component, random history, pair of local searches (AZP with any strategy and history, annealing, basic tabu, new reactive tabu on a connected map) and pair of round counts", "why_tests_cant": "relational over two runs with different objects and parameters, all random draws", "anchors": ["region/max_p_regions/heuristics.py:MaxPRegionsHeu.fit_from_scipy_sparse_matrix", "region/max_p_regions/heuristics.py:grow_regions"]}
{"id": "C140", "title": "MaxPRegionsHeu with AZPBasicTabu as local search", "statement": "When fit returns, the regions are contiguous, each meets the threshold, and they are as many as in the best constructed partition, whatever the objective, the strategy inside and the tabu length; with the pairwise objective the heterogeneity is at most that of every completed partition, and an exception is raised exactly when some island does not reach the threshold (a ValueError).", "quantifier": "every symmetric graph, data, thresholds with a positive component, tabu length, number of repetitions, object history and random history", "why_tests_cant": "all sequences of tabu and aspiration moves under the threshold wrapper", "anchors": ["region/max_p_regions/heuristics.py:MaxPRegionsHeu.fit_from_scipy_sparse_matrix", "region/p_regions/azp.py:AZPBasicTabu._azp_connected_component", "region/p_regions/azp_util.py:AllowMoveAZPMaxPRegions.__call__"]}
{"id": "C141", "title": "MaxPRegionsHeu with AZPReactiveTabu as local search", "statement": "When fit returns, the regions are contiguous, each meets the threshold, and they are as many as in the best constructed partition.", "quantifier": "every symmetric graph, data, thresholds with a positive component, parameters and random history", "why_tests_cant": "all sequences of tabu and random moves under the threshold wrapper, with solutions remembered across islands and partitions", "anchors": ["region/max_p_regions/heuristics.py:MaxPRegionsHeu.fit_from_scipy_sparse_matrix", "region/p_regions/azp.py:AZPReactiveTabu._azp_connected_component"]}
{"id": "C142", "title": "MaxPRegionsHeu with AZPBasicTabu as local search returns", "statement": "If every island reaches the threshold, fit returns.", "quantifier": "every symmetric graph, data, thresholds, tabu length, number of repetitions and random history", "why_tests_cant": "non-termination cannot be observed by a test", "anchors": ["region/max_p_regions/heuristics.py:MaxPRegionsHeu.fit_from_scipy_sparse_matrix", "region/p_regions/azp.py:AZPBasicTabu._azp_connected_component"]}
{"id": "C143", "title": "The tabu classes give the same results through a dict, a W and a GeoDataFrame", "statement": "With initial labels and the same random draws AZPBasicTabu gives every area the same label, or raises the same exception, through fit_from_dict, fit_from_w and fit_from_geodataframe, however each of them orders the areas; AZPReactiveTabu (k1 >= 1, new object) also with different draws, k1 and k2.", "quantifier": "every set of named areas with mutual neighbours, attributes and initial labels, every dict, W and frame that describe them, every object and random history", "why_tests_cant": "the interfaces number the areas differently; a test compares one order of one data set, and cannot tell when a tie decides", "anchors": ["region/p_regions/azp.py:AZP.fit_from_dict", "region/p_regions/azp.py:AZP.fit_from_w", "region/p_regions/azp.py:AZP.fit_from_geodataframe", "region/p_regions/azp.py:AZPBasicTabu._azp_connected_component", "region/p_regions/azp.py:AZPReactiveTabu._azp_connected_component"]}
{"id": "C144", "title": "random_state of the tabu classes", "statement": "A tabu object constructed with a random_state shows the same labels, or exception, in every process, whatever is constructed and fitted between its construction and its first fit.", "quantifier": "every process state, every interleaving of constructions and fits of AZP, annealing, tabu and max-p objects, every graph, data and seed", "why_tests_cant": "a test runs one interleaving; the generator is process-wide, and the outcome depends on the whole history", "anchors": ["region/p_regions/azp.py:AZP.__init__", "region/p_regions/azp.py:AZPBasicTabu.__init__", "region/p_regions/azp.py:AZPReactiveTabu.__init__", "region/max_p_regions/heuristics.py:MaxPRegionsHeu.__init__"]}
{"id": "C145", "title": "Missing attribute values: AZP", "statement": "With a metric of sklearn and a NaN (or infinite) attribute value in some areas, AZP.fit raises ValueError, or returns labels in which every such area is a region of its own (and was one in the initial labels), and these are the labels it would have returned with any other values in place of the missing ones.", "quantifier": "every graph, attributes with any pattern of missing values, every fill-in, every valid request, strategy object and draw sequence", "why_tests_cant": "a test has one pattern of missing values and one run; whether a missing value is ever compared depends on the whole search, and no finite set of fill-ins shows that the result does not depend on them", "anchors": ["region/objective_function.py:ObjectiveFunctionPairwise.__call__", "region/objective_function.py:ObjectiveFunctionPairwise.update", "region/p_regions/azp.py:AZP.fit_from_scipy_sparse_matrix"]}
{"id": "C146", "title": "Missing attribute values: annealing and tabu search", "statement": "The same for AZPSimulatedAnnealing, AZPBasicTabu and AZPReactiveTabu: ValueError, or exactly the outcome with any values in place of the missing ones, with the areas in question in regions of their own.", "quantifier": "every graph, pattern of missing values, fill-in, request, object history, parameters and draw sequence (kept apart: for AZPReactiveTabu a new object and a connected map)", "why_tests_cant": "the searches pass through states no test enumerates; a single comparison with a missing value in a random walk would make the result depend on it", "anchors": ["region/p_regions/azp.py:AZPSimulatedAnnealing.fit_from_scipy_sparse_matrix", "region/p_regions/azp.py:AZPBasicTabu._azp_connected_component", "region/p_regions/azp.py:AZPReactiveTabu._azp_connected_component"]}
{"id": "C147", "title": "Missing attribute values: ObjectiveFunctionCenter", "statement": "With ObjectiveFunctionCenter and a metric of sklearn a missing value anywhere is never passed over: no class returns labels, and AZP and AZPSimulatedAnnealing answer every valid request with ValueError.", "quantifier": "every graph, centre function, pattern with at least one missing value, valid request and draw sequence", "why_tests_cant": "that no combination of request, graph and draws gets past the check is a universal claim", "anchors": ["region/objective_function.py:ObjectiveFunctionCenter.__call__", "region/objective_function.py:ObjectiveFunctionCenter.update", "region/p_regions/azp.py:AZP.fit_from_scipy_sparse_matrix"]}
{"id": "C148", "title": "Missing amounts in the max-p heuristic", "statement": "When some spatially extensive amounts are missing (NaN), MaxPRegionsHeu treats a missing amount as one that reaches the threshold: the regions are grown with exactly the choices and draws they would have with any ample amounts in the place of the missing ones, so fit returns if every island holds, per component, a missing amount or a total that reaches the threshold and raises ValueError otherwise; the result is contiguous, has the largest number of regions constructed, is no worse than any completed partition, every region without a missing amount reaches the threshold, and areas with a missing amount stay where the construction put them. With nothing missing the labels, exceptions and draws are those of the fit with plain amounts. The known amounts of every region reach the threshold (this last expectation is false of the code).", "quantifier": "every symmetric graph, attribute table, pattern of missing amounts, non-negative known amounts, threshold, number of iterations, draw sequence and AZP strategy object or annealing local search; validity and ValueError also with basic and reactive tabu (reactive: new object, connected graph) and a positive threshold", "why_tests_cant": "comparisons with NaN are silently False; which of the two comparison directions is used at each of the five places decides the outcome for every pattern of missing amounts", "anchors": ["region/max_p_regions/heuristics.py:grow_regions", "region/max_p_regions/heuristics.py:assign_enclaves", "region/max_p_regions/heuristics.py:MaxPRegionsHeu.fit_from_scipy_sparse_matrix", "region/p_regions/azp_util.py:AllowMoveAZPMaxPRegions.__call__"]}
{"id": "C149", "title": "Entries on the diagonal of the adjacency matrix", "statement": "Whether areas are listed as neighbours of themselves makes no difference: two symmetric adjacency matrices with the same links between different areas give, with the same random draws, the same labels, exception and remaining draws in AZP (any strategy object), AZPSimulatedAnnealing, AZPBasicTabu and AZPReactiveTabu, and MaxPRegionsHeu returns with the one if it returns with the other. (The last part is false of the code: growing a region can fail with ValueError because of such an entry. What MaxPRegionsHeu returns in spite of such entries it also returns, for suitable draws, without them.)", "quantifier": "every symmetric adjacency matrix with any entries on the diagonal, attributes, objective, initial labels or generated start (for an order of the links that does not depend on the diagonal), strategy object, parameters, object history and random history", "why_tests_cant": "relational over two matrices and all executions; the bookkeeping of neighbours would have to be followed through every sequence of moves", "anchors": ["region/p_regions/azp.py:AZP._azp_connected_component", "region/p_regions/azp.py:AZPBasicTabu._azp_connected_component", "region/p_regions/azp.py:AZPReactiveTabu._azp_connected_component", "region/max_p_regions/heuristics.py:MaxPRegionsHeu.grow_regions"]}
{"id": "C150", "title": "The possible results of AZPBasicTabu.fit, exactly", "statement": "From initial labels AZPBasicTabu.fit can return given labels exactly if on every island a tabu search leads to them: as long as the best legal move that takes back none of the last tabu_length attempts does not raise the objective it is made (ties: smallest area, then first neighbour); otherwise some tabu move that lowers the objective is tried, if there is one, and then the best move once more; the search ends when some labels have been met more than repetitions_before_termination times and no ordinary move was made. Attempts that would leave a region not contiguous are undone but remembered.", "quantifier": "every symmetric graph with any number of islands, attributes, exact objective, valid initial labels, tabu length (also none), number of repetitions and result", "why_tests_cant": "equivalence of sets of outcomes over all random histories and searches of any length; that a move is tabu, or is allowed again, shows only after particular sequences of moves", "anchors": ["region/p_regions/azp.py:AZPBasicTabu._azp_connected_component", "region/p_regions/azp.py:AZPTabu._make_move", "region/p_regions/azp.py:AZPTabu.reset_tabu"]}
{"id": "C151", "title": "The possible results and exceptions of AZPReactiveTabu.fit, exactly, also for an object that has been used before", "statement": "From initial labels AZPReactiveTabu.fit of an object with any memory can return given labels exactly if the islands, in the order of their first areas, can be searched one after the other, each search taking over the memory of the one before: in each round the best legal move that does not take back the last attempt is tried (not made if it raises the objective); unless the labels have been met more than k1 times they are remembered and the next round begins if the objective became lower; otherwise, if the way back to them was gone at least k2 times before, the memory is emptied and some other move is tried, else TypeError; the labels returned are those before a restart in the last round, otherwise the last but one in the memory. On a connected map the possible exceptions are characterised in the same way: AttributeError without a legal move, TypeError, ValueError if no other move is left for the restart or if the labels found in the memory belong to a map of another size.", "quantifier": "every symmetric graph, attributes, exact objective, valid initial labels, max_iterations, k1, k2, memory left by earlier fits, result; exceptions: every connected graph", "why_tests_cant": "equivalence of sets of outcomes over all random histories, and over all histories of the object; restarts need labels that were remembered in an earlier fit or on an earlier island", "anchors": ["region/p_regions/azp.py:AZPReactiveTabu._azp_connected_component", "region/p_regions/azp.py:AZPReactiveTabu.__init__", "region/p_regions/azp.py:AZPTabu._make_move"]}
{"id": "C152", "title": "MaxPRegionsHeu with spatially extensive attributes stored in a narrow integer type", "statement": "If the spatially extensive amounts are a column of non-negative numbers in an integer type of fixed width (for instance a population in 16 or 32 bits), then whatever overflows silently, every region of a result of MaxPRegionsHeu.fit truly reaches the thresholds; if the totals over the map fit the type, fit does exactly the same as without overflow; with one attribute whose threshold plus largest amount still fits, the number of regions is the one without overflow. And fit returns whenever every island reaches the thresholds.", "quantifier": "every symmetric graph without self-links, non-negative whole amounts, thresholds, width with or without sign, objective, arithmetic of the attributes, max_iterations, local search object (AZP; also AZPBasicTabu, and AZPReactiveTabu: new on a connected map where it is about the regions of a result; both with a positive threshold there) and random history", "why_tests_cant": "overflow depends on which areas happen to meet in a growing region; tests use small numbers in 64 bits", "anchors": ["region/max_p_regions/heuristics.py:MaxPRegionsHeu.grow_regions", "region/p_regions/azp_util.py:AllowMoveAZPMaxPRegions.__call__", "region/max_p_regions/heuristics.py:MaxPRegionsHeu.fit_from_geodataframe"]}
{"id": "C153", "title": "Missing attribute values: the max-p heuristic", "statement": "With a metric of sklearn and a NaN (or infinite) attribute value in some areas, MaxPRegionsHeu.fit raises ValueError, or returns labels in which every such area is a region of its own, and these are the labels it would have returned with any other values in place of the missing ones. With AZP as local search it therefore raises ValueError whenever one of these areas does not reach the threshold by itself; otherwise the draws may decide. With ObjectiveFunctionCenter a missing value anywhere gives ValueError. With nothing missing the checks change nothing.", "quantifier": "every symmetric graph, attributes with any pattern of missing values, every fill-in, amounts, threshold, local search (AZP with any strategy object, annealing, basic and reactive tabu), number of iterations and random history", "why_tests_cant": "whether a missing value is ever compared depends on the draws of the construction and on the whole local search; no finite set of fill-ins shows that the result does not depend on them", "anchors": ["region/max_p_regions/heuristics.py:MaxPRegionsHeu.find_best_area", "region/max_p_regions/heuristics.py:MaxPRegionsHeu.find_best_region_idx", "region/max_p_regions/heuristics.py:MaxPRegionsHeu.fit_from_scipy_sparse_matrix", "region/objective_function.py:ObjectiveFunctionPairwise.__call__"]}
{"id": "C154", "title": "Thresholds that are NaN or infinite in MaxPRegionsHeu", "statement": "A threshold of minus infinity is no threshold: fit does exactly what it does with zero in its place. With a threshold of plus infinity fit raises ValueError. With NaN beside numbers fit returns exactly when every island reaches the numbers and raises ValueError otherwise; the regions are contiguous, reach the numbers, and are as many as without the NaN for the same draws; their heterogeneity is at most that of every completed partition; without any number every area is a region. With AZPSimulatedAnnealing as local search a NaN, too, is no threshold. With AZP, however, it is not ignored: the local search then never moves an area that has any amount, so that the labels are those of the construction alone (the expectation that a NaN is ignored is false of the code).", "quantifier": "every symmetric graph without self-links, non-negative amounts, list of thresholds with any pattern of NaN and infinities, attributes, objective, max_iterations, any AZP object, also one wrapped by an earlier max-p fit (minus infinity as zero: not yet wrapped; also annealing; validity, plus infinity and unreachable numbers also with the tabu classes) and random history", "why_tests_cant": "a comparison with NaN is silently False in both directions, and the construction and the local search use different directions; that this changes neither the number of regions nor the failures but all moves is a claim over all draws", "anchors": ["region/max_p_regions/heuristics.py:MaxPRegionsHeu.grow_regions", "region/p_regions/azp_util.py:AllowMoveAZPMaxPRegions.__call__", "region/max_p_regions/heuristics.py:MaxPRegionsHeu.fit_from_scipy_sparse_matrix"]}
{"id": "C155", "title": "Rounding errors can mislead the tabu searches only a little per move", "statement": "In double precision, with the default objective, a result of AZPBasicTabu.fit, and of a new AZPReactiveTabu on a connected map, consists of contiguous regions with names of the start, and is reached from the start, on every island, by moving one area at a time to a region of its island, none of the moves multiplying the true objective of the island by more than ((1+u)/(1-u))^N, where u = 2^-53 and N is the number of areas plus the number of attributes plus one, as long as the distances between all pairs of areas can be added up without overflow. A result of AZPBasicTabu.fit moreover has exactly the regions of the start, n_regions of them: rounding never empties a region. So has a result of a new AZPReactiveTabu with k1 >= 1 on a connected map, whatever the objective function computes. The same holds for every arithmetic that rounds with relative error at most u < 1.", "quantifier": "every graph, attribute array of representable numbers, request, tabu list, repetitions, max_iterations, k1, k2, arithmetic with bounded relative error, enumeration order of label sets, and random history", "why_tests_cant": "an error bound over all inputs and executions; tests see single data sets", "anchors": ["region/objective_function.py:ObjectiveFunctionPairwise.update", "region/p_regions/azp_util.py:AllowMoveAZP.__call__", "region/p_regions/azp.py:AZPBasicTabu._azp_connected_component", "region/p_regions/azp.py:AZPReactiveTabu._azp_connected_component"]}
