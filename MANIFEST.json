{
 "claims": [
  {
   "property": "C01",
   "status": "proved",
   "theorems": [
    "C01_is_connected"
   ],
   "note": ""
  },
  {
   "property": "C02",
   "status": "proved",
   "theorems": [
    "C02_neighbors",
    "C02_sub_adj_entries",
    "C02_sub_adj_connected"
   ],
   "note": ""
  },
  {
   "property": "C03",
   "status": "proved",
   "theorems": [
    "C03_assert_feasible",
    "C03_boolean_assert_feasible"
   ],
   "note": "labels have at most one entry per area (more: C135)"
  },
  {
   "property": "C04",
   "status": "proved",
   "theorems": [
    "C04_separate_components"
   ],
   "note": ""
  },
  {
   "property": "C05",
   "status": "proved",
   "theorems": [
    "C05_distribute_regions"
   ],
   "note": ""
  },
  {
   "property": "C06",
   "status": "proved",
   "theorems": [
    "C06_randomly_divide"
   ],
   "note": "the spanning tree is Kruskal's over any ordering of the stored entries"
  },
  {
   "property": "C07",
   "status": "proved",
   "theorems": [
    "C07_generate_initial_sol"
   ],
   "note": ""
  },
  {
   "property": "C08",
   "status": "partial",
   "theorems": [
    "C08_single_region_refuted",
    "C08_single_region_partial"
   ],
   "note": "The stated claim is false of the code: n_regions=1 without initial labels raises TypeError on every input. Passing the single region as initial labels works."
  },
  {
   "property": "C09",
   "status": "proved",
   "theorems": [
    "C09_pairwise_update"
   ],
   "note": "metric symmetric and zero on equal rows"
  },
  {
   "property": "C10",
   "status": "proved",
   "theorems": [
    "C10_pairwise_partition"
   ],
   "note": ""
  },
  {
   "property": "C100",
   "status": "proved",
   "theorems": [
    "C100_azp_rounds",
    "C100_azp_outcomes"
   ],
   "note": ""
  },
  {
   "property": "C101",
   "status": "proved",
   "theorems": [
    "C101_numbers_and_names"
   ],
   "note": "the two objectives named are covered by pairwise_nameless and mean_nameless"
  },
  {
   "property": "C102",
   "status": "proved",
   "theorems": [
    "C102_distributions",
    "C102_random_starts",
    "C102_starts_feasible",
    "C102_tree_every_start",
    "C102_not_every_start"
   ],
   "note": "scipy's unstable sort inside minimum_spanning_tree is an arbitrary permutation fixed for the graph; the forest depends on it"
  },
  {
   "property": "C103",
   "status": "proved",
   "theorems": [
    "C103_azp_from_random_start"
   ],
   "note": "forest as in C102"
  },
  {
   "property": "C104",
   "status": "proved",
   "theorems": [
    "C104_azp",
    "C104_basic_tabu",
    "C104_reactive_tabu"
   ],
   "note": "forest as in C102; a fit that does not end counts as a possible answer too"
  },
  {
   "property": "C105",
   "status": "proved",
   "theorems": [
    "C105_skater_exact"
   ],
   "note": "scipy's minimum_spanning_tree is Kruskal's rule on the entries sorted by value, ties in any order; affinity= (C69) excluded; scores as returned by the score method (see C70)"
  },
  {
   "property": "C106",
   "status": "proved",
   "theorems": [
    "C106_uncut_forest",
    "C106_no_ties_determined"
   ],
   "note": "sorting as in C105"
  },
  {
   "property": "C107",
   "status": "proved",
   "theorems": [
    "C107_maxp_sound",
    "C107_maxp_complete",
    "C107_maxp_outcomes"
   ],
   "note": ""
  },
  {
   "property": "C108",
   "status": "proved",
   "theorems": [
    "C108_maxp_numbers"
   ],
   "note": "local search object as in C107"
  },
  {
   "property": "C109",
   "status": "proved",
   "theorems": [
    "C109_annealing_sound",
    "C109_annealing_outcomes"
   ],
   "note": "the exponential function is any function on the rationals that respects equality; random.random() is a multiple of 2^-53 in [0,1); the forest is that of C102"
  },
  {
   "property": "C11",
   "status": "proved",
   "theorems": [
    "C11_center_update",
    "C11_last_area_raises"
   ],
   "note": ""
  },
  {
   "property": "C110",
   "status": "proved",
   "theorems": [
    "C110_annealing_numbers_and_names"
   ],
   "note": "through C109; assumptions as there"
  },
  {
   "property": "C111",
   "status": "proved",
   "theorems": [
    "C111_azp_interfaces"
   ],
   "note": "through C101; what libpysal computes from the geometries is an arbitrary function, assumed to report the neighbours with the areas in the order of the rows; without initial labels the comparison is not covered"
  },
  {
   "property": "C112",
   "status": "proved",
   "theorems": [
    "C112_sa_interfaces"
   ],
   "note": "through C110; as C111"
  },
  {
   "property": "C113",
   "status": "proved",
   "theorems": [
    "C113_maxp_interfaces"
   ],
   "note": "through C108; as C111; nodes inserted in another order are misread (C59)"
  },
  {
   "property": "C114",
   "status": "proved",
   "theorems": [
    "C114_contiguity",
    "C114_aligned",
    "C114_pexact_networkx"
   ],
   "note": "str.lower on ASCII characters; distinct column names"
  },
  {
   "property": "C115",
   "status": "proved",
   "theorems": [
    "C115_reactive_parameters"
   ],
   "note": "with k1 = 0 the search behaves differently (C32)"
  },
  {
   "property": "C116",
   "status": "partial",
   "theorems": [
    "C116_basic_tabu_partial",
    "C116_reactive_tabu_partial",
    "C116_basic_tabu_refuted",
    "C116_reactive_tabu_refuted"
   ],
   "note": "False of the code when two moves are equally good: the area with the smaller number wins (witness for each class, for all random draws). Proved, on connected graphs, when no two legal moves from contiguous regions lead to the same objective value; AZPBasicTabu with the same random draws, AZPReactiveTabu with k1 >= 1 and any draws. The pairwise and the centre objectives meet the condition on failures (pairwise_failures, centered_failures)."
  },
  {
   "property": "C117",
   "status": "proved",
   "theorems": [
    "C117_rounded_azp_terminates",
    "C117_float64"
   ],
   "note": "double precision as in M_Float.v: 53 bits, round half to even, gradual underflow; overflow gives the largest number instead of infinity; no NaN"
  },
  {
   "property": "C118",
   "status": "proved",
   "theorems": [
    "C118_whole_numbers",
    "C118_float64"
   ],
   "note": "default (Manhattan) pairwise objective; double precision as in C117"
  },
  {
   "property": "C119",
   "status": "partial",
   "theorems": [
    "C119_float64_monotone_partial",
    "C119_float64_monotone_refuted"
   ],
   "note": "False of the code in general: with values 2^53 and 1 on a row of eight areas a move that raises the objective by 1 is taken for a gain of 2. Proved for whole-number attributes whose distances add up to at most 2^53."
  },
  {
   "property": "C12",
   "status": "partial",
   "theorems": [
    "C12_center_max_refuted",
    "C12_center_any_reduction_partial"
   ],
   "note": "The stated claim is false of the code: refuted for reduction=max; for an arbitrary reduction the call reports the change of the reduction over the two regions involved and restores the labels."
  },
  {
   "property": "C120",
   "status": "proved",
   "theorems": [
    "C120_one_decision",
    "C120_small_steps",
    "C120_float64"
   ],
   "note": "default (Manhattan) pairwise objective; double precision as in C117, without overflow. The bound is per move; no bound on the number of such moves is shown beyond termination (C117)."
  },
  {
   "property": "C121",
   "status": "proved",
   "theorems": [
    "C121_rounded_thresholds",
    "C121_rounded_attainable",
    "C121_float64",
    "C121_basic_thresholds",
    "C121_reactive_thresholds",
    "C121_tabu_unmet"
   ],
   "note": "double precision as in C117, without overflow; default metric in the construction phase; threshold given with one value per attribute"
  },
  {
   "property": "C122",
   "status": "partial",
   "theorems": [
    "C122_exact_thresholds_partial",
    "C122_float64_partial",
    "C122_exact_thresholds_refuted",
    "C122_basic_partial",
    "C122_reactive_partial",
    "C122_basic_refuted"
   ],
   "note": "False of the code in general: with 2^53 and 3/2 in a region, 2^53 + 3/2 is rounded up to 2^53 + 2, the first area is allowed to leave, and a region with total 3/2 is returned for the threshold 2. Proved for whole-number spatially extensive attributes with totals up to 2^53, whatever the attributes and the objective."
  },
  {
   "property": "C123",
   "status": "proved",
   "theorems": [
    "C123_methods_agree"
   ],
   "note": "the solver is trusted to find an optimum of the program it is given and to report its values; p + 2 <= n as in C50 and C52"
  },
  {
   "property": "C124",
   "status": "partial",
   "theorems": [
    "C124_azp_bound_partial",
    "C124_annealing_bound_partial",
    "C124_basic_tabu_bound_partial",
    "C124_reactive_tabu_bound_partial",
    "C124_maxp_bound",
    "C124_flow_bound_refuted",
    "C124_several_attributes_refuted"
   ],
   "note": "False of the code in general: AZP finds a better partition than the optimum of method flow on the path 0, 0, 0, 9, and one better than the optimum of method order with two attributes. Proved for methods order and tree with one attribute and a non-negative metric, and for max-p without restriction."
  },
  {
   "property": "C125",
   "status": "proved",
   "theorems": [
    "C125_more_regions",
    "C125_more_links",
    "C125_maxp_monotone"
   ],
   "note": ""
  },
  {
   "property": "C126",
   "status": "proved",
   "theorems": [
    "C126_pairwise_scaled",
    "C126_centered_scaled",
    "C126_defaults_scaled",
    "C126_azp",
    "C126_annealing",
    "C126_basic_tabu",
    "C126_reactive_tabu",
    "C126_maxp",
    "C126_maxp_annealing",
    "C126_skater",
    "C126_pregions",
    "C126_maxp_exact",
    "C126_same_temperature_refuted",
    "C126_one_attribute_refuted"
   ],
   "note": "in exact arithmetic; the order in which the spanning-tree routine takes the links is the same for both inputs; the last two theorems are the two negative sentences of the statement"
  },
  {
   "property": "C127",
   "status": "partial",
   "theorems": [
    "C127_one_number",
    "C127_several_numbers",
    "C127_one_number_met",
    "C127_several_numbers_met",
    "C127_one_number_fails_iff",
    "C127_exact_one_number",
    "C127_exact_one_entry_refuted",
    "C127_exact_surplus_refuted"
   ],
   "note": "Proved for MaxPRegionsHeu in all forms and for MaxPRegionsExact with a number. False of MaxPRegionsExact otherwise: an array with one entry raises IndexError if there are several attributes, and of several thresholds for one attribute only the first is enforced."
  },
  {
   "property": "C128",
   "status": "proved",
   "theorems": [
    "C128_islands_alone",
    "C128_elsewhere"
   ],
   "note": "alone g isl: the island with renumbered areas; C128_elsewhere for objectives that do not use region names"
  },
  {
   "property": "C129",
   "status": "partial",
   "theorems": [
    "C129_settled",
    "C129_refit_partial",
    "C129_refit_refuted"
   ],
   "note": "Labels that every legal move makes worse are returned. The result of a fit is returned again if no legal move leaves the objective unchanged. Refuted in general: AZP stops when a round has not lowered the objective, although it may have made moves that keep it; fitting from that result can find strictly better labels (see C22)."
  },
  {
   "property": "C13",
   "status": "proved",
   "theorems": [
    "C13_metric",
    "C13_solver_and_method",
    "C13_contiguity"
   ],
   "note": ""
  },
  {
   "property": "C130",
   "status": "partial",
   "theorems": [
    "C130_azp_partial",
    "C130_azp_refuted",
    "C130_basic_tabu",
    "C130_reactive_tabu",
    "C28_basic_tabu_no_worse",
    "C30_reactive_feasible_no_worse"
   ],
   "note": "AZP: everything but contiguity; contiguity refuted on four areas (an area is still remembered as a neighbour of a region whose last area that listed it has left). The tabu searches keep contiguity; AZPReactiveTabu on one island, with exact objectives (the theorems C27-C32 and C65 no longer assume mutual neighbours)."
  },
  {
   "property": "C131",
   "status": "proved",
   "theorems": [
    "C131_rounded_sa_terminates",
    "C131_float64"
   ],
   "note": "prob and cool are arbitrary total functions; with an infinite max_iterations the search need not end (C25)"
  },
  {
   "property": "C132",
   "status": "proved",
   "theorems": [
    "C132_basic_tabu",
    "C132_reactive_tabu",
    "C132_sa",
    "C132_sa_exact",
    "C132_maxp",
    "C132_float64"
   ],
   "note": "MaxPRegionsHeu with AZP as local search; prob depends on the value of its argument only"
  },
  {
   "property": "C133",
   "status": "proved",
   "theorems": [
    "C133_basic_tabu",
    "C133_azp",
    "C133_basic_tabu_elsewhere",
    "C133_azp_elsewhere"
   ],
   "note": "the object may remember anything from earlier fits; AZPReactiveTabu and AZPSimulatedAnnealing keep counters and visited solutions over the islands (C31, C109)"
  },
  {
   "property": "C134",
   "status": "proved",
   "theorems": [
    "C134_p_regions",
    "C134_p_regions_alone",
    "C134_p_regions_divide",
    "C134_flow",
    "C134_flow_alone",
    "C134_maxp_island",
    "C134_maxp_alone",
    "C134_maxp_together"
   ],
   "note": "distances non-negative; order and tree with p <= n - 2 (C50, C52), for the island alone likewise"
  },
  {
   "property": "C135",
   "status": "partial",
   "theorems": [
    "C135_azp_wrong_length",
    "C135_tabu_wrong_length",
    "C135_sa_wrong_length",
    "C135_too_many_labels",
    "C135_assert_feasible_refuted"
   ],
   "note": "True of every fit (AZPSimulatedAnnealing: with max_iterations other than 0) and of too many labels; assert_feasible accepts too few labels."
  },
  {
   "property": "C136",
   "status": "partial",
   "theorems": [
    "C136_numbering_partial",
    "C136_numbering_refuted"
   ],
   "note": "False of the code with ties: in a row of three areas with values 0, 1, 2 the area numbered first is cut off (witness). Proved when no two links of the map are equally dissimilar and no two cuts of a forest equally good, for scores that do not depend on the order of rows and regions (the default configuration among them)."
  },
  {
   "property": "C137",
   "status": "proved",
   "theorems": [
    "C137_pexact_interfaces",
    "C137_pexact_agree",
    "C137_maxp_interfaces"
   ],
   "note": "symmetric metric; method flow among the partitions without a region of more than n - p areas (C48); method tree with positive distances and no area its own neighbour (C51)"
  },
  {
   "property": "C138",
   "status": "partial",
   "theorems": [
    "C138_cold_partial",
    "C138_never_worse_refuted"
   ],
   "note": "False of the code: the labels of the last run are returned, not the best visited; for every exponential function with 0 < exp(-16) <= 1 - 2^-53 there are draws with which the row 0, 1, 9, 10 goes from objective 2 to 18 (temperature 1). Proved when the initial temperature is so low that the computed exponential of the smallest possible worsening is 0 (e.g. whole-number attributes and a temperature below 1/746)."
  },
  {
   "property": "C139",
   "status": "proved",
   "theorems": [
    "C139_more_iterations",
    "C139_same_number"
   ],
   "note": "some component of the threshold is positive; annealing with at least one round and a positive number of non-moving steps (C37); reactive tabu with a new object on a connected map (C141)"
  },
  {
   "property": "C14",
   "status": "proved",
   "theorems": [
    "C14_allow_move_azp_call",
    "C14_allow_move_azp_history"
   ],
   "note": ""
  },
  {
   "property": "C140",
   "status": "proved",
   "theorems": [
    "C140_maxp_basic_valid",
    "C140_maxp_basic_not_worse",
    "C140_maxp_basic_exceptions"
   ],
   "note": "some component of the threshold is positive (otherwise every area is its own region); whether fit returns is C142; lemmas basic_fit_plain and reactive_fit_plain: the model of the tabu classes used in C27-C32 is the case of AllowMoveAZP of the one used here"
  },
  {
   "property": "C141",
   "status": "partial",
   "theorems": [
    "C141_maxp_reactive_partial",
    "C141_maxp_reactive_islands_refuted",
    "C141_maxp_reactive_no_exception_refuted"
   ],
   "note": "Proved for connected maps and a new object. False on several islands, where solutions remembered for one island are given to another one; with nothing to move fit raises AttributeError."
  },
  {
   "property": "C142",
   "status": "partial",
   "theorems": [
    "C142_maxp_basic_returns_partial",
    "C142_maxp_basic_returns_refuted"
   ],
   "note": "False of the code: on a star with equal attributes and the totals 0, 1, 1, 1 the search goes round for ever (as in C29). Proved for the pairwise objective when no move leaves the objective of an island unchanged."
  },
  {
   "property": "C143",
   "status": "partial",
   "theorems": [
    "C143_basic_interfaces_partial",
    "C143_reactive_interfaces_partial",
    "C143_tabu_interfaces_refuted"
   ],
   "note": "False of the code when two moves are equally good (witness for both classes, for all draws): the area listed first wins, and a dict and a W may list the areas in different orders. Proved on connected maps when no two legal moves lead to the same objective value."
  },
  {
   "property": "C144",
   "status": "partial",
   "theorems": [
    "C144_basic_at_once_partial",
    "C144_reactive_at_once_partial",
    "C144_reactive_interleaved",
    "C144_interleaved_refuted",
    "C39_whole_script_partial"
   ],
   "note": "False of the code without initial labels: another construction in between changes the labels (witness for both classes). Proved for objects fitted at once; for AZPReactiveTabu with initial labels (k1 >= 1, connected map) under every interleaving, whatever the seeds; and for whole scripts in which every object is seeded (C39, whose scripts now include the tabu classes)."
  },
  {
   "property": "C145",
   "status": "proved",
   "theorems": [
    "C145_azp_missing",
    "C145_fill_in",
    "C145_kept_apart",
    "C145_complete"
   ],
   "note": "The three-way claim for the default strategy (symmetric distance with d(x,x)=0); the fill-in and kept-apart parts for every strategy object. When nothing is missing, the checks change nothing. Metrics given as functions of the user's own are not checked by sklearn and are not covered."
  },
  {
   "property": "C146",
   "status": "proved",
   "theorems": [
    "C146_sa_missing",
    "C146_sa_fill_in",
    "C146_sa_kept_apart",
    "C146_basic_tabu",
    "C146_basic_fill_in",
    "C146_basic_kept_apart",
    "C146_reactive_tabu",
    "C146_reactive_fill_in",
    "C146_reactive_kept_apart"
   ],
   "note": "Tabu classes also with any strategy object inside. Kept apart for AZPReactiveTabu: a new object and a connected map (else its labels may come from another fit, C31)."
  },
  {
   "property": "C147",
   "status": "proved",
   "theorems": [
    "C147_center_rejects",
    "C147_sa_rejects",
    "C147_center_no_labels",
    "C147_basic_no_labels",
    "C147_reactive_no_labels"
   ],
   "note": "ValueError for AZP with the default strategy and for annealing with finite max_iterations (reduction = sum); for every strategy object and reduction, and for the tabu classes, no labels are returned."
  },
  {
   "property": "C148",
   "status": "partial",
   "theorems": [
    "C148_grow_regions",
    "C148_valid",
    "C148_fails_iff",
    "C148_not_worse",
    "C148_sa",
    "C148_complete",
    "C148_basic_valid",
    "C148_reactive_valid",
    "C148_basic_not_worse",
    "C148_tabu_unmet",
    "C148_known_amounts_refuted"
   ],
   "note": "The last expectation is false of the code: a region may consist of a single area about which nothing is known. The rest is proved: validity for every strategy object, returns/raises and not-worse for objects built from AllowMoveAZP, annealing by reduction to plain amounts; the tabu classes (reactive: a new object on a connected map) when some threshold is positive: validity of what is returned, the ValueError and, for AZPBasicTabu, not-worse."
  },
  {
   "property": "C149",
   "status": "partial",
   "theorems": [
    "C149_azp",
    "C149_sa",
    "C149_basic_tabu",
    "C149_reactive_tabu",
    "C149_basic_tabu_with",
    "C149_reactive_tabu_with",
    "C149_maxp_refuted",
    "C149_maxp_partial",
    "C149_maxp_sa_partial",
    "C149_maxp_basic_partial",
    "C149_maxp_reactive_partial"
   ],
   "note": "Proved for the four AZP classes. False of MaxPRegionsHeu: an area just added to a growing region stays a candidate if it is listed as its own neighbour, and choosing it again raises ValueError (witness where this happens for all draws although fit works without the entries). Proved for max-p with each local search: every other outcome is also an outcome without the entries."
  },
  {
   "property": "C15",
   "status": "proved",
   "theorems": [
    "C15_sa_call",
    "C15_sa_history"
   ],
   "note": "math.exp is an arbitrary function; random.random() is any multiple of 2^-53 in [0,1)"
  },
  {
   "property": "C150",
   "status": "proved",
   "theorems": [
    "C150_basic_tabu_outcomes"
   ],
   "note": "Both directions, for every exact objective. The search is a relation between labels in SpecTabu.v: no tabu list of bounded length, no tracked objective value, no list of candidate moves. A question the objective object cannot answer (a region that has lost its areas) ends the search without a result in the relation as in the code."
  },
  {
   "property": "C151",
   "status": "proved",
   "theorems": [
    "C151_reactive_tabu_outcomes",
    "C151_usable_again",
    "C151_new",
    "C151_reactive_tabu_exceptions"
   ],
   "note": "Both directions, for every exact objective; the memory that the fit leaves behind is part of the statement, so that any sequence of fits of one object that return labels is covered (a fit that has raised may leave another moving average behind). Exceptions on maps with one island. The search is a relation between labels in SpecReactive.v."
  },
  {
   "property": "C152",
   "status": "partial",
   "theorems": [
    "C152_types",
    "C152_thresholds",
    "C152_totals_fit",
    "C152_number_of_regions",
    "C152_attainable_refuted",
    "C152_basic_thresholds",
    "C152_reactive_thresholds",
    "C152_tabu_unmet",
    "C152_basic_totals_fit",
    "C152_reactive_totals_fit",
    "C152_basic_number_of_regions",
    "C152_reactive_number_of_regions"
   ],
   "note": "The last expectation is false of the code: two areas with 20000 in 16 bits and the threshold 30000 raise ValueError whatever is drawn. The rest is proved, for amounts given as columns (as fit_from_geodataframe passes them)."
  },
  {
   "property": "C153",
   "status": "proved",
   "theorems": [
    "C153_returns_or_rejects",
    "C153_must_stand_alone",
    "C153_fill_in",
    "C153_kept_apart",
    "C153_complete",
    "C153_basic_fill_in",
    "C153_basic_kept_apart",
    "C153_reactive_fill_in",
    "C153_reactive_kept_apart",
    "C153_sa_fill_in",
    "C153_sa_kept_apart",
    "C153_center_no_labels",
    "C153_center_rejects",
    "C153_draws_decide"
   ],
   "note": "Fill-in and kept-apart for every local search and strategy object; that there is no third possibility, and the condition on single areas, for AZP objects built from AllowMoveAZP and a symmetric distance with d(x,x)=0."
  },
  {
   "property": "C154",
   "status": "partial",
   "theorems": [
    "C154_infinite",
    "C154_infinite_annealing",
    "C154_minus_infinite",
    "C154_annealing",
    "C154_valid",
    "C154_as_many",
    "C154_fails_iff",
    "C154_not_worse",
    "C154_no_search",
    "C154_alone",
    "C154_tabu_infinite",
    "C154_tabu_unmet",
    "C154_basic_valid",
    "C154_reactive_valid",
    "C154_basic_not_worse",
    "C154_basic_no_search",
    "C154_nan_ignored_refuted"
   ],
   "note": "The last expectation is false of the code: with the thresholds 2 and NaN the result has a higher heterogeneity than with 2 and 0 for the same draws, because the local search is switched off. The rest is proved. For the tabu classes as local search: plus infinity, islands that do not reach the numbers, validity and number of regions when some threshold is a positive number (reactive: a new object on a connected map), and for AZPBasicTabu that the result is no worse than the completed partitions and that NaN switches the search off; that they return is not claimed."
  },
  {
   "property": "C155",
   "status": "proved",
   "theorems": [
    "C155_basic_small_steps",
    "C155_basic_keeps_regions",
    "C155_reactive_small_steps",
    "C155_reactive_keeps_regions",
    "C155_float64",
    "C155_float64_keeps_regions"
   ],
   "note": "default (Manhattan) pairwise objective, without overflow; the moving average of AZPReactiveTabu is computed in exact numbers. That no region disappears is claimed for AZPReactiveTabu with k1 >= 1, for every objective."
  },
  {
   "property": "C16",
   "status": "proved",
   "theorems": [
    "C16_maxp_wrapper",
    "C16_maxp_wrapper_history"
   ],
   "note": ""
  },
  {
   "property": "C17",
   "status": "partial",
   "theorems": [
    "C17_maxp_negative_refuted",
    "C17_maxp_any_sign_partial"
   ],
   "note": "The stated claim is false of the code: refuted by a witness; for attributes of any sign every region except the recipient is protected."
  },
  {
   "property": "C18",
   "status": "proved",
   "theorems": [
    "C18_azp_feasible"
   ],
   "note": "any strategy object, given as arbitrary functions; given initial labels have one entry per area and do not use -1 as a region name (see C64)"
  },
  {
   "property": "C19",
   "status": "proved",
   "theorems": [
    "C19_azp_monotone",
    "C19_azp_monotone_pairwise"
   ],
   "note": ""
  },
  {
   "property": "C20",
   "status": "proved",
   "theorems": [
    "C20_azp_terminates"
   ],
   "note": "explicit bound on the number of loop iterations, uniform in the random history; also shows that no exception is raised"
  },
  {
   "property": "C21",
   "status": "proved",
   "theorems": [
    "C21_azp_no_exception",
    "C21_azp_bad_request"
   ],
   "note": ""
  },
  {
   "property": "C22",
   "status": "partial",
   "theorems": [
    "C22_azp_local_optimum_partial",
    "C22_azp_local_optimum_refuted"
   ],
   "note": "Full local optimality is false of the code (witness given). Proved: the result has a legal move that leaves the objective unchanged, or every legal move strictly worsens it."
  },
  {
   "property": "C23",
   "status": "proved",
   "theorems": [
    "C23_azp_labels_islands"
   ],
   "note": ""
  },
  {
   "property": "C24",
   "status": "proved",
   "theorems": [
    "C24_sa_feasible",
    "C24_sa_bad_cooling"
   ],
   "note": "max_iterations and nonmoving_steps_before_stop are at least 1 (otherwise AZP never runs)"
  },
  {
   "property": "C25",
   "status": "proved",
   "theorems": [
    "C25_sa_terminates",
    "C25_sa_infinite_maxit_diverges"
   ],
   "note": "finite max_iterations >= 1: explicit bound uniform in the random history, the temperature and earlier fits; max_iterations=inf: a random history on which fit never returns"
  },
  {
   "property": "C26",
   "status": "partial",
   "theorems": [
    "C26_sa_refit_refuted",
    "C26_sa_refit_partial"
   ],
   "note": "The stated claim is false of the code (witness: the same fit called twice on one object). It holds when the earlier fits were on a different number of areas and left move_made unset."
  },
  {
   "property": "C27",
   "status": "proved",
   "theorems": [
    "C27_basic_tabu_contiguous",
    "C27_basic_tabu_feasible_pairwise",
    "C27_basic_tabu_feasible_center"
   ],
   "note": ""
  },
  {
   "property": "C28",
   "status": "proved",
   "theorems": [
    "C28_basic_tabu_no_worse"
   ],
   "note": "for every objective whose update is exact"
  },
  {
   "property": "C29",
   "status": "partial",
   "theorems": [
    "C29_basic_tabu_terminates_partial",
    "C29_two_regions_partial",
    "C29_center_ends_partial",
    "C29_basic_tabu_terminates_refuted"
   ],
   "note": "The stated claim is false of the code: on a star with equal attributes the default object never returns, whatever the random draws. Proved: fit returns when no move is a tie, and with at most two regions and the default tabu list even with ties (the witness has three regions); for the center objectives it returns or raises under the same conditions."
  },
  {
   "property": "C30",
   "status": "proved",
   "theorems": [
    "C30_reactive_contiguous",
    "C30_reactive_feasible_no_worse",
    "C30_reactive_any_strategy",
    "C30_reactive_any_objective"
   ],
   "note": "the number of regions also for every objective and strategy object, exact or not, if k1 >= 1"
  },
  {
   "property": "C31",
   "status": "partial",
   "theorems": [
    "C31_reactive_islands_refuted",
    "C31_reactive_refit_refuted",
    "C31_reactive_islands_partial",
    "C31_reactive_new_partial",
    "C31_reactive_refit_partial",
    "C30_reactive_feasible_no_worse"
   ],
   "note": "The stated claim is false of the code (witnesses for two islands and for a second fit). Proved for k1 >= 1 and given initial labels: the result is feasible and on no island worse if every island is a single region, or has a move that lowers its objective (and max_iterations >= 2), or is the first island with several regions of a new object; on a second fit also the region names must be new. Connected graphs with a new object: C30."
  },
  {
   "property": "C32",
   "status": "partial",
   "theorems": [
    "C32_reactive_no_exception_refuted",
    "C32_reactive_exceptions_partial",
    "C32_two_moves_partial"
   ],
   "note": "The stated claim is false of the code (witness). Proved: a fresh object with k1 >= 1 on a connected graph raises nothing but AttributeError, and not even that if every labelling with the given regions has two different legal moves (initial labels given)."
  },
  {
   "property": "C33",
   "status": "proved",
   "theorems": [
    "C33_grow_regions"
   ],
   "note": "also shows that no exception is raised; an example shows that self loops can raise ValueError"
  },
  {
   "property": "C34",
   "status": "proved",
   "theorems": [
    "C34_assign_enclaves"
   ],
   "note": ""
  },
  {
   "property": "C35",
   "status": "proved",
   "theorems": [
    "C35_maxp_valid"
   ],
   "note": "for AZP local searches with any strategy object of the package"
  },
  {
   "property": "C36",
   "status": "proved",
   "theorems": [
    "C36_maxp_fails_iff"
   ],
   "note": "objective functions with an exact update; explicit iteration bound uniform in the random history"
  },
  {
   "property": "C37",
   "status": "partial",
   "theorems": [
    "C37_maxp_sa_refuted",
    "C37_maxp_sa_partial"
   ],
   "note": "The stated claim is false of the code (witness). Proved: with AZPSimulatedAnnealing the result is contiguous with as many regions as the best constructed partition."
  },
  {
   "property": "C38",
   "status": "partial",
   "theorems": [
    "C38_maxp_local_search_refuted",
    "C38_one_pass_partial"
   ],
   "note": "The stated claim is false of the code (witness). Proved: on every island with several regions the local search is exactly one pass."
  },
  {
   "property": "C39",
   "status": "partial",
   "theorems": [
    "C39_interleaved_refuted",
    "C39_maxp_default_refuted",
    "C39_last_seed_counts",
    "C39_whole_script_partial",
    "C39_azp_at_once_partial",
    "C39_sa_interleaved_partial"
   ],
   "note": "The stated claim is false of the code: the generator is process-wide, so another construction changes the result (witness), and MaxPRegionsHeu without local search reseeds from the operating system (witness). It holds for whole scripts in which every object is seeded and every MaxPRegionsHeu has a local search, for AZP fitted at once, and for simulated annealing under any interleaving."
  },
  {
   "property": "C40",
   "status": "proved",
   "theorems": [
    "C40_skater_contiguous"
   ],
   "note": "scipy's minimum_spanning_tree is Kruskal with an arbitrary processing order"
  },
  {
   "property": "C41",
   "status": "proved",
   "theorems": [
    "C41_skater_count"
   ],
   "note": ""
  },
  {
   "property": "C42",
   "status": "proved",
   "theorems": [
    "C42_skater_quorum",
    "C42_skater_small_island"
   ],
   "note": ""
  },
  {
   "property": "C43",
   "status": "proved",
   "theorems": [
    "C43_find_cut",
    "C43_labels_and_target"
   ],
   "note": ""
  },
  {
   "property": "C44",
   "status": "proved",
   "theorems": [
    "C44_skater_hierarchical"
   ],
   "note": "also shows that every recorded cut was a cheapest one"
  },
  {
   "property": "C45",
   "status": "partial",
   "theorems": [
    "C45_identical_neighbours_refuted",
    "C45_connected_partial"
   ],
   "note": "The stated claim is false of the code: on every graph areas with identical attributes become singletons. It holds when all neighbours have non-zero dissimilarity."
  },
  {
   "property": "C46",
   "status": "proved",
   "theorems": [
    "C46_skater_terminates"
   ],
   "note": ""
  },
  {
   "property": "C47",
   "status": "proved",
   "theorems": [
    "C47_flow_sound",
    "C47_flow_asymmetric"
   ],
   "note": "the solver is quantified over: any integer assignment satisfying the constraints; an asymmetric adjacency raises KeyError"
  },
  {
   "property": "C48",
   "status": "partial",
   "theorems": [
    "C48_flow_representable_partial",
    "C48_flow_best_partial",
    "C48_flow_infeasible_refuted",
    "C48_flow_misses_best_refuted"
   ],
   "note": "The stated claim is false of the code (witnesses). Proved: exactly the partitions whose regions have at most n-p areas are representable, and an optimal answer is best among those."
  },
  {
   "property": "C49",
   "status": "proved",
   "theorems": [
    "C49_order_sound"
   ],
   "note": ""
  },
  {
   "property": "C50",
   "status": "proved",
   "theorems": [
    "C50_order_best",
    "C50_order_representable",
    "C50_order_small"
   ],
   "note": ""
  },
  {
   "property": "C51",
   "status": "proved",
   "theorems": [
    "C51_tree_sound",
    "C51_tree_zero_distance"
   ],
   "note": ""
  },
  {
   "property": "C52",
   "status": "proved",
   "theorems": [
    "C52_tree_representable",
    "C52_tree_best",
    "C52_tree_infeasible"
   ],
   "note": ""
  },
  {
   "property": "C53",
   "status": "proved",
   "theorems": [
    "C53_maxp_sound"
   ],
   "note": "thresholds as documented: a number or an array with one entry per attribute"
  },
  {
   "property": "C54",
   "status": "proved",
   "theorems": [
    "C54_maxp_lexicographic",
    "C54_exponent_exists"
   ],
   "note": ""
  },
  {
   "property": "C55",
   "status": "partial",
   "theorems": [
    "C55_maxp_identical_refuted",
    "C55_maxp_identical_partial"
   ],
   "note": "The stated claim is false of the code: every such input raises ValueError. Proved: fit succeeds iff the total of the distances is positive."
  },
  {
   "property": "C56",
   "status": "proved",
   "theorems": [
    "C56_pexact_validation"
   ],
   "note": ""
  },
  {
   "property": "C57",
   "status": "proved",
   "theorems": [
    "C57_matrix_from_dict",
    "C57_numbering"
   ],
   "note": "area names are integers in the model; the empty dict is not covered"
  },
  {
   "property": "C58",
   "status": "partial",
   "theorems": [
    "C58_rows_partial",
    "C58_sorted_rows",
    "C58_subset_refuted"
   ],
   "note": "The claim for subsets is false of the code for every subset: there is never one row per requested key. Proved: rows are right whenever as many keys are asked for as the dict has entries."
  },
  {
   "property": "C59",
   "status": "partial",
   "theorems": [
    "C59_networkx_refuted",
    "C59_networkx_partial"
   ],
   "note": "The stated claim is false of the code for every graph whose nodes were not inserted in increasing order. It holds for graphs whose nodes were, if every node has the attributes."
  },
  {
   "property": "C60",
   "status": "proved",
   "theorems": [
    "C60_array_from_region_list"
   ],
   "note": ""
  },
  {
   "property": "C61",
   "status": "proved",
   "theorems": [
    "C61_find_sublist",
    "C61_count",
    "C61_random_draws"
   ],
   "note": ""
  },
  {
   "property": "C62",
   "status": "partial",
   "theorems": [
    "C62_maxp_refit_refuted",
    "C35_maxp_valid"
   ],
   "note": "The stated claim is false of the code (witness). Proved: a refitted object still returns a valid max-p clustering for the new threshold (C35 holds for every state of the local search)."
  },
  {
   "property": "C63",
   "status": "partial",
   "theorems": [
    "C63_networkx_initial_labels_refuted"
   ],
   "note": "The stated claim is false of the code for every input: an exception is raised, TypeError once the arguments can be converted."
  },
  {
   "property": "C64",
   "status": "partial",
   "theorems": [
    "C64_minus_one_refuted",
    "C18_azp_feasible"
   ],
   "note": "The stated claim is false of the code: labels all equal to -1 raise NameError on every connected graph. C18 covers all namings that avoid -1."
  },
  {
   "property": "C65",
   "status": "partial",
   "theorems": [
    "C65_basic_tabu_no_exception_partial",
    "C65_basic_tabu_no_exception_refuted"
   ],
   "note": "The stated claim is false of the code for the center objectives (witness). It holds for the pairwise objective with a non-negative symmetric metric."
  },
  {
   "property": "C66",
   "status": "proved",
   "theorems": [
    "C66_maxp_not_worse"
   ],
   "note": ""
  },
  {
   "property": "C67",
   "status": "proved",
   "theorems": [
    "C67_find_best_area",
    "C67_find_best_region"
   ],
   "note": ""
  },
  {
   "property": "C68",
   "status": "proved",
   "theorems": [
    "C68_no_further_region"
   ],
   "note": ""
  },
  {
   "property": "C69",
   "status": "partial",
   "theorems": [
    "C69_affinity_refuted"
   ],
   "note": "The stated claim is false of the code: every fit that has to score a cut raises TypeError."
  },
  {
   "property": "C70",
   "status": "partial",
   "theorems": [
    "C70_score_names_refuted",
    "C70_score_partial"
   ],
   "note": "The stated claim is false of the code: every naming without 0 raises ValueError. It holds for namings 0..p-1."
  },
  {
   "property": "C71",
   "status": "proved",
   "theorems": [
    "C71_find_and_make_cut"
   ],
   "note": ""
  },
  {
   "property": "C72",
   "status": "partial",
   "theorems": [
    "C72_finer_not_worse_refuted",
    "C72_finer_not_worse_partial"
   ],
   "note": "The stated claim is false of the code with the default mean centre (witness). It holds when no other centre has a smaller total distance to a region than its own, e.g. for the mean and squared distances (C97)."
  },
  {
   "property": "C73",
   "status": "partial",
   "theorems": [
    "C73_several_attributes_refuted",
    "C73_single_attribute_best_partial",
    "C73_values_best"
   ],
   "note": "The stated claim is false of the code with two attributes (witness); it holds for one attribute. With several attributes what is minimised is the sum over all pairs of values of the two areas (C73_values_best)."
  },
  {
   "property": "C74",
   "status": "partial",
   "theorems": [
    "C74_infeasible_reported_refuted",
    "C47_flow_sound",
    "C49_order_sound",
    "C51_tree_sound"
   ],
   "note": "The stated claim is false of the code for every graph with n = p+1 and an unset answer. It holds for every answer that satisfies the constraints."
  },
  {
   "property": "C75",
   "status": "partial",
   "theorems": [
    "C75_unattainable_threshold_refuted",
    "C53_maxp_sound"
   ],
   "note": "The stated claim is false of the code for an unset answer. It holds for every answer that satisfies the constraints."
  },
  {
   "property": "C76",
   "status": "partial",
   "theorems": [
    "C76_list_threshold_refuted",
    "C53_maxp_sound"
   ],
   "note": "The stated claim is false of the code: every optimal answer makes each area its own region. It holds for numbers and arrays."
  },
  {
   "property": "C77",
   "status": "proved",
   "theorems": [
    "C77_fit_from_dict_contiguous"
   ],
   "note": "initial labels, if any, are scalars other than -1 (see C64)"
  },
  {
   "property": "C78",
   "status": "proved",
   "theorems": [
    "C78_array_order",
    "C78_matrix_order"
   ],
   "note": ""
  },
  {
   "property": "C79",
   "status": "partial",
   "theorems": [
    "C79_extra_keys_refuted",
    "C79_fit_from_dict_aligned_partial"
   ],
   "note": "The stated claim is false of the code for every attr with further entries: an exception or an array with too many rows. It holds if attr has exactly the areas as keys."
  },
  {
   "property": "C80",
   "status": "partial",
   "theorems": [
    "C80_missing_attribute_refuted",
    "C80_missing_attribute_partial"
   ],
   "note": "The stated claim is false of the code for two attributes (witness). It holds for one attribute that some but not all nodes have."
  },
  {
   "property": "C81",
   "status": "proved",
   "theorems": [
    "C81_pexact_validation",
    "C81_pexact_aligned",
    "C81_maxp_validation",
    "C81_maxp_aligned"
   ],
   "note": ""
  },
  {
   "property": "C82",
   "status": "proved",
   "theorems": [
    "C82_columns"
   ],
   "note": ""
  },
  {
   "property": "C83",
   "status": "partial",
   "theorems": [
    "C83_duplicate_index_refuted",
    "C83_dataframe_to_dict_partial"
   ],
   "note": "The stated claim is false of the code whenever the index has repeated entries. For every frame the result has one entry per index entry, the last row with it; with duplicate-free indices that is every row."
  },
  {
   "property": "C84",
   "status": "proved",
   "theorems": [
    "C84_maxp_wrapper_transparent"
   ],
   "note": ""
  },
  {
   "property": "C85",
   "status": "proved",
   "theorems": [
    "C85_sa_gives_up"
   ],
   "note": ""
  },
  {
   "property": "C86",
   "status": "proved",
   "theorems": [
    "C86_bad_values",
    "C86_not_iterable"
   ],
   "note": ""
  },
  {
   "property": "C87",
   "status": "partial",
   "theorems": [
    "C87_basic_tabu_escapes_refuted",
    "C87_reactive_escapes_refuted",
    "C28_basic_tabu_no_worse"
   ],
   "note": "The stated claim is false of the code for every start that is a strict local optimum: the start is returned (for AZPReactiveTabu: new object, connected graph). What holds instead is C28: the objective never rises."
  },
  {
   "property": "C88",
   "status": "partial",
   "theorems": [
    "C88_second_iteration_lost_refuted",
    "C88_best_kept_refuted",
    "C30_reactive_feasible_no_worse",
    "C98_reactive_descent"
   ],
   "note": "The stated claim is false of the code: on every connected graph max_iterations = 2 returns the labels of max_iterations = 1 (k1 >= 1, initial labels given), and a witness where the lost second iteration was an improvement. What holds: never worse than the start (C30), and of more iterations exactly the last one is lost (C98)."
  },
  {
   "property": "C89",
   "status": "partial",
   "theorems": [
    "C89_basic_tabu_local_optimum_partial",
    "C89_basic_tabu_local_optimum_refuted"
   ],
   "note": "False with the default arguments (witness, 2 x 3 grid); holds for tabu_length = 0."
  },
  {
   "property": "C90",
   "status": "partial",
   "theorems": [
    "C90_azp_nothing_to_move",
    "C90_basic_tabu_nothing_to_move",
    "C90_reactive_partial",
    "C90_reactive_refuted"
   ],
   "note": "Proved for AZP (every strategy) and AZPBasicTabu. False for AZPReactiveTabu whenever some island has two regions (AttributeError for every such input); holds there when every island is one region."
  },
  {
   "property": "C91",
   "status": "partial",
   "theorems": [
    "C91_sa_arguments",
    "C91_zero_iterations_refuted",
    "C91_reactive_arguments",
    "C91_divide_arguments",
    "C91_score_without_labels",
    "C91_short_threshold"
   ],
   "note": "Holds for every other value; false of the code for max_iterations = 0, where any initial labels are returned unchecked (TypeError without initial labels)."
  },
  {
   "property": "C92",
   "status": "proved",
   "theorems": [
    "C92_growth_outcomes",
    "C92_enclave_outcomes"
   ],
   "note": ""
  },
  {
   "property": "C93",
   "status": "proved",
   "theorems": [
    "C93_single_areas"
   ],
   "note": ""
  },
  {
   "property": "C94",
   "status": "proved",
   "theorems": [
    "C94_region_counts"
   ],
   "note": ""
  },
  {
   "property": "C95",
   "status": "partial",
   "theorems": [
    "C95_maximum_partial",
    "C95_maximum_refuted"
   ],
   "note": "The first part is false of the code: a witness on four areas where two regions are possible and every history yields one. The bounds hold."
  },
  {
   "property": "C96",
   "status": "proved",
   "theorems": [
    "C96_rounds",
    "C96_single_run"
   ],
   "note": ""
  },
  {
   "property": "C97",
   "status": "proved",
   "theorems": [
    "C97_mean",
    "C97_mean_minimises",
    "C97_mean_pairs",
    "C97_center_objective",
    "C97_finer_not_worse"
   ],
   "note": ""
  },
  {
   "property": "C98",
   "status": "proved",
   "theorems": [
    "C98_reactive_descent",
    "C98_reactive_error"
   ],
   "note": "the condition for AttributeError is stated for given initial labels"
  },
  {
   "property": "C99",
   "status": "partial",
   "theorems": [
    "C99_reactive_local_optimum_partial",
    "C99_reactive_no_ties_partial",
    "C99_reactive_local_optimum_refuted"
   ],
   "note": "False of the code for a start that is a local optimum with a move of equal objective (witness for every max_iterations >= 2). Proved for every other start, in particular when there are no ties, for max_iterations > p to the power of the number of areas."
  }
 ]
}