# A Rocq model of pysal/region

## 1. Approach

The Python code is read as text and re-expressed, function by function, as total
computable Gallina functions.  Conventions:

* **Exceptions are values.** `out A = Ok a | Raise e | NoFuel`. `Raise` carries the Python
  exception class. `NoFuel` means a `while` loop needed more iterations than the fuel given;
  it is never a normal-looking value, and termination theorems say that enough fuel exists.
* **Randomness is an oracle.** `random.randrange(n)` consumes one raw draw of an infinite stream
  `rng = nat -> nat` and returns `draw mod n` (`ValueError` for `n = 0`).  Every outcome of
  every call is produced by some stream, so "for all `rng`" is "for all random histories".
* **Numbers are rationals (`Q`).** Every finite float is a rational; metric values are arbitrary
  rationals.  What is idealised is that `+`, `-` are exact (no rounding, NaN or inf).
* **Adjacency matrices** are `graph = {gn; gadj : nat -> nat -> bool}`: size and non-zero pattern
  (no explicitly stored zeros).  Symmetry and absence of self loops are hypotheses where needed.
* **Labels** are `list Z` (the code uses -1 as a sentinel).
* **Python sets** are duplicate-free lists; iteration order of a set is only visible through a
  later random choice, which the oracle covers.
* **Objects with state** (strategies, tabu lists, `visited`) are records threaded through.
* **External routines** (scipy `connected_components`, `minimum_spanning_tree`, MIP solvers,
  `math.exp`, sklearn metrics): `connected_components` is implemented in the model the way scipy
  numbers components and proved correct; the spanning-tree routine is a parameter constrained only
  by "returns an acyclic spanning edge set" (and a Kruskal instance is proved to satisfy it; C105 and C106 also
  assume that the links are sorted by weight, as scipy does); the MIP solver is
  quantified over ("any feasible/optimal assignment"); metrics are parameters.

## 2. Files

| file | contents |
| --- | --- |
| `Base.v` | outcomes, oracle, list/Q helpers |
| `Spec.v` | the specification vocabulary: linked, contiguous, feasible ... independent of the model |
| `SpecMissing.v` | the same for missing attribute values |
| `SpecAmounts.v` | the same for missing spatially extensive amounts |
| `SpecTabu.v` | tabu search as a relation between labels (C150) |
| `SpecReactive.v` | the search of AZPReactiveTabu as a relation between labels and memories (C151) |
| `SpecInt.v` | integer types of fixed width (C152) |
| `SpecBound.v` | thresholds that may be NaN or infinite (C154) |
| `SpecData.v` | the same for inputs in other forms (dicts, W, networkx), scripts and number formats; uses data types of the model only |
| `M_*.v` | the model, each definition citing `/repo` file and lines |
| `P_*.v` | proofs |
| `Props_*.v` | the property theorems only, with non-vacuity examples and `Print Assumptions` |

## 3. Plan per property

* C01-C04: `connected_components` model, reachability proved equal to the inductive `linked` relation;
  induced subgraphs; `assert_feasible` characterised by iff.
* C05-C07: loop invariants over the random draws; forests through the identity
  `#components + #edges = #nodes`; C08: refuted by computation for all inputs.
* C09-C13, C97: algebra of finite sums over Q; dispatch tables by case analysis.
* C14-C17: induction over call/move histories; C17 refuted by witness.
* C18-C23: one invariant for the AZP pass (exact region-neighbour sets, contiguity, label set) proved
  for an arbitrary strategy; measure arguments for termination.
* C100, C101: the possible results of AZP as the relation `zoning` of Spec.v; soundness by induction on the model's loops,
  completeness by choosing the random draws; invariance under renumbering by bisimulation of two zonings.
* C102, C103: the possible random starts as the relation `tree_start` of Spec.v (cuts of one spanning forest); completeness by choosing
  the draws (five equal draws force any link), uniqueness of the numbering; composed with `zoning` for AZP from a random start.
* C104: every procedure reads a finite prefix of the draws (`P_Local.v`), so runs can be spliced; the possible answers without initial labels
  are those from the cuts of the forest.
* C105, C106: Kruskal's rule on sorted links is lightest by counting links up to each weight (`P_Kruskal.v`); the pruning loop as the relation
  `prunes` of Spec.v, with uniqueness; without ties two runs stay equal up to the direction of links.
* C107: turns and passes are proved exact for any strategy that decides by a predicate (`P_Zoning.v`, sections Turns and TurnsTransfer), instantiated
  for nested threshold wrappers (`P_MaxPZone.v`); results are reached by repeating one partition in all iterations (`Props_MaxPZone.v`).
* C108: every part of C107's specification is mapped through the permutation of the areas (`P_MaxPNames.v`, on top of `P_Names.v`).
* C109: a turn with random acceptance is proved exact for any strategy that decides by a predicate of the move and one draw (`P_Anneal.v`); the counter of worsening
  moves is threaded through turns, rounds, islands and runs (`P_Annealing.v`), then the two loops of the annealing class are unrolled against the inductive
  relations `anneal_runs` and `annealing` of `Spec.v`.  A fit without initial labels is reduced to one from a cut of the forest (C104's argument, keeping the oracle).
* C110: the relations of C109 are mapped through the permutation and the renaming (`P_AnnealNames.v`, on top of `P_Names.v`).
* C111-C114: `M_Frames.v` models `fit_from_w` and `fit_from_geodataframe` of every class; libpysal's
  geometry is an arbitrary function.  Data of named areas given in several forms lead to matrices and
  arrays that differ by a permutation (`P_Frames.v`); C101, C110 and C108 do the rest.
* C24-C26, C85, C91, C96: the SA driver on top of the AZP theorem; pigeonhole for termination; refutations by witness.
* C115, C116: two runs of a tabu search are compared step by step (`P_TabuNames.v`): of AZPReactiveTabu with a search without
  parameters and draws, and of both classes with the same search on renumbered data (`no_rivals` in Spec.v excludes ties).
* C117-C119: rounded arithmetic is a pair of functions; float64 is the exact result rounded to 53 bits (`fl64`).  Termination: the
  tracked value takes finitely many values and every further pass starts below the last (`P_Float.v`).  Whole numbers: the rounded
  and the exact run are compared step by step (`P_TwoRuns.v`, for any two strategies that decide alike).
* C120: each rounded sum lies between (1-u)^n and (1+u)^n times the true one (`near` in `P_FloatErr.v`); rounding keeps the sign
  of a difference, so a decision compares two such sums; `moves` (Spec.v) is the chain of moves on an island.
* C155: the same bound for each move of the tabu classes (`P_FloatTabu3.v`, with the invariants of `P_TabuWith.v`); a move may be one taken back from the tabu list, so `nearly_lower` (`SpecStep.v`) asks for a region of the island, not for a bordering one. For AZPBasicTabu no region is emptied (`P_FloatTabu4.v`): the computed distances of an area to a region are zero exactly if the true ones are, so the argument of C27 survives rounding. For AZPReactiveTabu with k1 >= 1 no solution comes up a third time, whatever the objective computes, so the random moves of step 11 are not reached and every move made is legal at that time.
* C121, C122: the max-p construction is followed with two thresholds, one that a region accepted by the rounded test reaches for
  certain and one that a rejected region misses for certain (`grown2` in `P_FloatMaxP.v`); `P_FloatMaxP2.v` computes how far
  apart they are.
* C123-C125: every partition with a region of several areas has a refinement with one region more (`P_Split.v`, a connected set has a
  member whose removal keeps it connected); the optimality theorems C48-C54 do the rest.
* C126: two runs side by side (`P_TwoRuns.v` generalised to two attribute arrays); every decision is the sign of a difference that
  is multiplied by the same positive factor (`P_Scale*.v`). `scaled`, `other_scale`, `same_amounts` are in `Spec.v`.
* C127: instance of C126 with factor 1; `same_amounts` lets one number stand for several.
* C128, C129: from the exact description of the outcomes (C100), applied to the whole graph and to the island alone (`Props_Alone.v`,
  `alone` in `Spec.v`).
* C130: neighbour relations that are not mutual. `P_OneSided.v` follows AZP with the weaker invariant that the remembered neighbours of a
  region are areas outside it; the lemmas about the tabu searches (`P_Tabu.v`, `P_TabuFit.v`, `P_Reactive.v`) need no symmetry,
  since each of their moves is checked against the links in either direction (`Props_OneSided.v`).
* C131: annealing with rounded sums (`M_FloatSa.v`); the proof of C25 with the finitely many tracked values of C117 instead of the
  exact objective (`P_FloatSa.v`).
* C132: on whole numbers the rounded objective is the exact one (`whole_scaled` in `P_FloatWhole.v`), so the tabu searches are C126
  with factor 1; annealing and max-p are followed side by side with the exact run (`P_FloatWhole.v`, `P_FloatWhole2.v`).
* C133: every search whose component procedure does not read what it remembers treats islands alone (`P_AloneAll.v`, generic in the
  search); needs that a run depends only on which links there are (`P_Ext.v`) and can be repeated from other draws (`P_Local.v`).
* C134: the regions of one island are exchanged for others (`P_ExactIslands.v`: `exchanged`), which changes count, heterogeneity and totals
  by those of the island only; `Props_ExactIslands.v` combines this with the optimality theorems C48, C50, C52 and C54.
* C135: `assert_feasible` and `fit` model the IndexErrors of scipy and numpy on label arrays of a wrong length (`Props_Lengths.v`).  With too many
  labels the code reports a non-contiguous region first if it comes first; the model always reports the length.
* C136: the greedy pruning of C105 is mapped link by link through the permutation (`hh` in `Props_SkaterNames.v`); C106's comparison of two forests with the same
  links does the rest.
* C137: an interface is the function that hands a matrix and arrays to the algorithm (`pexact_entry`, `maxp_entry`); every one hands over the named areas in its own order,
  and feasibility, heterogeneity and thresholds do not depend on the order (`Props_ExactFrames.v`).
* C138: along the relations of C109 a worsening move needs a positive acceptance probability; below the temperature at which the computed exponential vanishes there is none. The refutation builds an annealing and gets the draws from C109.
* C139-C142: `M_TabuWith.v` models the tabu classes with any strategy object (the wrapper of MaxPRegionsHeu replaces theirs); invariants generic in the strategy
  with a rank that falls with every accepted move (`P_TabuWith.v`); C139 follows because two sequences of constructions from the same draws are prefixes of each other.
* C143: C116 applied to the three orders in which the interfaces list the areas (`Props_TabuFrames.v`).
* C144: the histories of `M_Random.v` contain tabu objects, also as local search; with initial labels C115 makes the reactive search independent of the generator.
* C145-C147: the checked objectives of `M_Missing.v` are compared with the plain ones call by call; `P_Upto.v` lifts "the same unless ValueError"
  through every loop of every class, without invariants; kept apart is an invariant of accepted moves.
* C148: `M_MaxPMissing.v` models the max-p heuristic with amounts of type `option Q` (`None` is NaN: every comparison with it is False). In the construction a missing
  amount acts as one that reaches the threshold (`P_MaxPMissing.v`); the guard of the local search keeps such areas where they are.
* C149: `same_between` relates two matrices with the same entries off the diagonal; `P_Loops.v` carries it through the bookkeeping of AZP, the tabu loops and the generated
  start, `P_LoopsMaxP.v` shows that a max-p construction with entries on the diagonal ends in the error of `list.remove` or is one without them for other draws.
* C150: `SpecTabu.v` states the tabu search as a relation between labels (history of attempts instead of a bounded list of moves, values of the objective instead of tracked
  differences); `P_TabuWalk.v` shows that the loop and the relation reach the same labels, island by island (C133).
* C151: `SpecReactive.v` does the same for AZPReactiveTabu, with the memory of the object before and after; `P_ReactiveWalk.v` relates the loop to it in both directions (the
  moving average of lines 1022-1023 is changed only in fits that then raise TypeError in line 1026, so exactly one random move is made at a restart; objects of which an
  earlier fit has raised are not covered).
* C152: the rounded max-p model takes two arithmetics, one for spatially extensive amounts, one for the rest; here the first one is that of an
  integer type (`M_MaxPInt.v`). A sum in the type differs from the sum by a multiple of the size and so is never above it (`P_MaxPInt.v`);
  two arithmetics that answer the threshold tests alike lead to the same fit.
* C153: `M_Grow.v` leaves the comparisons of the construction phase open (threshold tests, choice of the next area and region); `M_MaxPChecked.v` fills in choices that raise
  for a missing value. `P_MaxPChecked.v` relates every construction of this kind, up to the exceptions allowed, to that of `M_MaxP.v`. Labels that are returned have been
  evaluated by the objective, which keeps areas with missing values apart.
* C154: `M_MaxPThreshold.v` fills in the threshold tests of `M_Grow.v` for thresholds that may be NaN or infinite; the amounts are numbers. The growth tests of
  the construction (`>=`, heuristics.py:379; `<`, heuristics.py:387) and that of the wrapped strategy (`>=`, azp_util.py:192) are separate definitions, because they are not
  each other's negation for NaN. Local searches: AZP with AllowMoveAZP, and annealing (which loses the wrapper, azp.py:620-622). numpy's warnings are not modelled.
  `M_TabuGuarded.v` puts the wrappers of C154 and C148 into the tabu classes of `M_TabuWith.v`; `P_Guarded.v` proves once, for any test that spares the donor region, what is returned. `P_GuardedAzp.v` does the same for AZP and for the objective.
  `M_FloatTabu.v` puts the rounding or wrapping test of C121, C122 and C152 into the tabu classes; `P_FloatTabu.v` uses `P_Guarded.v` with the lowered thresholds; `P_FloatTabu2.v` shows that two strategies that answer alike give the same tabu search, for totals that fit the type. The moving average of AZPReactiveTabu stays exact there.
* C27-C32, C65, C87-C90, C98, C99: tabu drivers with the same state; divergence of the basic tabu proved for all fuel; the reactive tabu characterised as steepest descent (relation `descent` in Spec.v). On several islands (C31) the loop starts with what other islands or earlier fits recorded; those labellings use other region names and so are never met again (`P_Islands.v`).
* C33-C38, C62, C66-C68, C84, C92-C95: max-p construction, enclave assignment, local search with the nested strategy wrappers.
* C39: a small machine for the process-global generator.
* C40-C46: SKATER on edge-list forests.
* C47-C56, C73-C76: each MIP is a record of integer variables, the conjunction of the bounds and
  constraints the loops generate (in code order) and a cost; the solver's answer is any reading of an
  assignment (`reports`), feasible or optimal; soundness and completeness of the decoders, existence of
  optimal assignments.
* C57-C61, C63, C77-C83: input conversion on association lists with distinct keys; area names are integers
  (only hashing, equality and `sorted` are applied to names).

Every property above is expressible; where the code violates a property the theorem is named
`..._refuted` and the provable part `..._partial`.

## 4. Trusted base

Coq 8.16.1's kernel; `Print Assumptions` output per theorem is listed in section 5 (goal: closed
under the global context everywhere); the reading of the Python source documented at each definition.

Numbers are rationals, except in `M_MaxPInt.v` (amounts in an integer type, columns only: for a one-dimensional array the type of Python's
`sum` depends on the numpy version) and in `M_Float.v`, `M_FloatMaxP.v` and `M_FloatSa.v`: there `+` and `-` of the pairwise objective, of the
AZP and annealing strategies and of the max-p heuristic with AZP as local search round, in an arbitrary way or as double precision does
(C117-C122, C131, C132; in annealing `math.exp(-diff / t)` and the cooling step are arbitrary total functions; the tabu searches use
the value of the objective only through `update`, so their model with the rounded objective is the rounded program; overflow gives the largest number, not infinity).  The theorems about
any strategy or any objective (C18, C21, C23 among others) hold for rounded arithmetic as they stand.

Missing (NaN or infinite) attribute values are modelled for the metrics of sklearn, which reject them with ValueError (`check_array`); this behaviour
of sklearn is trusted. A metric written by the user, or one that accepts NaN, is not covered.

Not modelled: floating point rounding elsewhere, NaN/inf data elsewhere, numpy dtype casts and memory layout, printing,
timing, geopandas/libpysal geometry, the inside of the MIP solvers, solver tolerances and statuses.

## 5. What `Print Assumptions` lists

Every property theorem in `Props_*.v` is followed by `Print Assumptions`; each answers "Closed under
the global context".  No axiom of the standard library or of anyone else is used.  (Tools that list
every axiom present in a loaded library also show seven of `Coq.ssr.ssrunder`; they come with the
standard library files behind `lia`/`lra` and no theorem depends on them.)

## 6. What is modelled, file by file

| source | modelled | left out or simplified |
| --- | --- | --- |
| `csgraph_utils.py` | all functions | |
| `util.py` | all functions except `copy_func` and the geometry behind `w_from_gdf` | a `W` is its areas in order and their neighbours; `str.lower` on ASCII characters; attribute values of nodes are numbers; 0-area inputs of `scipy_sparse_matrix_from_dict`; duplicate column names |
| `objective_function.py` | both classes, all reductions | rows of one length |
| `p_regions/azp_util.py` | all strategies and wrappers | |
| `p_regions/azp.py` | `AZP`, `AZPSimulatedAnnealing`, `AZPTabu`, `AZPBasicTabu`, `AZPReactiveTabu` | the order in which a Python set is enumerated is absorbed by the oracle; the reseeding of the generator by each annealing run is absorbed by the arbitrary oracle, except in `M_Random.v` |
| `p_regions/exact.py` | the three models, the decoders, argument checks | the solver: any reading of an assignment; `lpSum` flattening its argument; a scalar attribute is a one-column array |
| `max_p_regions/heuristics.py` | the whole class, with AZP, annealing and both tabu classes as local search | a number as threshold is an array with one entry; numpy's comparison of one threshold with several attributes or of several with one is modelled, arrays of other different lengths are not |
| `max_p_regions/exact.py` | the model, the decoder, argument checks | as for `p_regions/exact.py` |
| `skater/skater.py` | `Spanning_Forest` | `minimum_spanning_tree` keeps, of the non-zero entries in any order (sorted by value for C105, C106), those that close no cycle; `W` objects are adjacency patterns; printed output is dropped |
| the global generator of `random` | `M_Random.v`: histories of constructions and fits (`AZP` with the default strategy, `AZPSimulatedAnnealing`, `AZPBasicTabu`, `AZPReactiveTabu`, `MaxPRegionsHeu`) with the seeding done by each | what `random.seed(s)` installs is an arbitrary function of s; a construction or fit that raises ends the history |
