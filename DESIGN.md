# Design

Subject: the Python sources in /repo (mggg/GerryChain at the pinned commit), read as text.
Tool: Rocq/Coq 8.16.1, sources in `rocq/theories`, logical name `Verif`.

## Approach

* Every modelled Python function is a total Gallina function. Its comment cites the file and lines it models and says where it simplifies.
* Exceptions are values (`Err e`). Unbounded loops take fuel; running out of fuel is a separate outcome (`NoFuel`) that is never confused with a Python outcome.
* Randomness, user callbacks and external libraries (networkx, numpy, geometry) are function arguments; theorems quantify over them, or over all those meeting a stated contract.
* Python dictionaries are association lists in insertion order; sets are duplicate-free lists. Statements about sets only use membership, so iteration order does not matter.
* Node and district labels are arbitrary types with decidable equality (and a total order where the code sorts).
* Numbers are exact: integers, rationals, reals, or an arbitrary commutative ring. Floating-point rounding is not modelled.
* Parent links, caches and shared dictionaries are modelled as heap cells where sharing or mutation is what the property is about.

## Files

`M_*.v` model, `S_*.v` specification, `L_*.v` lemmas, `P_*.v` property theorems with non-vacuity examples and `Print Assumptions`.

## Plan per property

* **C01** Assignments stay consistent under any flip history. Model Assignment (parts dict + mapping dict), flows_from_changes and update_flows; prove the coherence invariant is preserved by one flip and lift by induction over lists of flips.
* **C02** flip has exactly the requested effect. Same model; the flip result's mapping is the pointwise override. The parent is a heap object; frame lemma that flip only allocates.
* **C03** flip raises KeyError exactly on unknown nodes or unknown districts. Same model, exceptions as values; iff characterisation of the KeyError outcome.
* **C04** District labels are neither created nor destroyed by flips. Same model; key list of parts unchanged by update_flows; induction over histories.
* **C05** Assignment.from_dict round trip. Model level_sets and Assignment.__init__; prove lookup equality and level-set characterisation for every duplicate-free-key dictionary.
* **C06** Assignment rejects overlapping parts and only those. Model the size comparison of __init__; prove sum of sizes = size of union iff pairwise disjoint.
* **C07** A plan must label exactly the graph's nodes. Model _first_time's comparison of node sets; iff.
* **C08** cut_edges always equals recomputation from scratch. Heap machine (objects with mutable parent link and cache; operations flip/get/erase). Invariant: every cached value meets its specification on the object's assignment; induction over operation lists.
* **C09** cut_edges_by_part always equals recomputation from scratch. Same machine; specification of edge flows, set algebra.
* **C10** Tallies always equal the sum over the district's nodes. Same machine over an arbitrary commutative ring of values plus NaN; sum-over-filter lemmas. Explicit counterexample for the vanished district.
* **C11** The total of a tally is conserved along any history. Corollary of C10 plus a sum-over-parts lemma.
* **C12** NaN node data is ignored initially but poisons incremental tallies. Same Tally functions with NaN; universal lemma on NaN absorption plus witness.
* **C13** Boundary lengths and perimeters always equal recomputation. Same machine; exterior/interior boundaries and perimeter as node and edge sums.
* **C14** Reading updaters is repeatable and order-insensitive. Machine frame lemma: cached entries are stable and assignments never change.
* **C15** county_splits describes the current plan. Same machine with the county updater; set specification.
* **C16** Split flags: NEW_SPLIT never matures to OLD_SPLIT while the parent chain is read eagerly. Same functions; universal lemma for the NEW_SPLIT persistence, refutation of the documented reading.
* **C17** refuse_new_splits keeps the set of split counties from growing. Induction over validated histories with the county updater.
* **C18** Election totals always equal the sums over the district's nodes. Same machine; Election as one DataTally per party.
* **C19** Winning a district means strictly beating every other party. Model won/seats over integer vote tables.
* **C20** Vote shares are a probability distribution. Model get_percents over Q; exact rational arithmetic.
* **C21** Updaters given to one plan leak into every other plan of the class. Small heap of dictionaries: class-level dictionary cell shared by objects; induction over construction lists.
* **C22** A string-keyed DataTally is bound to the first graph it sees. Model DataTally's data cell as state threaded through calls on two graphs.
* **C23** LocalitySplits results are overwritten by later reads. Model the scores dictionary as one cell; objects hold its address.
* **C24** Validator is the short-circuit conjunction of its constraints. Model Validator.__call__ with constraint outcomes True/False/non-bool/raise.
* **C25** Bounds hold for every value. Model min/max based checks over Q.
* **C26** The population constraint bounds every district along the whole chain. Combine Bounds model with the Tally theorem and total conservation.
* **C27** Self-configuring bounds are fixed by their first call unless that value is zero. State machine with option bound; induction over call lists.
* **C28** WithinPercentRangeOfBounds enforces the range of the first call unless a bound is zero. State machine with two option bounds; induction over call lists.
* **C29** contiguous accepts exactly the plans all of whose districts are connected. Graph model with path connectivity; locality lemma: unaffected districts have the same node set.
* **C30** contiguous_bfs decides connectivity. Model _bfs with fuel; prove termination within fuel and equivalence with path connectivity.
* **C31** single_flip_contiguous is exact for one flip to an adjacent district. Model are_reachable use with an oracle start neighbour; graph-theoretic argument that neighbours of the removed node being mutually reachable implies connectivity.
* **C32** are_reachable decides reachability while avoiding edges. Model with an explicit priority queue and fuel; invariant of the search.
* **C33** no_vanishing_districts prevents empty districts along a chain. Induction over histories.
* **C34** A one-shot iterable of constraints is enforced only once. Model the iterable as reusable list or one-shot stream.
* **C35** A chain yields exactly total_steps plans. Chain as a state machine in a world-passing monad with arbitrary proposal/validator/accept; induction on steps.
* **C36** Every yielded plan is valid. Same; ghost log of validator answers.
* **C37** Each step keeps the plan or moves to an accepted valid proposal. Same.
* **C38** Iterating again restarts the chain. Same.
* **C39** A chain retains at most one ancestor per plan. Chain instantiated on the heap machine; ancestry-depth invariant.
* **C40** An empty district silently ends a chain that uses contiguous_bfs. Chain with a validator returning StopIteration; for-loop semantics.
* **C41** Replacing the constraints of a running chain. Same model with the constraints setter.
* **C42** propose_random_flip moves one boundary node to an adjacent district. Model with choice oracle returning an arbitrary member.
* **C43** Chunk and every-district flips only move boundary material to adjacent districts. Model with choice oracles.
* **C44** slow_reversible_propose enumerates each single move once. Model the list of pairs; membership and NoDup.
* **C45** The metagraph neighbourhood is sound and complete but the degree over-counts. Model the generator as a list; count lemma.
* **C46** ReCom only redraws the two merged districts. Model recom around an arbitrary method; uses C55.
* **C47** ReCom can loop forever instead of raising MetagraphError. Model the pair-selection loop with fuel and an arbitrary infinite choice stream.
* **C48** reversible_recom's move probability is well defined. Model with oracle for cuts; rational arithmetic.
* **C49** cut_edge_accept favours fewer cut edges, contrary to its documentation. Model over Q.
* **C50** Balanced cuts found by memoization are exactly the balanced tree edges. Model bfs predecessors/successors, _calc_pops, _part_nodes with fuel; rooted-tree lemmas.
* **C51** Contraction and memoization find the same cuts. Model the leaf-contraction loop; equality of edge sets.
* **C52** uniform_spanning_tree returns a spanning tree. Model Wilson's algorithm with a walk stream; invariant of next-pointers.
* **C53** bipartition_tree returns a balanced connected side or a documented error. Attempt loop with oracles for trees and choices; uses C50.
* **C54** bipartition_tree_random ignores one_sided_cut=False. Model the partial application that forces one_sided_cut; explicit path graph.
* **C55** epsilon_tree_bipartition splits into two balanced districts or raises. Model around an arbitrary method.
* **C56** recursive_tree_part returns a complete balanced plan or raises. Loop over labels around an arbitrary method; induction.
* **C57** The population debt of recursive_tree_part stays within tolerance. Loop invariant over Q.
* **C58** get_max_prime_factor_less_than is correct. Trial-division loop over Z with fuel; Znumtheory.
* **C59** recursive_seed_part returns a partition into balanced districts. Recursion with fuel around an arbitrary method.
* **C60** Two-node trees crash the cut search. Degree argument on trees.
* **C61** recursive_tree_part corrupts a frozen graph's node set. Heap cell for the node set; aliasing flag for the cached property.
* **C62** Weighted cut choice is optimal and prefers region cuts. Model over lists of cuts with Q weights.
* **C63** The optimizer's best score is the optimum of what it has processed. Generator as a state machine with explicit suspension points.
* **C64** short_bursts yields burst_length*num_bursts plans and restarts from the best. Same.
* **C65** variable_length_short_bursts never lengthens its bursts. Same; invariant time_stuck < burst_length.
* **C66** Improvements are always accepted. Tilted over Q, annealing over R with exp.
* **C67** Temperature schedules stay in [0,1] and repeat. Over Q for the piecewise linear schedules, over R for the logit ones.
* **C68** The annealing clock counts accepted moves, not chain steps. Annealing run model with the lazily cached step updater.
* **C69** Gingleator scores rank by number of opportunity districts. Over Q.
* **C70** Two Gingleators interfere. Shared-dictionary heap of C21.
* **C71** Efficiency gap: wasted votes add to half the votes. Over Q.
* **C72** Partisan Gini: symmetric, below 2, and within [0,1] for equal turnout only. Over Q with sorted lists.
* **C73** Mean-median, mean-thirdian and partisan bias are well defined. Over Q with sorted lists.
* **C74** Diversity statistics count distinct plans and districts. Set-of-sets model; graph lemma on contiguous plans.
* **C75** Locality scores measure what they say. Counting lemmas.
* **C76** Locality entropy scores crash on non-string localities. Model of the str() key lookup.
* **C77** Region split counts agree with their meaning on connected regions. Counting lemma plus connectivity lemma.
* **C78** Grids have the stated structure. Concrete grid generator over Z x Z.
* **C79** Grid perimeters are geometric. Grid model plus perimeter specification.
* **C80** Graph.join and add_data only write the requested data. Graph.join/add_data function by function over an association-list attribute store and a column-oriented table (M_GraphData.v); theorems against the last row with a label.
* **C81** Rook adjacency is contained in queen adjacency and is symmetric. Geometry library as a record of functions with laws; queen/rook dictionaries and networkx's dict-of-dicts constructor modelled (M_Geo.v).
* **C82** Boundary lengths from geometries account for every unit's perimeter. add_boundary_perimeters modelled; sums over units and edges, combined with C13 for all histories.
* **C83** num_spanning_trees counts the spanning trees of each district. Integer determinants; weighted matrix-tree theorem by deletion-contraction on the edge list; column exchange for the off-diagonal minor.
* **C84** UTM zones. Over Q with floor.
* **C85** districts_within_tolerance compares the spread with the smallest district. Over Q, lists of values.
* **C86** Deviations from the ideal sum to zero. Over Q.
* **C87** no_more_discontiguous is configured once per process. Call history of the self-configuring bound, counts as naturals.
* **C88** Nested loops over one chain share its counter. Chain iterator model; two loops over the same state.
* **C89** Construction with an invalid initial plan. Chain constructor model with arbitrary constraints; `named` tells whether a constraint has `__name__`.
* **C90** contiguous_components splits districts into their connected pieces. connected_components modelled as networkx does it (repeated breadth-first searches); invariant: the components found so far are closed under reachability.
* **C91** number_of_contiguous_parts counts the connected districts. Fold over the labels with the connectivity test; per-district test lemma shared with C29.
* **C92** propose_any_node_flip moves at most one node to an existing district. Proposal model on the heap machine with the draws as arguments.
* **C93** random_spanning_tree returns a spanning tree of minimum weight. Kruskal on the sorted edges with a union map; exchange argument by counting edges below each weight.
* **C94** Entropy scores of locality splits. Scores over R with ln, Rpower and sqrt; sums of non-negative terms and Cauchy-style bound per cell.
* **C95** LocalitySplits is bound to the localities of the first plan read. Object model of the updater with its fields; invariant over all reads that the dictionary is the first plan's.
* **C96** Building a graph from a table of geometries: what is refused and what is stored. from_geodataframe modelled step by step over M_Geo.v and M_GraphData.v; exact condition of each exception and exact content of the result.
* **C97** spectral_recom: what it redraws, connectivity, and the weights it leaves behind. Laplacians, eigenvectors and the cut modelled over the reals with eigh and the set order as arguments; Fiedler's nodal theorem proved from the variational form of the second eigenvalue (L_Fiedler.v, L_Spectral.v); the proposal on the plan machine like recom.
* **C98** reversible_recom is in detailed balance with the spanning tree distribution. No new model. A spanning tree that splits as the new districts is a pair of trees of the districts plus an edge between them (bijection, L_Seam.v); both cut searches report that edge exactly once; C48 gives the acceptance threshold; the threshold is summed over trees and cuts in Q. Probabilities are stated as sums over the listed trees, cuts and the interval of the uniform draw. That uniform_spanning_tree is uniform is C99.
* **C99** uniform_spanning_tree draws every spanning tree with the same probability. The model of uniform_spanning_tree also returns the number of draws it consumed. Wilson's cycle popping argument: the run reads stacks of draws attached to the nodes, each erased loop is a popped cycle, the popping order does not matter (L_Popping.v), so exchanging the last draw of every node gives a bijection between the draws that return one tree and those that return another (L_WilsonRuns.v, L_Uniform.v). Ending: from every state some continuation of bounded length ends. Draws are uniform on [0, D) with D a multiple of every degree, so that the choice of a neighbour is uniform.
* **C100** random_spanning_tree: which trees can occur, regions stay joined, and it is not uniform. Kruskal's algorithm on the weights in the model of random_spanning_tree. Levels: the edges up to a weight are a prefix of the sorted list, and Kruskal joins whatever a prefix joins. Support: the counting argument of C93 at the heaviest edge of the tree. The refutation of uniformity counts all orders of five edges, the list of orders being proved complete and without repetition.
* **C101** The law of a chain step when invalid proposals are redrawn. The model of MarkovChain.__next__ with a proposal that reads one draw per call. A word of n draws arrives at y iff the first valid draw does; counting such words gives a geometric sum, whose limit is hits/goods. Detailed balance and stationarity follow with weight times goods; a three-plan row with a symmetric proposal refutes the uniform distribution.
* **C102** How likely the flip proposals are to propose a given plan, and what they are in balance with. Counting draws in the heap model of the proposals. A draw is an index into the duplicate-free list of cut edges and an orientation; the draws that move n to q are in bijection with the neighbours of n in q (cut edges are sorted pairs). The acceptance bound of C49 with random.random() on a grid gives the exact fraction accepted. A kite graph refutes the uniform distribution for both proposals.
* **C103** What Polsby-Popper scores and the compactness constraints guarantee. M_Compact.v models the scores over the heap of plans (area and perimeter are read through the updaters, so C10 and C13 give the exact quantities) and the norms over reals with NaN. L_Isoperimetric.v proves 16 * area <= perimeter^2 for every finite set of cells, with equality exactly for squares, by counting exposed sides per occupied row and column. The constraints are a fold over the plans of a process with the bound as state.
* **C104** Which distribution ordinary recom with exact balance is in detailed balance with. P_RecomLaw.v. Outcomes are pairs (drawn edge, list of m trees), each counted once (uniform trees: C99 for the random walk sampler). A tree hits a split iff its one balanced edge crosses it; the hitting trees are counted by the seam lemma of C98; words with a first hit are counted by a geometric sum; the drawn edge by the pair counting lemma. The balance equation then follows by cancellation. The refutation counts by the same theorem and by determinants (C83).
* **C105** An assignment made by from_dict or copy is private; one made from the caller's dictionaries is not. M_Assignment.v: a store with the dictionaries as addresses; the commands are the constructor, from_dict, copy, update_flows, update_parts and writes by the caller. C105_frame: induction on the command list with the invariant that no other object has the new object's addresses. C105_flip: the heap version of a flip equals flip_assignment of M_Partition. Two refutations by concrete command lists.
* **C106** What update_parts does, and exactly when it leaves parts and mapping in agreement. M_Assignment.v parts_run. C106_effect by induction on the new parts; C106_consistent is an equivalence; C106_coherent gives the full invariant back; C106_orphan_refuted is a concrete replacement that loses a node.
* **C107** Reading an assignment and building a plan from an attribute, a mapping, an assignment or a Districtr file. M_Assignment.v reads, get_assignment, new_plan, from_districtr. From from_dict_spec, flip_outcome and flip_district; lists of pairs by induction.
* **C108** A plan freezes the graph it is given: the structure is fixed for good, attributes are not, and lookup can be out of date. M_Frozen.v: graphs, FrozenGraphs and the three lru_caches as objects of a store; a program is a list of statements. Invariants: a held graph is frozen; cached neighbours and degrees are right; a cached attribute was current at some prefix. lru facts: a key survives while fewer than the size other keys are used, and is gone after that many.
* **C109** plan.subgraphs[p] is the subgraph induced by district p. M_Frozen.v NewView, ViewGet, SetPartOf. Invariant: a cached object shows the nodes of its part. C109_sticks and the refutation for rewritten parts.
* **C110** Saving a graph as JSON and loading it gives the same graph, and exactly what is lost otherwise. M_Json.v: values, keys and nodes as Python objects of the kinds json distinguishes; the file as JSON trees; adjacency_data, adjacency_graph and Graph(graph) as networkx documents them, with ordered adjacency. Values by induction on nested values; the rebuild by an invariant that gives each node's neighbours as the set of ends of the pairs seen so far; save and load is rebuild of a described graph, which is the graph itself when it is clean.
* **C111** Attributes of a plan are its updaters, except for reserved names; missing ones raise KeyError. M_Attribute.v: Python's attribute rules (slots and properties, object, class, __getattr__) with the mutual calls of __getattr__ and __getitem__ as one recursion on fuel; divergence is running out for every fuel.
* **C112** What a chain does after an interrupt or an exception in the middle of a step. M_Interrupt.v: __next__ statement by statement as a small-step machine; running it to the end is next of M_Chain; a cut is the state after any number of statements; histories as an inductive relation. Proof by an invariant over program points and by induction on histories.
* **C113** Chains of recom and of reversible_recom keep districts connected and balanced without any constraint. M_Script.v: recom and reversible_recom as chain proposals with the random state threaded through the run. One step redraws two districts or returns the plan (C46, C48); induction along the run of the chain with the invariant 'same labels, connected if the first was, each district untouched or in balance'.
* **C114** Which plans a chain of flips or recombinations can and cannot reach. M_Script.fed feeds a proposal of M_Proposals from a list of draws kept in the world of the chain. L_Run proves once that what every proposal preserves holds along a whole chain, and that a chain without constraints walks any path whose single steps some draws can make; P_Reach instantiates both. The recombination counterexample is an invariant of redrawing two districts of the six-cycle (nodes 0-1, 2-3 and 4-5 stay together), proved for every proposal that redraws two districts into connected balanced ones, which C113 shows of recom and reversible_recom.
* **C115** What an updater replies does not depend on what was read before. The machine of M_Machine.v (heap of plans with parents and caches; operations flip, read, look up, erase the parent). S_Reads.v says when two replies are the same. L_Reads.v proves with a relational logic that two runs of an updater on heaps that agree up to filled-in caches and inserted defaults reply the same and stay related.
* **C116** A read that is cut short leaves nothing wrong behind. M_Abort.v lists, per updater, the changes a run makes to existing objects in program order (nested reads that store, look-ups that insert) and defines the memory left by a read cut short at any moment. The list is tied to the machine of M_Machine.v: a read that goes through makes exactly the listed changes and then stores its value (C116_last_moment; L_Abort.v proves that reads commute with look-ups, which justifies the hoisted reads of M_Machine.run, and that fuel does not matter). Every cut-short read is then a list of ordinary reads and look-ups, so C115 applies.
* **C117** The coordinate reference system a graph records. M_Crs.v adds the coordinate reference system to the model of from_geodataframe: a table with an optional system, reprojected and set_crs after geopandas' documented behaviour, the caller's table as a second result, and from_file on top. P_Crs.v shows that the graph and node data are those of C96 and describes the record, the caller's table and the outcome; four refutations on concrete tables.
* **C118** Warnings of from_geodataframe name what is wrong. M_Crs.v lists the warnings a successful call issues. P_Crs.v characterises each kind by the table and the graph, using C81 for islands and overlaps; a refutation for columns not asked for.
* **C119** reversible_recom leaves the spanning tree distribution on plans invariant. P_Stationary.v on top of C98: `law x Pr v` averages the final-number probability over the pair, tree and cut draws; plans are compared through the family of their districts (L_Pieces.v). Every draw either keeps the plan or moves below a threshold to one new valid plan, so rows sum to 1; a plan with other districts can only be reached through the two orders of one pair, which gives the transition probability from C98_chance; union connectedness makes adjacency of the pair symmetric, so flows balance and stationarity follows by summing. Uniform spanning trees are an assumption here (C99).
* **C120** What best_part and best_score report when several runs of one optimizer are mixed, interrupted or fail. M_Runs.v models the runs statement by statement as generators over shared attributes; a history is any interleaving of requests, resumptions, failures and interrupts, with a trace of the calls of the score function. P_Runs.v: an invariant for every statement, relating the attributes to the calls since the last start, is preserved by every event; the specification (the last of the best of a list) does not mention the model. Three concrete histories refute the stronger claims. P_Alone.v: a run that nobody interferes with refines the function of M_Optimize.v for its kind, by simulation of the loops, if the constraints are not a one-shot iterator.
* **C121** How long a plan's answers survive changes to the dictionary it was flipped with. M_Flips.v models dictionaries as mutable objects of the caller, plans that refer to them, and the two caches of size two. P_Flips.v: one invariant of every program (identities in the caches are known, parents are older, assignments coherent) gives (1) and (2); a second one, preserved while dictionaries in use are left alone, says that every cache entry and kept value is what it would be if computed now, which gives (3) by induction along the parents; (4) follows the two caches through at most one insertion. Concrete programs refute the claims beyond these bounds.
* **C122** The pieces LocalitySplits allows a locality are those of the first plan. M_Locality.v models __call__ with the state of the object. Induct over the list of reads with the invariant that the localities are bound to the first plan; the ceiling is characterised by integer inequalities.
* **C123** Long runs of reversible_recom approach the spanning tree distribution. On top of the law of a call (C119): a call stays with positive chance because the same district may be drawn twice; a move has positive chance because connected districts have spanning trees (Kruskal's result is one). Some power of the transition table is then positive everywhere, which contracts the distance to the invariant distribution (L_Converge.v, over the rationals).
* **C124** What the plans of a long chain look like when invalid proposals are redrawn. The loop over the chain is computed as a function of the list of draws; the number of words of n draws that lead to y satisfies a recurrence in n and k whose solution tends to the k-fold product of the step probabilities (a linear recurrence with ratio below 1). The averages converge for every irreducible kernel: compare the kernel with its lazy version (L_Average.v), which converges geometrically (L_Converge.v).
* **C125** The averages a user takes over one long run of a chain. The law of the list of the first k plans is the product of the step probabilities (same recurrence as C124, on lists). The variance of the sum of a statistic along a path grows more slowly than k^2: the cross terms are means of later sums, which are small compared with k by the averages of C124, uniformly in the start. Chebyshev's inequality gives the share of runs.
* **C126** What a chain of propose_any_node_flip samples. The chain of plan objects (flip, erasure of the grandparent link, caches) is simulated by a chain on lists of node and district; one number below nodes times districts gives both choices of a call. Between two different plans there is at most one such number each way, so the proposal is balanced with weight 1 and C125 applies; the numbers of valid draws are the numbers of allowed moves.
* **C127** What a chain of slow_reversible_propose samples. The chain of plan objects (read of cut_edges through the caches, flip, erasure of the grandparent link) is simulated by a chain on lists of node and district. A run is a list of numbers below a common multiple D of the numbers of moves of the plans, so that each call chooses uniformly among its moves; the order of the set of moves, which depends on the history, is removed by counting runs. The chain is balanced with the number of moves of a plan as weight, and C125 applies.
* **C128** What a chain of slow_reversible_propose with cut_edge_accept samples. As C127, with one number per attempt below D*M: the quotient by M chooses the move, the rest over M is the value of random.random(), where M is a common multiple of the numbers of cut edges. The parent link that cut_edge_accept reads is followed through the flip, the erasure of the grandparent and the constraints. The chain on plans is balanced with the number of moves over the number of cut edges as weight, and C125 applies.
* **C129** What a chain of slow_reversible_propose_bi samples. As C127, with one number below B*B per attempt for the two choices of a call: quotient and rest by B choose the node and the district, where B is a common multiple of the numbers of boundary nodes and of choices per node. A move of a node leaves the districts next to it as they are, so that the node has as many choices before as after; the chain on plans is balanced with the number of boundary nodes as weight, and C125 applies.
* **C130** The order in which sets are listed does not matter for likelihoods, but it does for a seed. M_Orders repeats the proposals with a function for the order at every place where a set is listed. Two permutations of a list of length c, with draws below a multiple of c, differ by a renaming of the draws. For runs: a chain whose calls are those of another one up to a renaming of the draw of each step, which may depend on the whole heap, has the same number of draw lists for each event (induction on the draws, through the chain on plans of C127 and C129).
* **C131** Updaters written with on_flow and on_edge_flow are right on every plan. M_UserFlow has plan objects with the slots these updaters use, the two decorators over arbitrary user functions, and reading with the cache and the walk to the parent. The meaning of a right value is a relation given by the user. Invariant on all objects: flows say exactly what came and left since the parent, cached values are right, and an object without parent has a value or is one the initializer is right for. Counts of and sums over nodes and cut edges are proved to meet the hypotheses on every graph.
* **C132** Plans share the values of updaters made with on_flow and on_edge_flow. M_SharedValues repeats the two decorators with values as positions in a store; the function appends a new object or overwrites the previous one. Reads extend the store (induction on the walk to the parent). The positions in the new dictionary are those of the old one except for parts with a flow, and these are the districts whose nodes, or cut edges, changed.
* **C133** Arguments and hemispheres of UTM conversions. M_UtmBack models the checks of both functions in their order, with Python's comparison of strings, and the offsets; the series are arguments. Acceptance by cases against a specification in terms of first characters (facts about one character are checked for all 256). There and back from the band letters of C84.

## Trusted base

* Coq's kernel (8.16.1). No plugin, no check switched off, no axiom declared here, nothing admitted.
* The axioms that `Print Assumptions` lists for the theorems (next section). They all come from the standard library's real numbers.
* The reading of the Python code that the model comments record. The code was read as text and never run.
* The contracts assumed of external libraries, written as hypotheses or as model arguments: networkx graph queries, numpy linear algebra, shapely and pandas operations, Python's random module, JSON encoding.

## What Print Assumptions lists

Closed under the global context (536 theorems):

C01_history_consistent, C02_flip_effect, C02_parent_untouched, C02_child_districts, C03_flip_keyerror_iff, C04_labels_constant, C05_from_dict_roundtrip, C06_init_rejects_exactly_overlaps, C07_labels_exactly_the_nodes, C08_cut_edges, C09_cut_edges_by_part, C10_tally, C10_tally_total, C10_data_tally, C10_data_tally_total, C10_vanished_entry_is_zero, C10_carried_over_entries, C10_recomputed_entries, C10_flip_into_missing_keyerror, C11_total_conserved, C11_data_total_conserved, C12_first_tally_skips_nan, C12_moving_nan_poisons, C12_carried_over_equals_recomputed_refuted, C13_exterior_boundaries, C13_exterior_boundaries_as_a_set, C13_interior_boundaries, C13_perimeter, C14_repeatable_reads, C14_reads_change_no_assignment, C14_literal_equality_refuted, C15_county_splits_content, C16_flags_without_parent, C16_flag_rule, C16_new_split_sticks, C16_new_split_means_unsplit_before_refuted, C16_flag_depends_on_erasure_refuted, C17_no_new_splits_ever, C17_check_after_erasure_refuted, C18_election, C18_election_total, C18_empty_district_refuted, C19_won, C19_at_most_one_winner, C19_winner_iff_unique_maximum, C19_tie_elects_nobody, C19_seats, C19_seats_bounded, C20_shares, C20_no_votes_nan, C20_overall_share, C20_no_votes_at_all, C21_updaters, C21_leak, C21_union, C21_isolated, C21_isolation_refuted, C21_grid_ignores_new_updater_refuted, C22_bound, C22_missing_attribute, C22_totals, C22_unknown_node, C22_child_first, C22_second_graph_refuted, C24_validator, C25_bounds, C25_one_sided, C25_iterator_never_accepted, C26_population_constraint, C27_upper_fixed_by_first_call, C27_lower_fixed_by_first_call, C27_upper_zero_reconfigures, C27_lower_zero_reconfigures, C27_zero_bound_refuted, C28_range_fixed_by_first_call, C28_zero_bound_reconfigures, C28_percent_100_accepts_everything, C28_negative_value_rejects_everything, C29_contiguous_child, C29_contiguous_root, C29_contiguous_object, C29_chain_stays_contiguous, C29_erased_parent_refuted, C30_contiguous_bfs_child, C30_contiguous_bfs_root, C30_empty_district_raises, C31_single_flip, C31_no_flips, C31_not_adjacent_refuted, C31_two_flips_refuted, C31_no_op_flip_refuted, C32_are_reachable, C33_no_vanishing_districts, C33_no_empty_district_ever, C34_reusable, C34_one_shot, C34_one_shot_enforcement_refuted, C35_chain_length, C35_chain_finishes, C35_length_for_nonpositive_refuted, C35_all_invalid_runs_forever, C36_yielded_plans_are_valid, C36_yielded_plans_satisfy, C37_steps, C38_restart, C39_one_ancestor, C40_stop_iteration_ends_the_loop, C40_stop_iteration_at_any_step, C40_step_count_refuted, C41_setter, C41_setter_error, C41_after_setter, C41_current_plan_may_violate_refuted, C42_no_cut_edges, C42_random_flip, C42_every_move_possible, C43_chunk_flip, C43_chunk_no_cut_edges, C43_every_district, C43_chosen_node_moves_refuted, C43_every_district_history_refuted, C44_moves, C44_reversible, C44_bi, C44_bi_fails_refuted, C45_all_cut_edge_flips, C45_flips_are_boundary_moves, C45_metagraph, C45_degree_counts_distinct_plans_refuted, C46_sound, C46_errors, C47_few_parts, C47_raises, C47_never_terminates, C47_raises_refuted, C48_self_loop, C48_outcome, bounded_search, C49_root, C49_cut_edge_accept, C49_growth_always_accepted_refuted, C49_zero_cut_edges_refuted, C50_sides, C50_memoization_two_sided, C50_memoization_one_sided, C51_contraction_two_sided, C51_same_edges, C51_contraction_one_sided, C51_one_sided_same_edges_refuted, C51_one_sided_equality_refuted, C52_uniform_spanning_tree, C52_one_node_refuted, C53_memoization_search, C53_contraction_search, C53_sound, C53_attempts, C53_unbounded, C54_always_one_sided, C54_sound, C54_attempts, C54_single_try, C54_complement_refuted, C54_recom_refuted, C55_sound, C55_errors, C56_sound, C56_one_part_refuted, C56_bipartition_tree, C57_debt, C58_largest_prime_factor, C58_zero, C59_sound, C59_one_part, C59_bipartition_tree, C60_small_trees, C60_root_choice, C60_bipartition, C60_recom, C60_recom_refuted, C61_plain, C61_frozen, C61_preserved_refuted, C61_random_plain, C61_random_frozen_refuted, C62_max_weight, C62_region_preferred, C62_no_regions, C62_no_surcharge, C63_short_bursts, C63_single_run, C63_variable_length, C63_tilted, C63_never_worse, C63_best_of_all, C63_during_the_run_refuted, C64_short_bursts, C64_single_run, C64_tilted, C64_finishes, C65_never_longer, C65_count, C65_zero_buffer, C65_doubling_refuted, C66_tilted, C66_tilted_root, C66_tilted_raises, C67_jumpcycle, C67_linearcycle, C67_linear_jumpcycle, C69_number, C69_reward_partial, C69_reward_close, C69_penalize_maximum, C69_penalize_average, C69_more_districts, C69_percentages, C69_all_opportunity_refuted, C70_interference, C70_no_interference, C70_scored_stays, C70_first_gingleator_refuted, C71_wasted_votes, C71_efficiency_gap, C71_antisymmetric, C71_equal_turnout, C71_tie_refuted, C71_not_two_parties, C71_nobody_voted, C72_gini_range, C72_gini_symmetric, C72_gini_equal_turnout, C72_gini_above_one_refuted, C72_gini_nobody_voted, C73_median_splits, C73_mean_median_antisymmetric, C73_mean_thirdian, C73_partisan_bias, C73_empty_district, C74_counts, C74_length, C74_contiguous, C74_at_most, C74_not_contiguous_refuted, C75_num_parts, C75_num_split_localities, C75_naked_boundary, C75_num_pieces, C77_counts_cut_regions, C77_split_regions, C77_lower_bound, C77_updater, C77_disconnected_refuted, C78_nodes, C78_edges, C78_graph, C78_edge_number, C78_default_assignment, C78_given_assignment, C78_color_half, C78_default_contiguous, C78_updaters, C78_population, C78_population_total, C78_rows, C78_user_updater_refuted, C78_documented_rows_refuted, C78_documented_shape_refuted, C78_one_row_default_refuted, C79_perimeter, C79_one_row_refuted, C79_attributes, C80_join, C80_join_defined, C80_add_data, C80_add_data_defined, C80_columns_ignored_refuted, C81_queen, C81_rook, C81_contained, C81_kinds, C81_overlaps, C81_islands, C82_unit, C82_district, C82_outline, C83_weighted, C83_count, C83_any_column, C83_disconnected, C83_updater, C83_single_node_refuted, C84_zone_range, C84_zone_near, C84_svalbard, C84_letter, C84_no_letter, C84_antimeridian_refuted, C84_identify, C84_identify_empty, C84_identify_total, C84_accepted, C84_identify_off_the_map, C85_within_tolerance, C85_monotone_refuted, C86_deviation, C87_shared_bound, C87_fresh_chain_accepts_its_own_start_refuted, C88_nested_loops_interfere, C88_outer_loop, C89_invalid_initial_plan, C89_validator_object_attribute_error, C89_later_constraint_masks_error_refuted, C90_contiguous_components, C91_number_of_contiguous_parts, C92_any_node_flip, C93_random_spanning_tree, C93_errors, C96_refused, C96_outcome, C96_stored, C96_ignore_errors_refuted, C96_area_refuted, C98_chance, C98_unique, C98_detailed_balance, C98_other_pair, seam_count, C99_uniform, C99_limit, C100_support, C100_levels, C100_regions, C100_order, C100_uniform_refuted, C101_count, C101_law, C101_balance, C101_stationary, C101_uniform_refuted, C102_random_flip, C102_accepted, C102_metropolis, C102_slow, C102_slow_balance, C102_bi, C102_any_node, C102_uniform_refuted, C102_slow_uniform_refuted, C104_exact, C104_pair, C104_split, C104_fail, C104_other, C104_moves, C104_balance, C104_trees_refuted, C105_frame, C105_flip, C105_shared_refuted, C105_to_dict_refuted, C106_effect, C106_consistent, C106_coherent, C106_orphan_refuted, C107_reads, C107_equal, C107_sources, C107_rebuild, C107_districtr, C108_frozen, C108_unfrozen, C108_removed, C108_attributes, C108_copy, C108_reads, C108_shown, C108_lookup, C108_lookup_unwritten, C108_lookup_sticks, C108_lookup_evicted, C108_stale_refuted, C108_flicker_refuted, C109_subgraphs, C109_sticks, C109_stale_refuted, C110_values, C110_rebuild, C110_roundtrip, C110_other_nodes, C110_reload, C110_attributes, C110_save_errors, C110_order_refuted, C110_lossy_refuted, C110_grid_refuted, C111_attribute_is_item, C111_item, C111_missing, C111_shadowed, C111_blank_diverges, C111_edge_flows, C111_keys_as_attributes_refuted, C111_copy_refuted, C112_uncut, C112_exception, C112_cut, C112_valid, C112_at_most, C112_finished, C112_swallowed_plan_refuted, C112_uncounted_move_refuted, C113_recom_chain, C113_stays_balanced, C113_reversible_chain, C113_contiguous_passes, C113_population_passes, C114_any_node, C114_swallowed, C114_gone, C114_inner_edge, C114_flip_refuted, C114_recom_refuted, C114_reversible_refuted, C115_reply_stays, C115_any_schedule, C115_unknown_name, C115_erasure_refuted, C116_session_goes_on, C116_plans_untouched, C116_retry, C116_nothing_stored, C116_last_moment, C117_same_graph, C117_recorded, C117_failure, C117_outcome, C117_reproject_without, C117_file, C117_file_refuted, C117_file_without_refuted, C117_override_refuted, C117_caller_refuted, C118_warnings, C118_overlaps, C118_unasked_refuted, C119_defined, C119_unique, C119_moves, C119_never, C119_total, C119_balance, C119_stationary, C119_forever, C120_best, C120_fresh, C120_start, C120_burst, C120_known, C120_torn_refuted, C120_unscored_refuted, C120_shared_refuted, C120_alone_bursts, C120_alone_single, C120_alone_variable, C120_alone_unique, C121_districts_fixed, C121_values_kept, C121_untouched, C121_window, C121_reuse_refuted, C121_window_sharp_refuted, C123_shares, C123_rate, C123_limit, C123_two, C123_unreachable, C123_refuted, C124_law, C124_averages, C124_limit, C124_alternates_refuted, C125_averages, C125_histogram, C126_averages, C126_histogram, C126_uniform_refuted, C127_averages, C127_histogram, C127_undoable, C127_uniform_refuted, C128_averages, C128_histogram, C128_uniform_refuted, C129_averages, C129_histogram, C129_undoable, C129_uniform_refuted, C129_slow_refuted, C130_random_flip, C130_chunk_flip, C130_every_district, C130_slow, C130_bi, C130_recom, C130_reversible, C130_flip_runs, C130_slow_runs, C130_bi_runs, C130_slow_averages, C130_bi_averages, C130_reproducible_refuted, C131_on_flow, C131_on_edge_flow, C131_untouched, C131_untouched_edges, C131_alias, C131_no_cut_edges, C131_count_nodes, C131_count_cuts, C131_sum_nodes, C131_sum_cuts, C131_first_only_refuted, C132_pure, C132_shared, C132_shared_edges, C132_in_place, C132_in_place_edges, C132_in_place_refuted, C133_accepts, C133_error, C133_hemisphere, C133_there_and_back, C133_antimeridian_refuted, C133_south_refuted, C133_forced_letter_refuted, C133_forced.

`ClassicalDedekindReals.sig_forall_dec`, `FunctionalExtensionality.functional_extensionality_dep` (2 theorems):

C103_undefined, C103_nan.

`ClassicalDedekindReals.sig_forall_dec`, `ClassicalDedekindReals.sig_not_dec`, `FunctionalExtensionality.functional_extensionality_dep` (23 theorems):

C66_annealing, C66_annealing_hot, C66_overflow_refuted, C66_annealing_root, C66_annealing_raises, C68_clock, C94_symmetric, C94_symmetric_bound, C94_symmetric_empty_district, C97_cut, C97_recom, C97_errors, C97_weights, C97_connected, C97_zero_refuted, C97_order_refuted, C103_scores, C103_grid, C103_norms, C103_no_worse, C103_implied, C103_process_refuted, C130_spectral.

`ClassicalDedekindReals.sig_forall_dec`, `ClassicalDedekindReals.sig_not_dec`, `Classical_Prop.classic`, `FunctionalExtensionality.functional_extensionality_dep` (20 theorems):

C23_overwritten, C23_cached, C23_first, C23_stability_refuted, C66_annealing_improvement, C67_logitcycle, C67_logit_jumpcycle, C67_logit_cold_refuted, C67_empty_cycle, C68_chain_steps_refuted, C76_non_string, C94_shannon, C94_power, C94_shannon_zero, C94_power_zero, C95_second_graph_refuted, C122_pieces, C122_once, C122_first, C122_current_plan_refuted.

## What is modelled

Lines of each source file cited by a model file. A model comment says where the definition simplifies.

* `accept.py`: 15-16, 19-35 in `M_Proposals.v`
* `chain.py`: 189-190 in `M_Anneal.v`; 51-101, 114-150, 152-164, 166-196 in `M_Chain.v`; 186-189 in `M_Flips.v`; 166-196 in `M_Interrupt.v`; 188-189 in `M_Machine.v`; 187-189 in `M_UserFlow.v`
* `compactness.py`: 19-20, 37-39, 66-67, 79-84, 108-117, 129-135, 200-203, 214 in `M_Abort.v`
* `constraints/bounds.py`: 30-32 in `M_Chain.v`; 118-121, 155-158 in `M_Compact.v`; 25-28, 57-58, 118-121, 155-158, 194-204 in `M_Constraints.v`
* `constraints/compactness.py`: 8-19, 22-33, 36-47, 50-63, 66-70 in `M_Compact.v`
* `constraints/contiguity.py`: 11-62, 66-138, 141-166, 169-181, 184-204, 207-216, 226-241, 244-274 in `M_Contiguity.v`
* `constraints/validity.py`: 8-60 in `M_Chain.v`; 32-56, 63-93, 116-122, 144-151 in `M_Constraints.v`; 154-173, 176-188 in `M_Machine.v`
* `graph/adjacency.py`: 90-116 in `M_Crs.v`; 17-150 in `M_Geo.v`
* `graph/geo.py`: 71-90 in `M_Crs.v`; 52-68, 71-90 in `M_Geo.v`; 15-32 in `M_Utm.v`
* `graph/graph.py`: 122-285, 309-335, 398-416, 449-457 in `M_Crs.v`; 508-580 in `M_Frozen.v`; 179-285, 390-396, 419-446 in `M_Geo.v`; 508-580 in `M_Graph.v`; 287-388 in `M_GraphData.v`; 29-119, 460-505 in `M_Json.v`; 301-303, 563-565 in `M_Recursive.v`; 556-557, 563-565 in `M_Spectral.v`
* `grid.py`: 46-56, 102-106, 108-110, 129-139, 142-181, 214-220, 223-243, 246-264, 267-288 in `M_Grid.v`; 46-117 in `M_Registry.v`
* `meta/diversity.py`: 10-29, 32-86 in `M_Diversity.v`
* `metagraph.py`: 20-31, 34-61, 64-80, 83-100 in `M_Proposals.v`
* `metrics/compactness.py`: 5-20, 25-40 in `M_Compact.v`
* `metrics/partisan.py`: 13-28, 31-52, 55-73, 76-94, 97-114, 117-147 in `M_Election.v`
* `optimization/gingleator.py`: 80-85, 100-120, 122-145, 147-176, 178-204, 206-233 in `M_Gingles.v`; 80-88 in `M_Registry.v`
* `optimization/optimization.py`: 31-80, 157-374 in `M_Anneal.v`; 114-130, 132-155, 376-425, 427-473, 475-506, 509-570, 572-607 in `M_Optimize.v`; 76-80 in `M_Registry.v`; 66-73, 376-473, 475-607 in `M_Runs.v`
* `partition/assignment.py`: 21, 23-55, 60-61, 63-64, 66-67, 69-74, 80-86, 111-115, 117-125, 127-132, 149-151, 154-191 in `M_Assignment.v`; 8-55, 63-64, 69-74, 76-86, 134-151, 194-220 in `M_Partition.v`
* `partition/partition.py`: 173-174, 197-210 in `M_Abort.v`; 197-210 in `M_Anneal.v`; 122-136, 282-297 in `M_Assignment.v`; 28-38, 42-65, 122-151, 153-166, 208-210, 212-213, 218-220 in `M_Attribute.v`; 112-151, 153-166, 173-174, 176-185, 197-210 in `M_Flips.v`; 197-210 in `M_Locality.v`; 27-38, 122-151, 153-166, 173-174, 176-185, 197-210 in `M_Machine.v`; 133-136, 160-163, 187-195 in `M_Partition.v`; 67-120, 135-136 in `M_Recursive.v`; 40, 42-65, 122-166, 197-210 in `M_Registry.v`; 197-210 in `M_SharedValues.v`; 29-38, 148-151, 153-166, 173-174, 197-210, 212-213 in `M_UserFlow.v`
* `partition/subgraphs.py`: 38-49 in `M_Contiguity.v`; 22-36, 38-53 in `M_Frozen.v`; 38-49 in `M_SpanningCount.v`
* `proposals/proposals.py`: 25-46, 49-76, 79-95, 98-130, 136-157 in `M_Orders.v`; 8-22, 25-46, 49-76, 79-95, 98-130, 136-157 in `M_Proposals.v`
* `proposals/spectral_proposals.py`: 9-52, 55-103 in `M_Spectral.v`; 90-103 in `M_SpectralOrder.v`
* `proposals/tree_proposals.py`: 36-146, 222-267 in `M_Orders.v`; 36-146, 191-205, 207-213, 215-220, 222-267 in `M_Recom.v`; 36-146, 149-275, 278-305 in `M_Script.v`
* `tree.py`: 721-795 in `M_Recom.v`; 581-718, 773, 798-885, 888-966, 971-1085, 1088-1194, 1197-1230, 1233-1373, 1376-1438 in `M_Recursive.v`; 52-885 in `M_Tree.v`
* `updaters/compactness.py`: 8-25, 28-67, 70-117, 120-168, 171-180, 183-214 in `M_Machine.v`
* `updaters/county_splits.py`: 101-104 in `M_Abort.v`; 120-161 in `M_Locality.v`; 6, 20-31, 57-117 in `M_Machine.v`
* `updaters/cut_edges.py`: 99-120 in `M_Abort.v`; 28-56, 99-121 in `M_Flips.v`; 6-25, 28-40, 43-56, 59-96, 99-120 in `M_Machine.v`
* `updaters/election.py`: 143-146 in `M_Abort.v`; 68-109 in `M_DataTally.v`; 170-376 in `M_Election.v`; 138-167, 214-239 in `M_Machine.v`
* `updaters/flows.py`: 88-102, 197-211 in `M_Abort.v`; 88-102 in `M_DataTally.v`; 6-19, 26-45, 109-154 in `M_Flips.v`; 6, 26, 88-102, 197-211 in `M_Machine.v`; 6-19, 22-23, 26-45, 109-154 in `M_Partition.v`; 86-104, 195-213 in `M_SharedValues.v`; 86-104, 195-213 in `M_UserFlow.v`
* `updaters/locality_split_scores.py`: 112-133, 135-198, 200-215, 217-251, 253-274, 276-317, 319-360, 362-412, 414-432 in `M_Locality.v`
* `updaters/spanning_trees.py`: 11-41 in `M_SpanningCount.v`
* `updaters/tally.py`: 155-157 in `M_Abort.v`; 10-66 in `M_DataTally.v`; 113-167 in `M_Flips.v`; 37-55, 57-66, 113-167, 169-170, 173-206 in `M_Machine.v`
* `vendor/utm/conversion.py`: 42-63, 187-232, 285-323 in `M_Utm.v`; 45-63, 71-74, 76-130, 187-236, 277-282 in `M_UtmBack.v`
* `vendor/utm/error.py`: 1-2 in `M_Utm.v`

## What is not modelled

* Rounding, overflow and NaN of floating-point numbers, except where a property is about NaN or overflow and says so.
* Memory use, running time, progress bars, warnings other than those of C118, and printed text (`__repr__`, `__str__`, `format_part_results`).
* The state inside Python's random generator. A draw is an argument, so theorems hold for every sequence of draws.
* Hash-dependent iteration order of sets. Statements use membership, or quantify over the order.
* `chain.py`: `with_progress_bar`. `partition.py`: `plot`. `graph/geo.py`: `explain_validity` (an argument of the model). `graph/adjacency.py`: the index `str_tree` (an argument of the model).
* `graph.py`: the attributes `data` and `geometry` of a graph. Reading the file in `from_file` is an argument of the model.
* `vendor/utm/conversion.py`: the projection formulas. Only zone numbers, zone letters, range checks, and the choice of the hemisphere with its offset are modelled.
* `_version.py`, packaging, documentation and tests.
