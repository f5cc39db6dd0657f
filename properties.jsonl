{"id": "C01", "title": "Assignments stay consistent under any flip history", "statement": "After any sequence of successful flips starting from a freshly built plan, every node is in exactly one district, the node-to-district mapping and the district-to-nodes view agree on every node, and no node is lost or invented.", "quantifier": "all initial assignments, all finite sequences of flip dictionaries", "why_tests_cant": "The invariant is about every history of flips; a test executes finitely many histories.", "anchors": ["gerrychain/partition/assignment.py:Assignment.update_flows", "gerrychain/partition/partition.py:Partition.flip", "gerrychain/updaters/flows.py:flows_from_changes"]}
{"id": "C02", "title": "flip has exactly the requested effect", "statement": "partition.flip(flips) assigns every flipped node to its requested district and every other node to the district it had; the parent plan still answers exactly as before.", "quantifier": "all consistent plans and all flip dictionaries for which flip returns", "why_tests_cant": "Ranges over all plans and flip dictionaries, including no-op flips and many simultaneous flips.", "anchors": ["gerrychain/partition/partition.py:Partition.flip,_from_parent", "gerrychain/partition/assignment.py:Assignment.copy,update_flows"]}
{"id": "C03", "title": "flip raises KeyError exactly on unknown nodes or unknown districts", "statement": "partition.flip(flips) raises KeyError if and only if some flipped node is not in the graph or some requested district label does not already exist; otherwise it returns a plan.", "quantifier": "all consistent plans and all flip dictionaries", "why_tests_cant": "An if-and-only-if over all inputs; a test can only show individual raising and non-raising inputs.", "anchors": ["gerrychain/updaters/flows.py:flows_from_changes", "gerrychain/partition/assignment.py:Assignment.update_flows"]}
{"id": "C04", "title": "District labels are neither created nor destroyed by flips", "statement": "The set of district labels (and hence len(partition)) is the same after any flip history; a district that loses all its nodes stays present as an empty set.", "quantifier": "all flip histories", "why_tests_cant": "Universal over histories.", "anchors": ["gerrychain/partition/assignment.py:Assignment", "gerrychain/partition/partition.py:Partition.__len__,parts"]}
{"id": "C05", "title": "Assignment.from_dict round trip", "statement": "For every node-to-district dictionary d, Assignment.from_dict(d) has mapping equal to d, its parts are the non-empty level sets of d, and its length is the number of keys of d.", "quantifier": "all finite dictionaries", "why_tests_cant": "All dictionaries, of every size and every label distribution.", "anchors": ["gerrychain/partition/assignment.py:Assignment.from_dict,level_sets,__len__"]}
{"id": "C06", "title": "Assignment rejects overlapping parts and only those", "statement": "Constructing an Assignment from a dictionary of parts raises ValueError if and only if two parts share a node; otherwise the resulting mapping sends each node to the unique part that contains it.", "quantifier": "all dictionaries of parts", "why_tests_cant": "If-and-only-if over all inputs.", "anchors": ["gerrychain/partition/assignment.py:Assignment.__init__"]}
{"id": "C07", "title": "A plan must label exactly the graph's nodes", "statement": "Building a plan from a graph and an assignment raises KeyError if and only if the assigned nodes are not exactly the graph's nodes.", "quantifier": "all graphs and assignments", "why_tests_cant": "If-and-only-if over all inputs.", "anchors": ["gerrychain/partition/partition.py:Partition._first_time"]}
{"id": "C08", "title": "cut_edges always equals recomputation from scratch", "statement": "Whatever flips, reads of updaters (in any order, on any plan) and erasures of parent links happened before, reading partition['cut_edges'] returns exactly the graph edges whose endpoints lie in different districts, each once and in sorted orientation.", "quantifier": "all graphs, all finite interleavings of flip, read and parent-erasure operations", "why_tests_cant": "The value is computed incrementally and lazily through parent links that the chain erases; correctness must hold for every schedule of reads and erasures.", "anchors": ["gerrychain/updaters/cut_edges.py:cut_edges,new_cuts,obsolete_cuts", "gerrychain/updaters/flows.py:neighbor_flips", "gerrychain/partition/partition.py:Partition.__getitem__", "gerrychain/chain.py:MarkovChain.__next__"]}
{"id": "C09", "title": "cut_edges_by_part always equals recomputation from scratch", "statement": "After any interleaving of flips, reads and parent erasures, partition['cut_edges_by_part'][d] is exactly the set of cut edges with an endpoint in d, for every district d.", "quantifier": "all graphs, all finite interleavings of flip, read and parent-erasure operations, all districts", "why_tests_cant": "Incremental edge flows must be right for every simultaneous move of both endpoints and every history.", "anchors": ["gerrychain/updaters/cut_edges.py:cut_edges_by_part,put_edges_into_parts", "gerrychain/updaters/flows.py:compute_edge_flows,on_edge_flow"]}
{"id": "C10", "title": "Tallies always equal the sum over the district's nodes", "statement": "After any interleaving of flips, reads and parent erasures, for node data without NaN, every entry of a Tally or DataTally equals the sum of the tallied attributes over the nodes currently in that district, and every non-empty district has an entry. A vanished district has an entry equal to 0 if the tally was carried over incrementally and no entry if it was recomputed after its parent was erased; in the latter case a later flip into it makes the read raise KeyError.", "quantifier": "all graphs, all numeric data (exact arithmetic), all finite interleavings of flip, read and parent-erasure operations", "why_tests_cant": "Incremental sums over unbounded histories; the vanished-district case depends on the read schedule.", "anchors": ["gerrychain/updaters/tally.py:Tally,DataTally,compute_out_flow,compute_in_flow", "gerrychain/updaters/flows.py:on_flow"]}
{"id": "C11", "title": "The total of a tally is conserved along any history", "statement": "The sum of all entries of a Tally is the same for every plan reached by flips from the same initial plan, and equals the total over all nodes.", "quantifier": "all flip histories, NaN-free data", "why_tests_cant": "Universal over histories.", "anchors": ["gerrychain/updaters/tally.py:Tally"]}
{"id": "C12", "title": "NaN node data is ignored initially but poisons incremental tallies", "statement": "A plan's first tally equals the sum over the non-NaN nodes, for every data set. It is not true that this still holds after flips: when a NaN node moves, the entries of both districts involved become NaN, for every plan and every such move.", "quantifier": "all data with NaN entries, all single moves of a NaN node", "why_tests_cant": "The claim compares two code paths on every input, not on a sample.", "anchors": ["gerrychain/updaters/tally.py:Tally._initialize_tally,_update_tally"]}
{"id": "C13", "title": "Boundary lengths and perimeters always equal recomputation", "statement": "After any interleaving of flips, reads and parent erasures, exterior_boundaries, interior_boundaries and perimeter of every district equal respectively the total boundary length of its boundary nodes, the total shared length of its cut edges, and their sum.", "quantifier": "all graphs with boundary data, all finite interleavings of flip, read and parent-erasure operations", "why_tests_cant": "Incremental sums over unbounded histories and read schedules.", "anchors": ["gerrychain/updaters/compactness.py:exterior_boundaries,interior_boundaries,perimeter", "gerrychain/updaters/flows.py:on_flow,on_edge_flow"]}
{"id": "C14", "title": "Reading updaters is repeatable and order-insensitive", "statement": "Reading the same updater of the same plan twice returns the same value whatever was read, flipped or erased in between, except that the three dictionary answers with default values (cut_edges_by_part, exterior_boundaries, exterior_boundaries_as_a_set) may gain entries holding the default (literal equality is refuted for these); no read of an updater changes any plan's assignment.", "quantifier": "all operation interleavings", "why_tests_cant": "Universal over schedules of reads on a shared object graph with caches.", "anchors": ["gerrychain/partition/partition.py:Partition.__getitem__"]}
{"id": "C15", "title": "county_splits describes the current plan", "statement": "After any interleaving of flips, reads and erasures, county_splits lists for each county exactly its nodes and a set containing exactly the districts that meet it, and marks a county NOT_SPLIT if and only if it meets at most one district.", "quantifier": "all graphs, county labels and operation interleavings", "why_tests_cant": "Universal over histories of an incremental updater.", "anchors": ["gerrychain/updaters/county_splits.py:county_splits,compute_county_splits"]}
{"id": "C16", "title": "Split flags: NEW_SPLIT never matures to OLD_SPLIT while the parent chain is read eagerly", "statement": "The documentation says OLD_SPLIT means the county is split in the parent plan. The code instead keeps NEW_SPLIT: a county that became split stays flagged NEW_SPLIT in every later plan as long as it remains split and plans are read in order, so the documented meaning is refuted; if the parent was erased before the read the flag becomes OLD_SPLIT instead, so the flag depends on the read schedule.", "quantifier": "all histories of plans; existence of a refuting history", "why_tests_cant": "Concerns the flag after arbitrary long histories and its dependence on read order.", "anchors": ["gerrychain/updaters/county_splits.py:compute_county_splits"]}
{"id": "C17", "title": "refuse_new_splits keeps the set of split counties from growing", "statement": "If each plan of a history passed refuse_new_splits when it was created from its parent, then every county split in the last plan was already split in the first plan.", "quantifier": "all histories of validated flips, all county labellings", "why_tests_cant": "Inductive guarantee over unbounded chains.", "anchors": ["gerrychain/constraints/validity.py:refuse_new_splits", "gerrychain/updaters/county_splits.py:compute_county_splits"]}
{"id": "C18", "title": "Election totals always equal the sums over the district's nodes", "statement": "After any interleaving of flips, reads and parent erasures, an Election updater reports for each party and district the sum of that party's votes over the district, and the district total is the sum over parties.", "quantifier": "all vote data, parties and operation interleavings", "why_tests_cant": "Incremental sums over unbounded histories.", "anchors": ["gerrychain/updaters/election.py:Election,ElectionUpdater,ElectionResults"]}
{"id": "C19", "title": "Winning a district means strictly beating every other party", "statement": "ElectionResults.won(p, d) holds if and only if p has strictly more votes than every other party in d; hence at most one party wins each district, exactly one when there is a unique maximum and none when the maximum is tied, and the seats over all parties never exceed the number of districts.", "quantifier": "all parties, districts and vote tables", "why_tests_cant": "Universal over vote tables, including ties.", "anchors": ["gerrychain/updaters/election.py:ElectionResults.won,seats,wins"]}
{"id": "C20", "title": "Vote shares are a probability distribution", "statement": "In every district with positive total vote the parties' percents are non-negative and sum to 1; with zero total they are NaN; the overall percent of a party lies between its smallest and largest district percent.", "quantifier": "all non-negative vote tables", "why_tests_cant": "Universal over vote tables.", "anchors": ["gerrychain/updaters/election.py:get_percents,ElectionResults.percent,percents"]}
{"id": "C21", "title": "Updaters given to one plan leak into every other plan of the class", "statement": "A plan built with the default updaters shares one dictionary with all plans of its class: after any sequence of constructions every such plan (also the earlier ones) exposes the union of all updaters ever passed, the most recent definition winning (for Grid the oldest one, because a Grid lets the class's updaters override those passed). Isolation between plans is therefore refuted; it holds for plans built with use_default_updaters=False.", "quantifier": "all sequences of plan constructions", "why_tests_cant": "A statement about every construction history of shared mutable state.", "anchors": ["gerrychain/partition/partition.py:Partition._first_time,default_updaters", "gerrychain/grid.py:Grid.__init__"]}
{"id": "C22", "title": "A string-keyed DataTally is bound to the first graph it sees", "statement": "A DataTally (or Election) built from an attribute name computes the right totals on the first graph for every history, but when the same object is then used on a plan over another graph it keeps using the first graph's data, so per-graph correctness is refuted.", "quantifier": "all pairs of graphs sharing one updater object", "why_tests_cant": "About hidden state across uses of one object.", "anchors": ["gerrychain/updaters/tally.py:DataTally"]}
{"id": "C23", "title": "LocalitySplits results are overwritten by later reads", "statement": "All values returned by one LocalitySplits updater are the same dictionary: after reading a later plan, the value held by an earlier plan equals the later plan's scores. Stability of previously returned scores is refuted.", "quantifier": "all sequences of reads", "why_tests_cant": "Aliasing across an arbitrary read history.", "anchors": ["gerrychain/updaters/locality_split_scores.py:LocalitySplits.__call__"]}
{"id": "C24", "title": "Validator is the short-circuit conjunction of its constraints", "statement": "A Validator returns True if and only if every constraint returns True, returns False if and only if some constraint returns False after all earlier ones returned True, and raises TypeError if and only if the first constraint that does not return True returns a non-boolean; constraints after the first failing one are not called.", "quantifier": "all finite constraint lists and all plans", "why_tests_cant": "Universal over constraint lists and outcomes.", "anchors": ["gerrychain/constraints/validity.py:Validator.__call__"]}
{"id": "C25", "title": "Bounds hold for every value", "statement": "Bounds(func,(lo,hi)) accepts a plan with at least one value if and only if every value returned by func lies between lo and hi inclusive; UpperBound and LowerBound accept iff the value is at most, respectively at least, the bound. If func returns a one-shot iterator, Bounds never accepts: it returns False or raises ValueError.", "quantifier": "all value lists and bounds", "why_tests_cant": "If-and-only-if over all inputs.", "anchors": ["gerrychain/constraints/bounds.py:Bounds,UpperBound,LowerBound"]}
{"id": "C26", "title": "The population constraint bounds every district along the whole chain", "statement": "If within_percent_of_ideal_population(initial, e) accepts a plan reached by flips from the initial plan then every district with an entry has population between (1-e) and (1+e) times the ideal of the initial plan, and that ideal is also total population divided by number of districts of the current plan; conversely it accepts whenever all populations are within the range.", "quantifier": "all plans reachable from the initial plan by flips, all tolerances", "why_tests_cant": "Universal over chains; relates initial and current plan.", "anchors": ["gerrychain/constraints/validity.py:within_percent_of_ideal_population,deviation_from_ideal"]}
{"id": "C27", "title": "Self-configuring bounds are fixed by their first call unless that value is zero", "statement": "A SelfConfiguringUpperBound (LowerBound) whose first configured bound is non-zero accepts, in every later call of any call history, exactly the plans whose value is at most (at least) that first bound. If the configured bound is 0 the guarantee is refuted: the next call re-configures it and accepts any value.", "quantifier": "all call histories and all value functions", "why_tests_cant": "Stateful object: the claim is about every call history.", "anchors": ["gerrychain/constraints/bounds.py:SelfConfiguringUpperBound,SelfConfiguringLowerBound"]}
{"id": "C28", "title": "WithinPercentRangeOfBounds enforces the range of the first call unless a bound is zero", "statement": "After a first call with positive value x and 0<=percent<100, every later call in any history accepts exactly the values between x(1-percent/100) and x(1+percent/100). With first value 0 the next call accepts anything, with percent 100 every call accepts anything, and with a negative first value and 0<percent<100 every later call rejects, even the first plan (refutation of the documented behaviour).", "quantifier": "all call histories", "why_tests_cant": "Stateful object over all histories.", "anchors": ["gerrychain/constraints/bounds.py:WithinPercentRangeOfBounds"]}
{"id": "C29", "title": "contiguous accepts exactly the plans all of whose districts are connected", "statement": "If the parent plan is contiguous, contiguous(child) returns True if and only if every district of the child induces a connected subgraph (and raises when a district became empty); by induction every plan of a chain validated this way is contiguous. For a plan whose parent link was erased the check only covers districts that received nodes, and soundness is refuted by an explicit plan.", "quantifier": "all graphs, all plans and flips, all chains", "why_tests_cant": "The check only looks at affected districts; soundness is an inductive argument over chains.", "anchors": ["gerrychain/constraints/contiguity.py:contiguous,affected_parts"]}
{"id": "C30", "title": "contiguous_bfs decides connectivity", "statement": "contiguous_bfs returns True if and only if every district is connected, for every plan with non-empty districts (for a flipped plan: whenever its parent is contiguous); on a plan with an empty district it raises StopIteration, unless it meets a disconnected district first and returns False.", "quantifier": "all graphs and plans", "why_tests_cant": "Universal over graphs; hand-written breadth-first search.", "anchors": ["gerrychain/constraints/contiguity.py:contiguous_bfs,_bfs"]}
{"id": "C31", "title": "single_flip_contiguous is exact for one flip to an adjacent district", "statement": "If the parent is contiguous and the child moves one node to a different district containing one of its neighbours, single_flip_contiguous returns True iff every district of the child is connected and non-empty, whatever starting neighbour is drawn at random. It is unsound (refuted by explicit plans) for a move to a non-adjacent district and for two simultaneous moves, and rejects the unchanged plan when a singleton district is re-flipped to itself. For a plan without flips it tests every district; for an empty dictionary of flips it returns True whatever the plan.", "quantifier": "all graphs, contiguous plans, single flips and random choices", "why_tests_cant": "Universal over graphs and random choices; local check proving a global property.", "anchors": ["gerrychain/constraints/contiguity.py:single_flip_contiguous,are_reachable"]}
{"id": "C32", "title": "are_reachable decides reachability while avoiding edges", "statement": "The reachability routine behind single_flip_contiguous terminates and returns True iff every target can be reached from the source by a path none of whose edges is forbidden.", "quantifier": "all graphs, avoidance predicates, sources and target sets", "why_tests_cant": "Universal over graphs; priority-queue search with early exit.", "anchors": ["gerrychain/constraints/contiguity.py:are_reachable"]}
{"id": "C33", "title": "no_vanishing_districts prevents empty districts along a chain", "statement": "If every plan of a history passed no_vanishing_districts when created and the first plan had no empty district, no district of the last plan is empty.", "quantifier": "all histories", "why_tests_cant": "Inductive over histories.", "anchors": ["gerrychain/constraints/validity.py:no_vanishing_districts"]}
{"id": "C34", "title": "A one-shot iterable of constraints is enforced only once", "statement": "With a reusable collection, every validation evaluates all constraints. With a one-shot iterator (which the signature admits) the first validation exhausts it, and every later plan is accepted whatever the constraints say.", "quantifier": "all constraint collections and all validation histories", "why_tests_cant": "Statement about every later call in a history.", "anchors": ["gerrychain/constraints/validity.py:Validator", "gerrychain/chain.py:MarkovChain.__init__"]}
{"id": "C35", "title": "A chain yields exactly total_steps plans", "statement": "If iteration neither raises nor loops forever, iterating a MarkovChain with total_steps>=1 yields exactly total_steps plans, the first being the initial plan; with total_steps<=0 it still yields one plan although len(chain) is not 1. If the constraints reject every plan the loop yields the initial plan and then never ends, however many proposals are made.", "quantifier": "all proposals, constraints, acceptance rules, random streams and step counts", "why_tests_cant": "Ranges over every behaviour of user-supplied proposal, constraint and acceptance functions.", "anchors": ["gerrychain/chain.py:MarkovChain.__iter__,__next__,__len__"]}
{"id": "C36", "title": "Every yielded plan is valid", "statement": "Every plan yielded by a chain made the validator return True (at construction or when proposed), for all proposals, stateful constraints and acceptance rules.", "quantifier": "all chain executions", "why_tests_cant": "Universal over executions.", "anchors": ["gerrychain/chain.py:MarkovChain"]}
{"id": "C37", "title": "Each step keeps the plan or moves to an accepted valid proposal", "statement": "Consecutive yielded plans are either the same plan, or the second is a proposal made from the first that was validated and accepted; invalid proposals are never yielded and are not counted.", "quantifier": "all chain executions", "why_tests_cant": "Universal over executions with arbitrary numbers of rejected proposals.", "anchors": ["gerrychain/chain.py:MarkovChain.__next__"]}
{"id": "C38", "title": "Iterating again restarts the chain", "statement": "After any partial or complete consumption, calling iter() on the chain makes it start again from the initial plan with a full step budget.", "quantifier": "all consumption histories", "why_tests_cant": "Universal over histories.", "anchors": ["gerrychain/chain.py:MarkovChain.__iter__"]}
{"id": "C39", "title": "A chain retains at most one ancestor per plan", "statement": "Whenever a chain with flip-based proposals yields a plan after the first one, that plan has at most one ancestor reachable through parent links, so memory does not grow with the number of steps; and the plan objects still form a correct session, so reads of updaters are unaffected by the erasure.", "quantifier": "all chain executions of any length", "why_tests_cant": "A bound for executions of every length.", "anchors": ["gerrychain/chain.py:MarkovChain.__next__"]}
{"id": "C40", "title": "An empty district silently ends a chain that uses contiguous_bfs", "statement": "If the validator raises StopIteration on a proposal (as contiguous_bfs does when a district becomes empty), a for-loop over the chain ends without an error after fewer than total_steps plans, refuting the step-count guarantee for such constraints.", "quantifier": "all chains whose next proposal empties a district", "why_tests_cant": "Concerns control flow of the iterator protocol for every such chain.", "anchors": ["gerrychain/chain.py:MarkovChain.__next__", "gerrychain/constraints/contiguity.py:_bfs"]}
{"id": "C41", "title": "Replacing the constraints of a running chain", "statement": "Assigning chain.constraints either raises (ValueError for constraints with names that are functions of the plan, AttributeError if a violated one has no name) and keeps the old constraints, when the initial plan violates the new ones, or installs them; afterwards every newly accepted plan satisfies the new constraints, but the current plan may not.", "quantifier": "all chains and replacement points", "why_tests_cant": "Universal over histories.", "anchors": ["gerrychain/chain.py:MarkovChain.constraints"]}
{"id": "C42", "title": "propose_random_flip moves one boundary node to an adjacent district", "statement": "For every plan and random choice, propose_random_flip returns the plan itself when there are no cut edges and otherwise a plan differing in exactly one node, which moves to the district of one of its neighbours.", "quantifier": "all plans and random choices", "why_tests_cant": "Universal over random choices.", "anchors": ["gerrychain/proposals/proposals.py:propose_random_flip"]}
{"id": "C43", "title": "Chunk and every-district flips only move boundary material to adjacent districts", "statement": "propose_chunk_flip picks a boundary node and moves exactly its neighbours in other districts into its district; every other node, the picked one included, stays (the documentation says the picked node flips: refuted). With no cut edges it raises IndexError. propose_flip_every_district moves only nodes with a neighbour in the district they move to; it raises IndexError exactly when some district listed in cut_edges_by_part has no cut edges, which depends on the history of the plan and not only on its districts (refuted).", "quantifier": "all plans, histories and random choices", "why_tests_cant": "Universal over random choices and histories.", "anchors": ["gerrychain/proposals/proposals.py:propose_chunk_flip,propose_flip_every_district"]}
{"id": "C44", "title": "slow_reversible_propose enumerates each single move once", "statement": "The set of moves drawn from by slow_reversible_propose contains a (node, district) pair iff the node has a neighbour in that other district, each pair once, and contains the reverse move from the resulting plan when the node keeps a neighbour in its old district. slow_reversible_propose_bi instead raises ValueError when the drawn node has no neighbour in its own district.", "quantifier": "all plans and random choices", "why_tests_cant": "Universal over plans; support of a random choice.", "anchors": ["gerrychain/proposals/proposals.py:slow_reversible_propose,slow_reversible_propose_bi"]}
{"id": "C45", "title": "The metagraph neighbourhood is sound and complete but the degree over-counts", "statement": "all_cut_edge_flips yields the flip (node, district) iff the node has a neighbour in that other district, and all_valid_flips keeps exactly those whose resulting plan satisfies the constraints. Each flip occurs as often as the node has neighbours in the target district, so metagraph_degree equals the number of distinct neighbours only when each such node has one such neighbour; in general it over-counts (refuted).", "quantifier": "all plans and constraints", "why_tests_cant": "Universal over plans.", "anchors": ["gerrychain/metagraph.py:all_cut_edge_flips,all_valid_states_one_flip_away,metagraph_degree"]}
{"id": "C46", "title": "ReCom only redraws the two merged districts", "statement": "For every bipartition method that returns a subset of the merged nodes, recom returns a plan in which every node outside the two chosen adjacent districts keeps its district, the merged nodes carry one of the two labels, and both new districts have population within epsilon of the target; they are connected if the method's subset and its complement are. Its errors are MetagraphError, IndexError for a plan without cut edges, and the split's own.", "quantifier": "all plans, bipartition methods and random choices", "why_tests_cant": "Universal over random choices and user-supplied methods.", "anchors": ["gerrychain/proposals/tree_proposals.py:recom", "gerrychain/tree.py:epsilon_tree_bipartition"]}
{"id": "C47", "title": "ReCom can loop forever instead of raising MetagraphError", "statement": "When every adjacent pair of districts asks for reselection, recom raises MetagraphError if every pair of districts is adjacent and the random choices draw every cut edge again and again; if some pair is not adjacent it never terminates, for every sequence of random choices.", "quantifier": "all plans and all infinite random streams", "why_tests_cant": "Non-termination for all random streams cannot be observed by a test.", "anchors": ["gerrychain/proposals/tree_proposals.py:recom"]}
{"id": "C48", "title": "reversible_recom's move probability is well defined", "statement": "In reversible_recom the acceptance ratio never divides by zero, and it never exceeds 1 when at most M balanced cuts are found, so ReversibilityError is raised iff more than M balanced cuts were found; a rejected step returns the same plan object, an accepted one a plan that redraws only the two drawn adjacent districts, both connected and within epsilon.", "quantifier": "all plans, spanning trees and random choices", "why_tests_cant": "Universal over random choices.", "anchors": ["gerrychain/proposals/tree_proposals.py:reversible_recom"]}
{"id": "C49", "title": "cut_edge_accept favours fewer cut edges, contrary to its documentation", "statement": "cut_edge_accept always accepts a plan with no more cut edges than its parent and accepts otherwise exactly when the random draw is below parent/child cut-edge ratio. The documented rule (always accept when cut edges increase) is refuted, and a child with no cut edges and a parent makes it raise ZeroDivisionError.", "quantifier": "all plans and random draws", "why_tests_cant": "Universal over draws; contradiction with documentation.", "anchors": ["gerrychain/accept.py:cut_edge_accept"]}
{"id": "C50", "title": "Balanced cuts found by memoization are exactly the balanced tree edges", "statement": "For every spanning tree and root, find_balanced_edge_cuts_memoization returns, in two-sided mode, one cut for exactly those tree edges whose removal leaves both sides within tolerance; each returned subset and its complement are connected and its population is the sum over its nodes; in one-sided mode a cut is returned for exactly those edges for which some side is within tolerance, with a balanced subset.", "quantifier": "all trees, populations, tolerances and roots", "why_tests_cant": "Universal over trees; stack-based traversal.", "anchors": ["gerrychain/tree.py:find_balanced_edge_cuts_memoization,_calc_pops,_part_nodes"]}
{"id": "C51", "title": "Contraction and memoization find the same cuts", "statement": "In two-sided mode find_balanced_edge_cuts_contraction and find_balanced_edge_cuts_memoization return cuts for the same set of tree edges, for every tree and every pair of roots. In one-sided mode they differ: contraction only inspects the side away from the root and excludes equality (refuted by an explicit tree).", "quantifier": "all trees, populations, tolerances and roots", "why_tests_cant": "Equivalence of two algorithms on all inputs.", "anchors": ["gerrychain/tree.py:find_balanced_edge_cuts_contraction,find_balanced_edge_cuts_memoization"]}
{"id": "C52", "title": "uniform_spanning_tree returns a spanning tree", "statement": "For every connected graph with at least two nodes and every random walk for which it terminates, uniform_spanning_tree returns a subgraph with the same nodes that is connected and has one edge fewer than nodes.", "quantifier": "all graphs and random walks", "why_tests_cant": "Universal over random walks (loop erasure).", "anchors": ["gerrychain/tree.py:uniform_spanning_tree"]}
{"id": "C53", "title": "bipartition_tree returns a balanced connected side or a documented error", "statement": "For every graph, tree sampler and random choices, bipartition_tree returns a subset that is connected, whose complement is connected and whose population is within epsilon of the target (both sides, unless one-sided); on graphs with at least three nodes it succeeds iff one of the trees of its at most max_attempts attempts has a balanced cut, and otherwise raises ReselectException iff allow_pair_reselection, else RuntimeError; without a limit it never returns if no tree has one.", "quantifier": "all graphs, spanning trees, random choices and parameters", "why_tests_cant": "Universal over random choices and attempt counts.", "anchors": ["gerrychain/tree.py:bipartition_tree"]}
{"id": "C54", "title": "bipartition_tree_random ignores one_sided_cut=False", "statement": "bipartition_tree_random always searches one-sided cuts, so with one_sided_cut=False the complement of the returned set may be out of tolerance (refuted by an explicit graph), and ReCom with its default method can fail with PopulationBalanceError although a two-sided balanced cut exists.", "quantifier": "existence of a graph and random choice; all calls are one-sided", "why_tests_cant": "About all calls' mode and the existence of a failing random choice.", "anchors": ["gerrychain/tree.py:bipartition_tree_random,epsilon_tree_bipartition", "gerrychain/proposals/tree_proposals.py:ReCom"]}
{"id": "C55", "title": "epsilon_tree_bipartition splits into two balanced districts or raises", "statement": "If epsilon_tree_bipartition returns, every node is assigned to one of the two distinct labels and both populations are within epsilon of the target, for every method; it raises ValueError whenever not exactly two labels are given, and otherwise only what the method raises, BalanceError for a method that returns None, PopulationBalanceError for an unbalanced side, or KeyError for a foreign node.", "quantifier": "all graphs, methods and parameters", "why_tests_cant": "Universal over user-supplied methods.", "anchors": ["gerrychain/tree.py:epsilon_tree_bipartition"]}
{"id": "C56", "title": "recursive_tree_part returns a complete balanced plan or raises", "statement": "If recursive_tree_part is given at least two distinct labels and a method that returns nodes of the graph it is given, and returns, it assigns every node to exactly one of the given labels, every label is used on a set of population within epsilon of the target, and with a method that returns connected sets with connected complements every district is connected. With fewer than two labels it cannot succeed: it raises IndexError whenever the method returns a non-empty set.", "quantifier": "all graphs, label lists, methods and random choices", "why_tests_cant": "Universal over methods and number of parts (recursion).", "anchors": ["gerrychain/tree.py:recursive_tree_part"]}
{"id": "C57", "title": "The population debt of recursive_tree_part stays within tolerance", "statement": "With a method meeting its tolerance, at every step of recursive_tree_part the accumulated deviation stays within epsilon times the target, so the window passed to the next call is never empty and the last two districts start from a population within epsilon of twice the target when the target is the exact average.", "quantifier": "all graphs, numbers of parts and methods meeting their contract", "why_tests_cant": "Loop invariant for any number of parts.", "anchors": ["gerrychain/tree.py:recursive_tree_part"]}
{"id": "C58", "title": "get_max_prime_factor_less_than is correct", "statement": "For n>=1, the function returns p iff p is the largest prime divisor of n with p<=ceil, and None iff n has no prime divisor <= ceil.", "quantifier": "all positive n and all ceil", "why_tests_cant": "Universal over integers.", "anchors": ["gerrychain/tree.py:get_max_prime_factor_less_than"]}
{"id": "C59", "title": "recursive_seed_part returns a partition into balanced districts", "statement": "If recursive_seed_part returns, its districts are disjoint, cover all nodes and number len(parts); when there are at least two districts and the method meets its tolerance contract, each has population within epsilon of the target, and with a method whose two sides are connected each is connected.", "quantifier": "all graphs, numbers of districts, chunk parameters and methods", "why_tests_cant": "Induction over the recursion for every district count.", "anchors": ["gerrychain/tree.py:recursive_seed_part,recursive_seed_part_inner,get_seed_chunks"]}
{"id": "C60", "title": "Two-node trees crash the cut search", "statement": "Both balanced-cut searches raise IndexError on every tree with at most two nodes, so bipartition_tree raises IndexError on every graph with at most two nodes, recom raises it for every plan of single-node districts whatever is drawn, and for other plans when it draws two adjacent single-node districts; on every tree with at least three nodes the root choice succeeds.", "quantifier": "all trees", "why_tests_cant": "Universal over trees of each size class.", "anchors": ["gerrychain/tree.py:find_balanced_edge_cuts_memoization,find_balanced_edge_cuts_contraction"]}
{"id": "C61", "title": "recursive_tree_part corrupts a frozen graph's node set", "statement": "Called with a plain Graph, recursive_tree_part leaves the node set unchanged; called with a FrozenGraph (such as partition.graph) it removes the assigned nodes from the cached node set, so afterwards iteration over the graph misses them (refuted preservation), and from_random_assignment on a FrozenGraph raises KeyError.", "quantifier": "all graphs and methods", "why_tests_cant": "Aliasing of a cached mutable set over all inputs.", "anchors": ["gerrychain/tree.py:recursive_tree_part,epsilon_tree_bipartition", "gerrychain/graph/graph.py:FrozenGraph.node_indices"]}
{"id": "C62", "title": "Weighted cut choice is optimal and prefers region cuts", "statement": "_max_weight_choice returns a cut of maximal tree-edge weight; the region-preferred choice returns a cut of maximal weight among those separating the most important combination of regions that any cut separates, and reduces to the former when the surcharge dictionary is empty or has more than three columns; with no dictionary (None) any of the cuts may be chosen, not only the heaviest.", "quantifier": "all cut lists, region surcharges and weights", "why_tests_cant": "Optimality is universal over lists.", "anchors": ["gerrychain/tree.py:_max_weight_choice,_region_preferred_max_weight_choice"]}
{"id": "C63", "title": "The optimizer's best score is the optimum of what it has processed", "statement": "At every point of an optimisation run best_score is the score of best_part and is at least (at most, when minimising) the score of every plan processed so far and of the initial plan; it never gets worse. The plan just yielded is only processed when the next one is requested, so at the moment of a yield the documented 'during the run' guarantee can fail.", "quantifier": "all score functions, chains and consumption points", "why_tests_cant": "Invariant over all executions.", "anchors": ["gerrychain/optimization/optimization.py:SingleMetricOptimizer.short_bursts,_is_improvement"]}
{"id": "C64", "title": "short_bursts yields burst_length*num_bursts plans and restarts from the best", "statement": "short_bursts yields exactly burst_length*num_bursts plans for burst_length>=1, and each burst starts from the best plan processed so far; tilted_run and simulated_annealing yield exactly num_steps plans for num_steps>=1.", "quantifier": "all proposals, scores, burst lengths and numbers of bursts", "why_tests_cant": "Universal over executions.", "anchors": ["gerrychain/optimization/optimization.py:SingleMetricOptimizer.short_bursts,simulated_annealing,tilted_run"]}
{"id": "C65", "title": "variable_length_short_bursts never lengthens its bursts", "statement": "The documentation promises that the burst length doubles after stuck_buffer bursts without improvement. Because every burst begins by re-scoring the best plan, which counts as an improvement, the burst length stays 2 forever for every stuck_buffer>=1, every chain and every deterministic score; it still yields exactly num_steps plans. Only stuck_buffer=0 makes it double: then burst j starts from the best plan after 2*(2^j-1) plans.", "quantifier": "all chains, scores, values of stuck_buffer and numbers of steps", "why_tests_cant": "The absence of an event in every execution.", "anchors": ["gerrychain/optimization/optimization.py:SingleMetricOptimizer.variable_length_short_bursts"]}
{"id": "C66", "title": "Improvements are always accepted", "statement": "Tilted acceptance accepts every plan at least as good as its parent and accepts worse ones iff the draw is below p; simulated-annealing acceptance accepts every plan at least as good as its parent for every non-negative beta, magnitude and draw as long as beta*magnitude*improvement is within the range of math.exp (beyond it OverflowError is raised instead), accepts a worse plan iff the draw is below exp(-beta*magnitude*loss), and accepts everything when beta is 0. Both accept a plan without parent without scoring it or drawing, and pass on what the score or the schedule raises.", "quantifier": "all scores, draws and parameters", "why_tests_cant": "Universal over draws and real-valued parameters.", "anchors": ["gerrychain/optimization/optimization.py:SingleMetricOptimizer._tilted_acceptance_function,_simulated_annealing_acceptance_function"]}
{"id": "C67", "title": "Temperature schedules stay in [0,1] and repeat", "statement": "jumpcycle, linearcycle, linear_jumpcycle, logitcycle and logit_jumpcycle return values in [0,1], are periodic with their cycle length, are 0 throughout the hot phase and 1 throughout the cold phase (the logit schedules without a cooldown are still 0 at the first cold step), follow the documented line or curve in between, and the logit schedules never evaluate a logarithm or quotient outside its domain.", "quantifier": "all times and positive durations", "why_tests_cant": "Universal over times and durations.", "anchors": ["gerrychain/optimization/optimization.py:SingleMetricOptimizer.jumpcycle,linearcycle,linear_jumpcycle,logitcycle,logit_jumpcycle"]}
{"id": "C68", "title": "The annealing clock counts accepted moves, not chain steps", "statement": "The step number given to the temperature schedule equals one plus the number of moves accepted before, so rejected proposals do not advance the schedule; the reading 'number of chain steps' is refuted.", "quantifier": "all annealing executions", "why_tests_cant": "Universal over executions.", "anchors": ["gerrychain/optimization/optimization.py:SingleMetricOptimizer.__init__,_simulated_annealing_acceptance_function"]}
{"id": "C69", "title": "Gingleator scores rank by number of opportunity districts", "statement": "Every Gingleator score lies between the number of opportunity districts and that number plus one, strictly below for the reward scores, so plans with more opportunity districts never score lower; reward_partial_dist and reward_next_highest_close raise ValueError exactly when every district is an opportunity district.", "quantifier": "all minority shares and thresholds", "why_tests_cant": "Universal over real-valued inputs.", "anchors": ["gerrychain/optimization/gingleator.py:Gingleator"]}
{"id": "C70", "title": "Two Gingleators interfere", "statement": "Because the auxiliary updater is registered under a fixed default name in a dictionary shared by all plans of the class, constructing a second Gingleator with another minority column changes the scores the first one computes on plans it has not read yet.", "quantifier": "all pairs of Gingleators with default names", "why_tests_cant": "Hidden shared state across objects.", "anchors": ["gerrychain/optimization/gingleator.py:Gingleator.__init__", "gerrychain/partition/partition.py:Partition._first_time"]}
{"id": "C71", "title": "Efficiency gap: wasted votes add to half the votes", "statement": "In every district the two parties' wasted votes sum to half of the total; hence the efficiency gap lies in [-1/2,1/2] and changes sign when the parties are swapped provided no district is tied (with ties antisymmetry is refuted). With equal turnout it equals the first party's seat margin minus twice its vote margin. It is a ValueError unless there are exactly two parties and a ZeroDivisionError when nobody voted.", "quantifier": "all two-party vote tables with positive total", "why_tests_cant": "Universal over vote tables.", "anchors": ["gerrychain/metrics/partisan.py:efficiency_gap,wasted_votes"]}
{"id": "C72", "title": "Partisan Gini: symmetric, below 2, and within [0,1] for equal turnout only", "statement": "partisan_gini is non-negative, takes the same value for both parties, is at most 1 when all districts have equal turnout, and is below 2 in general; the documented bound 1 is refuted for unequal turnout. If nobody voted it raises ZeroDivisionError.", "quantifier": "all two-party vote tables", "why_tests_cant": "Universal over vote tables.", "anchors": ["gerrychain/metrics/partisan.py:partisan_gini"]}
{"id": "C73", "title": "Mean-median, mean-thirdian and partisan bias are well defined", "statement": "When every district has votes: mean_median is the median minus the mean share, where at least half of the districts lie on each side of the median, and it changes sign when the parties are swapped; mean_thirdian is defined for every positive number of districts and uses the share whose rank is the integer nearest to a third of them; partisan_bias is the fraction of districts above the mean less 1/2 and lies in [-1/2,1/2). As soon as one district has no votes mean_median is NaN, but partisan_bias silently returns -1/2.", "quantifier": "all vote-share lists", "why_tests_cant": "Universal over lists of every length.", "anchors": ["gerrychain/metrics/partisan.py:mean_median,mean_thirdian,partisan_bias"]}
{"id": "C74", "title": "Diversity statistics count distinct plans and districts", "statement": "After every step collect_diversity_stats reports the number of steps, as many unique districts as there are distinct node sets (an emptied district counts as the empty set) and as many unique plans as there are distinct cut-edge sets so far; if all plans are contiguous this is the number of plans up to relabelling of districts, in general it is at most that; for non-contiguous plans it can be smaller (refuted).", "quantifier": "all chains of plans", "why_tests_cant": "Universal over plan sequences and graphs.", "anchors": ["gerrychain/meta/diversity.py:collect_diversity_stats"]}
{"id": "C75", "title": "Locality scores measure what they say", "statement": "num_parts is the number of (locality, district) pairs that meet, num_split_localities the number of localities meeting two or more districts, num_pieces the number of connected pieces of locality-district intersections, and naked_boundary the number of cut edges inside a locality.", "quantifier": "all graphs, plans and locality labels", "why_tests_cant": "Universal over graphs and plans.", "anchors": ["gerrychain/updaters/locality_split_scores.py:LocalitySplits"]}
{"id": "C76", "title": "Locality entropy scores crash on non-string localities", "statement": "shannon_entropy and power_entropy raise KeyError for every plan whose localities are not strings.", "quantifier": "all plans with non-string locality labels", "why_tests_cant": "Universal over inputs.", "anchors": ["gerrychain/updaters/locality_split_scores.py:LocalitySplits.shannon_entropy,power_entropy"]}
{"id": "C77", "title": "Region split counts agree with their meaning on connected regions", "statement": "tally_region_splits counts the regions containing a cut edge; this equals the number of regions meeting at least two districts whenever every region is connected, and under-counts otherwise (refuted).", "quantifier": "all graphs, region labels and plans", "why_tests_cant": "Universal over graphs.", "anchors": ["gerrychain/updaters/county_splits.py:tally_region_splits,total_reg_splits"]}
{"id": "C78", "title": "Grids have the stated structure", "statement": "An m by n grid has m*n nodes, each linked exactly to its horizontal and vertical neighbours (and diagonal ones if requested); in every plan derived from it a district's population and area are its number of cells; with m,n>=2 the default plan consists of exactly four contiguous quadrants (one-row grids get two districts only); the default updaters replace user updaters of the same name; as_list_of_lists returns the transpose of the documented matrix (refuted).", "quantifier": "all grid sizes", "why_tests_cant": "Universal over sizes.", "anchors": ["gerrychain/grid.py:Grid,create_grid_graph,color_half,color_quadrants,as_list_of_lists"]}
{"id": "C79", "title": "Grid perimeters are geometric", "statement": "On an m by n grid with m,n>=2, with or without diagonals, and after every history of flips and reads the perimeter of a district equals the number of sides of its cells with another district or nothing behind; every cell has population and area 1, exactly the cells at the border are boundary nodes and have a boundary_perim, and it is the number of the cell's sides with nothing behind; for grids with one row or column the stored boundary length is too small for every cell (refuted).", "quantifier": "all grid sizes and plans", "why_tests_cant": "Universal over sizes and plans.", "anchors": ["gerrychain/grid.py:get_boundary_perim,tag_boundary_nodes", "gerrychain/updaters/compactness.py:perimeter"]}
{"id": "C80", "title": "Graph.join and add_data only write the requested data", "statement": "join sets exactly the requested columns (by default all but the one rows are matched by) on exactly the nodes that have a key, to the values in the last row with that key, and changes nothing else; it succeeds exactly when the columns exist and every key has a row, and otherwise raises KeyError before anything is written. add_data writes every column of the table on every node with a row, also columns that were not requested (refutation of its documentation), changes nothing else, ignores rows without a node and raises ValueError when two rows have the same label.", "quantifier": "all graphs and tables", "why_tests_cant": "Universal over tables.", "anchors": ["gerrychain/graph/graph.py:Graph.join,add_data"]}
{"id": "C81", "title": "Rook adjacency is contained in queen adjacency and is symmetric", "statement": "For every collection of geometries with distinct labels, rook adjacency gives exactly the pairs with intersection of positive length and queen adjacency exactly the pairs with non-empty intersection, each stored once with the length of the intersection, so rook edges are queen edges; the overlap report names exactly the pairs whose intersection has positive area, islands are the units without a neighbour, and any other adjacency name is a ValueError.", "quantifier": "all collections of geometries (intersection oracle)", "why_tests_cant": "Universal over geometries.", "anchors": ["gerrychain/graph/adjacency.py:rook,queen,neighbors"]}
{"id": "C82", "title": "Boundary lengths from geometries account for every unit's perimeter", "statement": "After add_boundary_perimeters, for every boundary unit the exterior boundary length plus the shared lengths equals its total perimeter, and other units get no exterior length. So at any point of a run a district's reported perimeter is the sum of its units' perimeters, less twice the length shared inside it, less whatever part of the perimeters of its non-boundary units is not shared with a neighbour (nothing, if those are surrounded by neighbours).", "quantifier": "all geometry data", "why_tests_cant": "Universal over data.", "anchors": ["gerrychain/graph/graph.py:Graph.add_boundary_perimeters", "gerrychain/updaters/compactness.py:perimeter"]}
{"id": "C83", "title": "num_spanning_trees counts the spanning trees of each district", "statement": "For every graph without edge weights and every plan whose districts have at least two nodes, num_spanning_trees gives for every district the exact number of spanning trees of the district's induced subgraph (0 if it is not connected), although it deletes row 0 and column 1 of the Laplacian; with edge weights it gives the absolute value of the sum over spanning trees of the product of their weights; for a one-node district, which has exactly one spanning tree, the updater raises IndexError.", "quantifier": "all graphs, integer edge weights and plans (exact arithmetic instead of exp(slogdet))", "why_tests_cant": "Matrix-tree theorem over all graphs.", "anchors": ["gerrychain/updaters/spanning_trees.py:_num_spanning_trees_in_district"]}
{"id": "C84", "title": "UTM zones", "statement": "For every latitude and every longitude in [-180,180) the computed UTM zone number is between 1 and 60 and the zone letter is defined for latitudes in [-80,84]; a point is accepted exactly if its latitude is in [-80,84] and its longitude in [-180,180], and a single centroid outside makes identify_utm_zone raise; at longitude 180 the zone number is 61, which the library itself rejects.", "quantifier": "all coordinates", "why_tests_cant": "Universal over coordinates.", "anchors": ["gerrychain/vendor/utm/conversion.py:latlon_to_zone_number,latitude_to_zone_letter"]}
{"id": "C85", "title": "districts_within_tolerance compares the spread with the smallest district", "statement": "districts_within_tolerance accepts a plan iff the difference between the largest and the smallest value is at most the tolerance times the smallest value, where a percentage of 1 or more is first divided by 100; hence it is not monotone in the percentage (0.9 accepts plans that 1 rejects).", "quantifier": "all non-empty lists of values and all percentages", "why_tests_cant": "Universal over values; the discontinuity at 1 is easy to miss.", "anchors": ["gerrychain/constraints/validity.py:districts_within_tolerance"]}
{"id": "C86", "title": "Deviations from the ideal sum to zero", "statement": "deviation_from_ideal returns for each district the x with value = ideal*(1+x), where ideal is total divided by the number of entries; the deviations always sum to zero; it raises ZeroDivisionError iff the total is zero (or there is no entry).", "quantifier": "all tallies", "why_tests_cant": "Algebraic identity over all tallies.", "anchors": ["gerrychain/constraints/validity.py:deviation_from_ideal"]}
{"id": "C87", "title": "no_more_discontiguous is configured once per process", "statement": "The module-level constraint no_more_discontiguous accepts, in every history of calls by any number of chains, exactly the plans with at least as many contiguous districts as the first plan ever checked in the process; that it accepts the initial plan of a later chain is therefore refuted.", "quantifier": "all call histories over all chains of a process", "why_tests_cant": "Depends on the history of the whole process.", "anchors": ["gerrychain/constraints/contiguity.py:no_more_discontiguous", "gerrychain/constraints/bounds.py:SelfConfiguringLowerBound"]}
{"id": "C88", "title": "Nested loops over one chain share its counter", "statement": "If a loop over a MarkovChain has run to its end, the next value requested from the same chain by any other loop is StopIteration; so in two nested loops over the same chain object the inner loop goes through the whole chain and the outer one yields only the initial plan.", "quantifier": "all chains whose callbacks do not raise StopIteration, all loop bodies", "why_tests_cant": "Depends on every interleaving of two iterations over the same object.", "anchors": ["gerrychain/chain.py:MarkovChain.__iter__,__next__"]}
{"id": "C89", "title": "Construction with an invalid initial plan", "statement": "For constraints that return a bool without raising, constructing a chain succeeds iff all of them accept the initial plan; otherwise it raises ValueError if all failed constraints have a __name__ and AttributeError if one has not, as is the case when the constraints are given as a Validator object; a constraint after the failing one that raises replaces the ValueError by its own exception.", "quantifier": "all constraint lists, initial plans and step counts", "why_tests_cant": "The usual documented way of passing constraints is exactly the case whose error path is wrong.", "anchors": ["gerrychain/chain.py:MarkovChain.__init__", "gerrychain/constraints/validity.py:Validator"]}
{"id": "C90", "title": "contiguous_components splits districts into their connected pieces", "statement": "contiguous_components returns for every district label a list of non-empty node sets that cover the district, do not overlap, are each connected inside the district, and are not joined to each other by any edge of the district.", "quantifier": "all graphs and all plans, with empty and disconnected districts", "why_tests_cant": "Correctness of a search on every graph; tests look at a few grids.", "anchors": ["gerrychain/constraints/contiguity.py:contiguous_components"]}
{"id": "C91", "title": "number_of_contiguous_parts counts the connected districts", "statement": "For every plan without empty districts number_of_contiguous_parts is the number of labels whose district is connected.", "quantifier": "all graphs and all plans without empty districts", "why_tests_cant": "Correctness of a search on every graph.", "anchors": ["gerrychain/constraints/contiguity.py:number_of_contiguous_parts"]}
{"id": "C92", "title": "propose_any_node_flip moves at most one node to an existing district", "statement": "On every non-empty graph and for all draws propose_any_node_flip succeeds and returns a child that differs from its parent at no node but the drawn one, which is now in the drawn district, one of the parent's districts.", "quantifier": "all plans, histories and random choices", "why_tests_cant": "Universal over random choices.", "anchors": ["gerrychain/proposals/proposals.py:propose_any_node_flip"]}
{"id": "C93", "title": "random_spanning_tree returns a spanning tree of minimum weight", "statement": "For every connected graph and every draw of the edge weights random_spanning_tree returns a spanning tree whose total weight (draw plus the surcharge of every region column in which the ends differ or lack a region) is minimal among all spanning trees; its only failure is KeyError, for a node without the region column.", "quantifier": "all connected graphs, draws and surcharges", "why_tests_cant": "Optimality over all spanning trees of every graph.", "anchors": ["gerrychain/tree.py:random_spanning_tree"]}
{"id": "C94", "title": "Entropy scores of locality splits", "statement": "With string localities, shannon_entropy is the sum over districts and localities of size-weighted inner terms with logarithms and power_entropy the analogous sum with powers; both are non-negative (power_entropy for a positive exponent) and zero iff no locality is split. If every district and locality has people, symmetric_entropy is at least twice the total population, with equality iff districts and localities coincide on populated units; it raises ZeroDivisionError when a district has no people.", "quantifier": "all graphs, plans, locality labels and populations", "why_tests_cant": "Real-valued formulas over every plan; tests compare a few numbers.", "anchors": ["gerrychain/updaters/locality_split_scores.py:LocalitySplits.shannon_entropy,power_entropy,symmetric_entropy"]}
{"id": "C95", "title": "LocalitySplits is bound to the localities of the first plan read", "statement": "One LocalitySplits object scores every plan with the localities of the graph of the very first plan it was called on, except num_pieces, which uses the current graph's; so its scores on a plan over another graph are refuted to be that plan's.", "quantifier": "all read histories over plans on any graphs", "why_tests_cant": "Hidden state across uses of one object.", "anchors": ["gerrychain/updaters/locality_split_scores.py:LocalitySplits.__call__"]}
{"id": "C96", "title": "Building a graph from a table of geometries: what is refused and what is stored", "statement": "from_geodataframe raises GeometryError exactly if errors are not ignored and a geometry is invalid before reprojection, or errors are ignored, reprojection is asked for and a geometry is invalid after it (the second test is inverted, contrary to the documentation). Otherwise it fails only for an unknown adjacency (ValueError) or a missing requested column (KeyError). The nodes are the rows; every column becomes a node attribute, whatever columns were requested, and a column named area, boundary_node or boundary_perim replaces the computed attribute.", "quantifier": "all tables with distinct labels, all geometry libraries, all arguments", "why_tests_cant": "Universal over tables and geometries.", "anchors": ["gerrychain/graph/graph.py:Graph.from_geodataframe", "gerrychain/graph/geo.py:invalid_geometries,reprojected"]}
{"id": "C97", "title": "spectral_recom: what it redraws, connectivity, and the weights it leaves behind", "statement": "spectral_recom returns a new plan that only redistributes the nodes of two adjacent districts between these two, or raises IndexError (no cut edge). If the districts are connected, the weights positive, numpy.linalg.eigh returns an ascending orthonormal eigensystem, and the rows of the matrix are in the order of graph.nodes(), then for either Laplacian both districts get a node, the one of the nodes with non-positive entries is connected, and so is the other one if no entry is exactly zero. Both provisos are needed: with a zero entry, or with rows in the iteration order of a set of nodes (which is what the code uses) that differs from graph.nodes(), a district may fall apart. weight_type 'random' overwrites the edge attribute 'weight' of the user's graph inside the two districts and nowhere else.", "quantifier": "all graphs, plans, histories, edge weights, draws and eigensystems", "why_tests_cant": "Fiedler's theorem over every graph and every choice of eigenvectors.", "anchors": ["gerrychain/proposals/spectral_proposals.py:spectral_cut,spectral_recom", "gerrychain/graph/graph.py:FrozenGraph.__iter__"]}
{"id": "C98", "title": "reversible_recom is in detailed balance with the spanning tree distribution", "statement": "If the spanning trees of the two districts together are drawn uniformly, no tree has more than M balanced cuts, the two districts have at least three nodes together and repeat_until_valid is False, then reversible_recom with a given drawn pair of districts turns a plan into another one that splits the two districts differently (both parts balanced) with probability T1*T2/(M*T), where T1, T2 and T are the numbers of spanning trees of the two new districts and of the two together, whatever the roots of the cut search. A call that draws another pair cannot lead to that plan. Hence for two plans that differ in one pair of districts, weight(x) * P(x to y) = weight(y) * P(y to x), the weight being the product of the numbers of spanning trees of the districts.", "quantifier": "all graphs, populations, plans and histories, targets, tolerances, bounds M, both cut searches", "why_tests_cant": "A probability over all spanning trees of every graph; a test sees samples.", "anchors": ["gerrychain/proposals/tree_proposals.py:reversible_recom", "gerrychain/tree.py:_bipartition_tree_random_all,find_balanced_edge_cuts_memoization,find_balanced_edge_cuts_contraction"]}
{"id": "C99", "title": "uniform_spanning_tree draws every spanning tree with the same probability", "statement": "On a connected graph with at least two nodes, if every random choice is uniform over the neighbours offered, then for every number of draws n the probability that the call has returned a given spanning tree after at most n draws is the same for all spanning trees of the graph. It never exceeds one over the number of spanning trees and tends to that number as n grows; so the call ends with probability one and the tree is uniform.", "quantifier": "all connected graphs, numbers of draws and sequences of draws", "why_tests_cant": "Uniformity over every graph and an unbounded random walk; a test sees frequencies on one graph.", "anchors": ["gerrychain/tree.py:uniform_spanning_tree"]}
{"id": "C100", "title": "random_spanning_tree: which trees can occur, regions stay joined, and it is not uniform", "statement": "On a connected graph, random_spanning_tree returns a given spanning tree whenever its edges weigh less than all others (so without surcharges every spanning tree can occur); without surcharges the result depends only on the order of the random weights. At every weight level, nodes joined in the graph by edges up to that weight are joined in the tree by such edges; hence with one region column and a surcharge of at least one, nodes that a region joins in the graph are joined in the tree inside the region. The distribution is not uniform: on a square with a diagonal, of the 120 equally likely orders of the weights, 14 give a tree that avoids the diagonal and 16 give one that uses it.", "quantifier": "all connected graphs, surcharges, weights and spanning trees", "why_tests_cant": "Over every graph and every weighting; a test sees samples.", "anchors": ["gerrychain/tree.py:random_spanning_tree"]}
{"id": "C101", "title": "The law of a chain step when invalid proposals are redrawn", "statement": "If the constraints depend on the plan only and each proposal is driven by a uniform draw, the chain moves from a plan x to a different valid plan y with probability (draws that propose y and accept it) / (draws whose proposal is valid), since invalid proposals are redrawn and not counted. So if proposing and accepting is in detailed balance with a weight among valid plans, the chain is in detailed balance with, and leaves invariant, weight(x) * number of valid draws of x; not the weight itself: a symmetric proposal need not leave the uniform distribution on the valid plans invariant.", "quantifier": "all proposals, acceptance rules, plan-only constraints, plans and numbers of redraws", "why_tests_cant": "A limit over unboundedly many redraws and an invariant distribution over all plans.", "anchors": ["gerrychain/chain.py:MarkovChain.__next__"]}
{"id": "C102", "title": "How likely the flip proposals are to propose a given plan, and what they are in balance with", "statement": "With k cut edges, exactly as many of the 2k equally likely draws of propose_random_flip propose to move a node to a district as the node has neighbours there. Followed by cut_edge_accept, a step from one plan to another that moves one node has probability d*min(k,k')/(2*k*k'), where d is that number of neighbours and k, k' are the numbers of cut edges before and after; so the steps are in balance with the uniform distribution iff the node has as many neighbours in the new district as in the old one, which is false in general. Of the draws of slow_reversible_propose (one per boundary move), and for two districts of slow_reversible_propose_bi (one per boundary node), exactly one proposes a given move; hence slow_reversible_propose is in balance with the number of boundary moves, not with the uniform distribution. Exactly one pair of draws of propose_any_node_flip proposes a given move.", "quantifier": "all graphs, plans with any history, nodes, districts and draws", "why_tests_cant": "Exact probabilities for every plan; a test sees frequencies on one plan.", "anchors": ["gerrychain/proposals/proposals.py:propose_random_flip,slow_reversible_propose,slow_reversible_propose_bi,propose_any_node_flip", "gerrychain/accept.py:cut_edge_accept"]}
{"id": "C103", "title": "What Polsby-Popper scores and the compactness constraints guarantee", "statement": "Whatever plans were built and read before, polsby_popper gives every district the score q with q * perimeter^2 = 4 * pi * area for its exact area and perimeter, and NaN exactly when the perimeter is zero; it does not fail while no district is empty. On a grid of at least 2x2 every score is positive and at most pi/4, with equality exactly for square districts. For positive scores, L_minus_1 is the harmonic mean, at most the mean of L1; L2 <= L1 <= sqrt(n) L2; a zero score raises ZeroDivisionError and otherwise a NaN score makes the norms NaN. no_worse_L1_reciprocal_polsby_popper accepts exactly the plans whose sum of reciprocal scores is at most that of the first plan it was ever called on, and so no accepted plan has a district scoring below one over that sum. What it accepts no_worse_L_minus_1_polsby_popper accepts too for the same number of districts, unless the bound of the latter is zero. If the first plan has a NaN norm both constraints reject every plan, itself included, for ever. The bound is per process, not per chain: a second chain's own initial plan can be rejected.", "quantifier": "all graphs and attributes, all histories, all grids, all plans and sequences of plans the constraints are called on", "why_tests_cant": "An isoperimetric inequality over all shapes and inequalities over all score lists; the per-process bound only shows over a history of two chains.", "anchors": ["gerrychain/metrics/compactness.py:compute_polsby_popper,polsby_popper", "gerrychain/constraints/compactness.py:L1_reciprocal_polsby_popper,L1_polsby_popper,L2_polsby_popper,L_minus_1_polsby_popper,no_worse_L_minus_1_polsby_popper,no_worse_L1_reciprocal_polsby_popper", "gerrychain/constraints/bounds.py:SelfConfiguringUpperBound,SelfConfiguringLowerBound", "gerrychain/grid.py:Grid"]}
{"id": "C104", "title": "Which distribution ordinary recom with exact balance is in detailed balance with", "statement": "Take recom with its default settings (node_repeats 1, pair reselection off, a tree cut function that tries up to m trees) on plans whose two merged districts are such that a spanning tree has at most one balanced edge, which is so for epsilon 0 and positive populations. Among the (number of cut edges) x K^m equally weighted outcomes of the drawn edge and the m spanning trees (K is the number of spanning trees of the merged districts, F the number of them with no balanced edge), exactly d1 * d2 * kA * kB * (K^(m-1) + F K^(m-2) + ... + F^(m-1)) lead to a given balanced split, where d1 and d2 are the numbers of edges between the two districts before and after and kA, kB the numbers of spanning trees of the new districts. A call fails with RuntimeError exactly if all m trees fail. A call that draws an edge between another pair of districts does not produce the split. It follows that recom is in detailed balance with the weight (number of cut edges) x (product of the numbers of spanning trees of the districts), up to exchanging the two labels. It is not in balance with the product of spanning tree counts alone, nor with the uniform distribution: there are two plans of a five node graph with chances 3/11 and 6/11 and products 3 and 1.", "quantifier": "every graph, partition session, pair of plans that differ in one pair of districts, number m of attempts, cut finder, edge weights, roots and choice function", "why_tests_cant": "The law of a proposal is a statement about the share of all outcomes of the draws on every graph; tests sample a few runs on a few graphs and cannot tell a distribution from one with a different weight.", "anchors": ["gerrychain/proposals/tree_proposals.py: recom", "gerrychain/tree.py: bipartition_tree, epsilon_tree_bipartition, find_balanced_edge_cuts_memoization, find_balanced_edge_cuts_contraction"]}
{"id": "C105", "title": "An assignment made by from_dict or copy is private; one made from the caller's dictionaries is not", "statement": "An Assignment made by Assignment.from_dict or by copy() keeps its districts for good, whatever is done afterwards to other assignments, to dictionaries of the caller, or to the object it was copied from, as long as nobody writes to the new object itself or to its own dictionaries. Flipping by copy and update_flows therefore has exactly the effect of the value semantics used for Partition.flip and leaves every other assignment as it was. The boundary: Assignment(parts) keeps the caller's parts dictionary and Assignment(parts, mapping) keeps both, so two assignments made from one dictionary share it and a flow applied to one leaves the other with parts and mapping that disagree; to_dict() returns the internal mapping, so writing to it changes the plan and only one of its two views.", "quantifier": "all sequences of constructions, copies, updates and writes by the caller, before and after the assignment is made; all flips", "why_tests_cant": "sharing shows only when particular objects are written to in a particular order; tests look at one object at a time", "anchors": ["gerrychain/partition/assignment.py: Assignment, Assignment.copy, Assignment.update_flows, Assignment.update_parts, Assignment.to_dict, Assignment.to_series, get_assignment", "gerrychain/partition/partition.py: Partition._first_time, Partition._from_parent, Partition.from_districtr_file"]}
{"id": "C106", "title": "What update_parts does, and exactly when it leaves parts and mapping in agreement", "statement": "update_parts(new_parts) sets each named part to exactly the given nodes, leaves the other parts as they were, and gives every placed node the last named part that holds it as its district, leaving all other nodes' districts as they were. The parts and the mapping agree afterwards if and only if no node is placed in two different parts, every placed node came from one of the named parts (or from none), and every node of a named part is placed again. Otherwise a node can be in no part and yet be reported in a district, and len() differs from the number of nodes iterated over.", "quantifier": "all assignments whose parts and mapping agree, all dictionaries of new parts", "why_tests_cant": "the condition ranges over all combinations of old and new parts; a test sees a few well-formed replacements", "anchors": ["gerrychain/partition/assignment.py: Assignment, Assignment.copy, Assignment.update_flows, Assignment.update_parts, Assignment.to_dict, Assignment.to_series, get_assignment"]}
{"id": "C107", "title": "Reading an assignment and building a plan from an attribute, a mapping, an assignment or a Districtr file", "statement": "For an assignment over the nodes of a graph, iteration gives each node once, len is the number of nodes, membership and item access agree with the parts, and to_series lists exactly the node-district pairs of to_dict (ValueError if there is no district at all). Two assignments compare equal exactly if every node has the same district in both. get_assignment takes a node attribute (TypeError without a graph, KeyError exactly if some node lacks it), a mapping or an assignment, and anything else is a TypeError; the districts are those of the source. A plan rebuilt from the assignment of another plan compares equal to it and reacts in the same way to every flip into districts that have nodes, but it has lost the districts without nodes: a flip into one, which the old plan allows, raises KeyError. A plan read from a Districtr file has for each node the district given to its id; TypeError if a node lacks the id column, KeyError if the file lacks the column name, the assignment or an id of a node; ids of the file without a node are ignored.", "quantifier": "all graphs, all assignments over their nodes, all sources, all flips, all Districtr plans", "why_tests_cant": "error outcomes are characterised for every input; the lost districts show only for plans with an empty district", "anchors": ["gerrychain/partition/assignment.py: Assignment, Assignment.copy, Assignment.update_flows, Assignment.update_parts, Assignment.to_dict, Assignment.to_series, get_assignment", "gerrychain/partition/partition.py: Partition._first_time, Partition._from_parent, Partition.from_districtr_file"]}
{"id": "C108", "title": "A plan freezes the graph it is given: the structure is fixed for good, attributes are not, and lookup can be out of date", "statement": "From the moment a Graph is given to a plan (FrozenGraph(graph)), the caller's own graph object refuses add_node, add_edge, remove_node, remove_edge, add_data and join with NetworkXError, so its nodes and edges never change again (before, these calls add and remove exactly the nodes and edges named, or raise if what is to be removed is missing; add_data and join store the last value given for a node and field; a removed node takes its attributes along); a copy of it can be changed freely and neither shows in the other. Hence neighbors and degree of a FrozenGraph or of a subgraph of it are those of the graph it shows, whatever was read or evicted from the shared caches before. Attributes can still be written through graph.nodes. lookup(node, field) then returns a value that the attribute had at some time since the FrozenGraph was made, and KeyError only if it has none now; it returns the current value if nobody wrote to the attribute since. A value that was read once sticks, whatever is written, while fewer than 65536 (the size of the cache) other attributes are looked up, and is read again after that many: two reads with only other reads between them can give different values.", "quantifier": "all programs of graph constructions, copies, mutations, attribute writes, plans, subgraphs and reads; all cache sizes", "why_tests_cant": "the caches are shared by all FrozenGraphs of the process and evict by recency; the outcome depends on the whole history of reads and writes, and eviction needs graphs larger than any test graph", "anchors": ["gerrychain/graph/graph.py: FrozenGraph, FrozenGraph.neighbors, FrozenGraph.degree, FrozenGraph.lookup, FrozenGraph.subgraph", "gerrychain/partition/partition.py: Partition._first_time", "gerrychain/updaters/tally.py: Tally._get_tally_from_node, compute_out_flow"]}
{"id": "C109", "title": "plan.subgraphs[p] is the subgraph induced by district p", "statement": "Reading a district of a SubgraphView gives the subgraph of the plan's graph induced by the nodes of the district, whatever else is read, written or built in between, and always the same object; KeyError exactly if there is no such district. The boundary: if the parts dictionary is written to (update_parts or direct writes) after the district was read, the old subgraph keeps coming back.", "quantifier": "all graphs, parts, districts and programs before and between the reads", "why_tests_cant": "correctness of the cache is a statement about all interleavings of reads and writes", "anchors": ["gerrychain/partition/subgraphs.py: SubgraphView", "gerrychain/graph/graph.py: FrozenGraph.subgraph", "gerrychain/partition/partition.py: Partition.__init__"]}
{"id": "C110", "title": "Saving a graph as JSON and loading it gives the same graph, and exactly what is lost otherwise", "statement": "Graph.from_json of a file that Graph.to_json wrote gives the same graph that Graph.from_networkx gives, provided that nodes are numbers or strings, and attributes of nodes, edges and the graph have string names other than id and values made of numbers, strings, booleans, None, lists and string-keyed dictionaries: same nodes in the same order, same attributes, same edges. Only the order of a node's neighbours can change: those that come before the node first, in node order, then the others as they were. In general: a graph that was loaded can be saved and loaded any number of times and comes back identical, including that order; an attribute with such a value survives even if others do not; no attribute called id survives; no attribute appears that was not there; geometries of nodes come back as GeoJSON if asked for and are gone otherwise; to_json raises nothing but TypeError. A file of a graph with other nodes, such as the pairs of a grid, is written without complaint and from_json refuses it. Values json does not know become None, tuples become lists, and of two keys written alike one is lost.", "quantifier": "all networkx graphs with any node labels and any nested attribute values", "why_tests_cant": "round trips over all nested values and all graphs; the order of neighbours depends on the whole adjacency structure", "anchors": ["gerrychain/graph/graph.py: Graph.to_json, Graph.from_json, Graph.from_networkx, json_serialize, remove_geometries, convert_geometries_to_geojson"]}
{"id": "C111", "title": "Attributes of a plan are its updaters, except for reserved names; missing ones raise KeyError", "statement": "On a finished plan p.name is p[name] for every name that is not a slot, property, method or attribute of the class: the cached value, or else the value the updater gives now, which is what every later read gives. If there is no updater of that name both raise KeyError, so hasattr(p, name), and getattr(p, name, default), raise KeyError instead of answering; copy.deepcopy of a plan fails for this reason. An updater named like a slot or method is reached as p[name] only. On an object whose slots are not filled in, as copy and pickle create it, any such look-up recurses without end. edge_flows is None on a first plan, the edge flows on a flipped plan with an updater cut_edges, and otherwise what p['edge_flows'] is, usually KeyError.", "quantifier": "all plans, updaters (also random ones and ones that raise), names and histories of reads", "why_tests_cant": "the names are the user's; the claim is about every name and every state of the object, including unfinished ones", "anchors": ["gerrychain/partition/partition.py: Partition.__slots__, Partition.__getattr__, Partition.__getitem__, Partition.parts, Partition.__init__, Partition._from_parent"]}
{"id": "C112", "title": "What a chain does after an interrupt or an exception in the middle of a step", "statement": "If the proposal, a constraint or the acceptance function raises, or the chain is finished, the chain object is exactly as it was before the call of next: same state, same count, and next can be called again. If next is cut off between two of its statements (KeyboardInterrupt) the chain is in one of three states: unchanged; moved to the new plan without having counted the step; or moved or stayed and counted without having handed the plan out. Whatever the interrupts, exceptions and restarts in a history, every plan handed out is the initial plan or passed all constraints. Between restarts at most max(1, total_steps) plans are handed out, and the chain moves at most once per plan handed out or interrupt. When StopIteration is reached at most one plan per interrupt is missing. So it is not true that an interrupted chain can be continued as if nothing had happened: a counted plan can be swallowed, and a move can go uncounted.", "quantifier": "all proposals, constraints and acceptance functions (also stateful, random and raising ones), all points of interruption and all histories of next, interrupt, exception and iter", "why_tests_cant": "the points at which an interrupt can strike and the histories that follow are unbounded; a test can only place an interrupt inside a callback, not between two statements", "anchors": ["gerrychain/chain.py: MarkovChain.__next__, MarkovChain.__iter__"]}
{"id": "C113", "title": "Chains of recom and of reversible_recom keep districts connected and balanced without any constraint", "statement": "In a chain with proposal recom (functools.partial or ReCom) or reversible_recom, whatever the constraints, the acceptance function and the user's loop body do: every yielded plan has the same district labels as the initial plan; if the initial plan's districts are all connected, so are those of every yielded plan; each district of a yielded plan is an untouched district of the initial plan or has a population within the tolerance. So a balanced plan stays balanced. From a connected plan recom never proposes a plan that the constraint contiguous rejects, and from a balanced plan never one that within_percent_of_ideal_population with a percentage of at least epsilon rejects.", "quantifier": "all graphs, populations, targets > 0 and tolerances < 1, initial plans, bipartition methods that keep their contract, random draws, chain lengths, constraints, acceptance functions and loop bodies that only read, flip or copy plans", "why_tests_cant": "an invariant of runs of any length over all random draws; unit tests run a few steps on a grid", "anchors": ["gerrychain/proposals/tree_proposals.py: recom, ReCom, reversible_recom", "gerrychain/chain.py: MarkovChain", "gerrychain/constraints/validity.py: within_percent_of_ideal_population", "gerrychain/constraints/contiguity.py: contiguous"]}
{"id": "C114", "title": "Which plans a chain of flips or recombinations can and cannot reach", "statement": "A chain of propose_any_node_flip without constraints can turn any plan into any other plan over the same district labels, in any number of steps that is at least the number of nodes. A chain of propose_random_flip on a connected graph can put every node into any one district that has a node. There is no way back: along a chain of propose_random_flip, propose_chunk_flip, slow_reversible_propose, propose_bi or propose_flip_every_district, with any constraints, acceptance function, draws and user code that reads and flips plans, a district that is empty in one yielded plan is empty in all later ones, and a plan with all nodes in one district is never left. Every plan yielded by a chain of the first four is the initial plan or has an edge inside a district, so these chains cannot reach every plan. Recombination cannot either: on the cycle of six nodes with equal populations, three districts and tolerance zero there are two plans with connected balanced districts, and no chain of recom or reversible_recom that starts from one ever yields the other, even up to relabelling, whatever the bipartition methods, spanning trees, constraints and draws.", "quantifier": "all graphs, plans, numbers of steps, sequences of random draws, constraints, acceptance functions and loop bodies; for the recombination counterexample all bipartition methods that meet their contract", "why_tests_cant": "Reachability is about all runs of a chain of any length: a test sees a few runs and cannot tell an unlikely plan from an unreachable one.", "anchors": ["gerrychain/proposals/proposals.py: propose_any_node_flip", "gerrychain/proposals/proposals.py: propose_random_flip", "gerrychain/proposals/proposals.py: propose_chunk_flip", "gerrychain/proposals/proposals.py: slow_reversible_propose", "gerrychain/proposals/proposals.py: propose_bi", "gerrychain/proposals/proposals.py: propose_flip_every_district", "gerrychain/proposals/tree_proposals.py: recom", "gerrychain/proposals/tree_proposals.py: reversible_recom", "gerrychain/chain.py: MarkovChain"]}
{"id": "C115", "title": "What an updater replies does not depend on what was read before", "statement": "Reading partition[k] gives the same reply (the same value, or the same exception) whatever was done with the plans before: whichever other updaters of this plan or of any other plan have been read or not read, in whatever order, with whatever flips made and whatever labels looked up in the answers in between. For the three updaters whose answers are defaultdicts (cut_edges_by_part, exterior_boundaries, exterior_boundaries_as_a_set) the same reply means the same entry under every label, a missing one counting as the default. Reading a name that is no updater always raises KeyError. The exception is plan.parent = None, which the chain itself performs: cutting a plan off from its parent before the first read can change the reply, for example from NaN to a number when a node's data is missing.", "quantifier": "all graphs, initial plans, sets of updaters, histories of flips, reads, look-ups and erased parents before, and any two continuations with flips, reads and look-ups", "why_tests_cant": "Updaters are computed lazily, from the parent's cached values or from scratch, and look-ups mutate cached defaultdicts: the number of orders in which values can be read is unbounded, and a test reads in one order.", "anchors": ["gerrychain/partition/partition.py: Partition.__getitem__", "gerrychain/updaters/flows.py: on_flow", "gerrychain/updaters/flows.py: on_edge_flow", "gerrychain/updaters/compactness.py: exterior_boundaries", "gerrychain/updaters/compactness.py: interior_boundaries", "gerrychain/updaters/compactness.py: perimeter", "gerrychain/updaters/tally.py: Tally", "gerrychain/updaters/cut_edges.py: cut_edges"]}
{"id": "C116", "title": "A read that is cut short leaves nothing wrong behind", "statement": "If the computation of partition[k] is cut short at any moment (Ctrl-C, a signal handler that raises), at any depth of the nested reads of parents and other updaters, then the plans of the session are as good as before: assignments, parents and flips are unchanged, answers that had been given stay, nothing is stored under k for the read that was cut short, and every later read of any updater of any plan gives the reply it would have given had the read never been tried. All properties of sessions of flips and reads keep holding when any number of reads are cut short.", "quantifier": "all sessions, all updaters and plans, all moments of all nested reads, any number of reads cut short", "why_tests_cant": "The moment of an interrupt is arbitrary: between any two changes to a cache, at any nesting depth. A test can only interrupt at a few places.", "anchors": ["gerrychain/partition/partition.py: Partition.__getitem__", "gerrychain/updaters/flows.py: on_flow", "gerrychain/updaters/flows.py: on_edge_flow", "gerrychain/updaters/compactness.py: exterior_boundaries", "gerrychain/updaters/compactness.py: interior_boundaries", "gerrychain/updaters/compactness.py: perimeter"]}
{"id": "C117", "title": "The coordinate reference system a graph records", "statement": "Graph.from_geodataframe records in graph.graph['crs'] the system its areas and lengths are computed in: the UTM system with reproject=True, otherwise the table's own, or crs_override if the table has none, or None. The system changes nothing else about the graph. A call that fails leaves the caller's table as it was; one that works changes it only by writing crs_override into a table that had no system, when reproject is False. The boundary: crs_override does not override. A table that has another system is refused with ValueError; with reproject=True the override is compared with the UTM system; and a table without a system cannot be reprojected whatever crs_override says. Graph.from_file always records the system of the file, so with reproject=True the record does not match the areas and geometries in the graph, and a file without a system is refused with AttributeError although from_geodataframe accepts its table.", "quantifier": "all tables, coordinate reference systems, adjacency kinds, columns, flags and overrides, all geometry libraries and projections", "why_tests_cant": "The outcome depends on the combination of the table's system, the UTM system chosen from its geometries, the override and two flags; tests cover a few combinations with one table.", "anchors": ["gerrychain/graph/graph.py: Graph.from_geodataframe", "gerrychain/graph/graph.py: Graph.from_file", "gerrychain/graph/geo.py: reprojected"]}
{"id": "C118", "title": "Warnings of from_geodataframe name what is wrong", "statement": "A call of Graph.from_geodataframe that works warns about islands exactly if the graph has nodes without neighbours, and names exactly those; warns about overlaps exactly if two geometries share some area, and names exactly the pairs of rows that do, smaller label first; warns about missing values in a column exactly if the column was asked for (every column, if cols_to_add is None) and misses one; and warns about a missing coordinate reference system exactly if the graph records none. The boundary: a column that was not asked for is stored with its missing values and no warning.", "quantifier": "all tables, adjacency kinds, columns and flags, all geometry libraries that obey the stated laws (for overlaps)", "why_tests_cant": "That a warning is neither missed nor false is a statement about every table; a test looks at single tables with a known defect.", "anchors": ["gerrychain/graph/graph.py: Graph.from_geodataframe", "gerrychain/graph/graph.py: Graph.warn_for_islands", "gerrychain/graph/graph.py: Graph.issue_warnings", "gerrychain/graph/graph.py: check_dataframe", "gerrychain/graph/adjacency.py: warn_for_overlaps"]}
{"id": "C119", "title": "reversible_recom leaves the spanning tree distribution on plans invariant", "statement": "Consider all plans with k connected, population-balanced districts up to relabelling of districts, on a graph where any two adjacent districts have at least three nodes together. A call of reversible_recom with repeat_until_valid=False draws the ordered pair of districts, the spanning tree, the cut and the final number uniformly. Every event on the plan it returns then has exactly one probability. From a plan x to a different plan y this probability is 2*a*b/(k^2*M*t) when y agrees with x except that it splits the union of two adjacent districts of x differently, where a and b are the numbers of spanning trees of the two new districts, t that of their union and M the bound argument; it is 0 for every other y. Over all plans the probabilities sum to 1. With weight w(x) the product of the numbers of spanning trees of the districts of x, w(x)P(x,y) = w(y)P(y,x) and sum over x of w(x)P(x,y) = w(y): a chain started in this distribution is still in it after any number of steps. This holds as long as M is at least the number of cuts found in any tree (the call raises ReversibilityError otherwise), for both cut searches, whatever edge weights, search roots and seam edge are drawn.", "quantifier": "all graphs, population assignments, numbers of districts, targets, tolerances and bounds; all finite complete families of plans reached in any session; both cut searches; all step counts", "why_tests_cant": "A stationary distribution is a statement about the probabilities of all transitions between all plans; runs of the sampler only give estimates, and an error in one transition probability shifts the long-run frequencies without raising any error.", "anchors": ["gerrychain/proposals/tree_proposals.py: reversible_recom", "gerrychain/tree.py: bipartition_tree_random", "gerrychain/tree.py: uniform_spanning_tree", "gerrychain/tree.py: find_balanced_edge_cuts_memoization"]}
{"id": "C120", "title": "What best_part and best_score report when several runs of one optimizer are mixed, interrupted or fail", "statement": "In every history of one optimizer in which runs are requested, resumed in any order, left unfinished, raise or are interrupted at any statement: (1) until some run has begun, best_part and best_score are None; requesting a run changes nothing, the run resets both when it is first resumed, and it then yields the initial plan. (2) From the moment a run has scored the initial plan until the next run starts, best_part is the last of the best plans scored since by any of the runs under way, and best_score is its score, unless an interrupt has come between the assignment of best_part and that of best_score; this is independent of everything before. (3) In every case best_part is None, the initial plan or a plan some run has yielded, and best_score is None or a value the score function has returned. (4) A burst starts from best_part as it is then, whichever run found it. (5) A run that nobody interferes with yields the plans, shows the best_part and best_score, and ends as the properties on undisturbed runs say (C63, C64, C65), including the number and the lengths of the bursts. That best_part and best_score belong together after an interrupt, or after a run whose initial plan cannot be scored, is refuted: the best plan seen can be lost to a worse one. That best_part is the best plan of the current run is refuted for runs that are under way at the same time.", "quantifier": "all schedules of any number of runs of all kinds, all interrupt points, all proposals, constraints, acceptance and score functions (which may raise), arbitrary changes of the world in between", "why_tests_cant": "Generators share the optimizer's attributes, so what they hold depends on how the caller interleaves them and on where an exception lands; tests run one generator to the end.", "anchors": ["gerrychain/optimization/optimization.py: SingleMetricOptimizer.short_bursts", "gerrychain/optimization/optimization.py: SingleMetricOptimizer.simulated_annealing", "gerrychain/optimization/optimization.py: SingleMetricOptimizer.tilted_run", "gerrychain/optimization/optimization.py: SingleMetricOptimizer.variable_length_short_bursts", "gerrychain/optimization/optimization.py: SingleMetricOptimizer.best_part", "gerrychain/optimization/optimization.py: SingleMetricOptimizer.best_score"]}
{"id": "C121", "title": "How long a plan's answers survive changes to the dictionary it was flipped with", "statement": "A plan made by flip keeps the caller's dictionary itself, not a copy. In every program that makes plans from one initial plan, makes and changes dictionaries, reads cut_edges and tallies, and drops parents, in any order: (1) The districts of a plan are those of its parent with the dictionary's entries at the moment of the flip, and stay so whatever is done later to the dictionary; plan.flips shows what the dictionary holds now. (2) A value of cut_edges or of a Tally that was read once stays the same. (3) If no dictionary is changed after a plan was made with it, cut_edges is exactly the set of cut edges and every Tally that is read is the sum over each district, for every plan and at every time; the read of a Tally succeeds if the data is there and no plan has an empty district. (4) If the parent's value was read and right, the plan's own value is right when read after any changes of dictionaries and at most one more flip. With two more flips in between both can be wrong. Reusing one dictionary for three flips and reading only the last plan gives wrong cut edges and wrong, even negative, tallies, although that plan's own dictionary was never changed.", "quantifier": "all graphs, initial labellings, numbers of plans and dictionaries, and all orders of flips, changes, reads and dropped parents", "why_tests_cant": "The answer depends on whether an entry of a two-element cache is still there, that is on the whole history of flips, reads and changes; unit tests pass a literal dictionary that nobody changes.", "anchors": ["gerrychain/partition/partition.py: Partition.flip", "gerrychain/partition/partition.py: Partition._from_parent", "gerrychain/updaters/flows.py: neighbor_flips", "gerrychain/updaters/flows.py: flows_from_changes", "gerrychain/updaters/cut_edges.py: cut_edges", "gerrychain/updaters/tally.py: Tally._update_tally"]}
{"id": "C122", "title": "The pieces LocalitySplits allows a locality are those of the first plan", "statement": "allowed_pieces of a LocalitySplits object, after reads of the updater on any plans in any order, also reads that raised: it is empty, or its keys are the localities of the graph of the very first plan read and the number of each locality is the least integer k such that k districts of average size of one of the plans read hold the locality's people in that plan: k - 1 < people * districts / total <= k. Once it is not empty it never changes again, so for a plan with another number of districts it is refuted to be that plan's. The first read of any score, even of num_parts alone, raises KeyError if a node has no population and ZeroDivisionError if the nodes have no people in total; otherwise the numbers are there after it.", "quantifier": "all graphs, plans, populations, score lists and read histories", "why_tests_cant": "The value depends on which plan of a whole history was the first to get that far, and on every population.", "anchors": ["gerrychain/updaters/locality_split_scores.py: LocalitySplits.__call__"]}
{"id": "C123", "title": "Long runs of reversible_recom approach the spanning tree distribution", "statement": "A chain that calls reversible_recom with fresh uniform draws on a graph whose valid plans (k connected districts, each within the tolerance) are listed, with cuts never more than the bound M: call a plan one move from another if it splits two adjacent districts of the other again and has its other districts. If every valid plan can be reached from every other by such moves, then from every starting plan, and from every mixture of starting plans, the chance of each plan after n calls approaches the product of the numbers of spanning trees of its districts over the sum of these products, the total distance being at most 2 (1 - delta)^j after j blocks of m calls, with m and delta > 0 the same for all starts. Every plan has a positive share in the limit. With two districts on a connected graph every plan is one move from every other. A plan that cannot be reached by moves has chance 0 after every number of calls; the 6-cycle with three districts of two nodes has two such plans, so without the condition the limit is refuted.", "quantifier": "all connected or disconnected graphs, populations, tolerances, bounds, starting distributions, numbers of calls and accuracies", "why_tests_cant": "It is a limit over all lengths of runs of an average over all draws; a test sees one finite run.", "anchors": ["gerrychain/proposals/tree_proposals.py: reversible_recom", "gerrychain/tree.py: _bipartition_tree_random_all", "gerrychain/chain.py: MarkovChain.__next__"]}
{"id": "C124", "title": "What the plans of a long chain look like when invalid proposals are redrawn", "statement": "A chain whose proposal and acceptance are driven by one uniform draw per call and whose constraints depend on the plan alone, on a finite set of valid plans that valid proposals do not leave and from each of which some proposal is valid: the chance that a loop over the chain yields y as plan number k (the initial plan is number 0) is the k-fold product of the step probabilities of C101, redraws included. If proposals between valid plans are in detailed balance with positive weights and accepted proposals connect every plan to every other, then, whatever the initial plan, the average over the first n plans of the chance of y approaches weight(y) times the number of valid draws at y, divided by the sum of these products, and not weight(y) over the sum of weights. If moreover the chain may stay at some plan (a rejected proposal or a proposal of the plan itself), the chance of y as plan number n itself approaches this share. Without that it need not: there is a chain of three plans for which the chance alternates between 0 and 1 for ever.", "quantifier": "all plan types, proposals, acceptance functions, constraints that depend on the plan, initial plans, numbers of steps and accuracies", "why_tests_cant": "It is a limit over all lengths of runs of an average over all sequences of draws; a test sees one finite run.", "anchors": ["gerrychain/chain.py: MarkovChain.__next__", "gerrychain/chain.py: MarkovChain.__iter__", "gerrychain/constraints/validity.py: Validator.__call__"]}
{"id": "C125", "title": "The averages a user takes over one long run of a chain", "statement": "In the setting of C124 (redrawn proposals in detailed balance with positive weights, accepted proposals connecting every valid plan to every other): for every statistic g of plans and every eps > 0 there is a number k0 such that for every initial plan and every k >= k0, all but at most the share eps of the runs of the chain are such that the average of g over the first k plans the loop yields differs by at most eps from the mean of g under the shares weight(y) times the number of valid draws at y. In particular the histogram of plans of one long run is close to these shares, whether or not the chance of a plan at a given step settles (in the alternating chain of C124 nearly every long run spends half of its time at the middle plan).", "quantifier": "all plan types, proposals, acceptance functions, constraints that depend on the plan, statistics, initial plans, accuracies and run lengths from some number on", "why_tests_cant": "It is a statement about nearly all runs of every large length; a test sees a few runs of one length.", "anchors": ["gerrychain/chain.py: MarkovChain.__next__", "gerrychain/chain.py: MarkovChain.__iter__", "gerrychain/constraints/validity.py: Validator.__call__"]}
{"id": "C126", "title": "What a chain of propose_any_node_flip samples", "statement": "Take a chain whose proposal is propose_any_node_flip, whose acceptance function is always_accept and whose constraints answer True or False depending on the plan alone (they may read updaters and so fill caches), a non-empty graph, and a set of plans allowed by the constraints that is closed under and connected by allowed moves of one node (moving a node into the district it is in counts as a move). For every statistic f of plans and every eps > 0 there is k0 such that for every initial plan of the set, every history of plan objects, whatever the user does with the yielded plans short of changing them or drawing random numbers, and every k >= k0, all but at most the share eps of the runs have an average of f over the first k plans of the loop that differs by at most eps from the mean of f in which plan y weighs v(y), the number of pairs of a node and a district whose move from y is allowed. In particular the plans of a long run do not follow the uniform distribution on the allowed plans: plan y makes up v(y) over the sum of all v. (With four nodes and at most one of them in district 2, the plan with district 2 empty makes up 8/28 of a long run and each of the four others 5/28.)", "quantifier": "all graphs, plans, labels, updaters, constraints that depend on the plan, sessions of plan objects, statistics, accuracies and run lengths from some number on", "why_tests_cant": "The distribution is a limit over run lengths and a statement about nearly all runs; a test sees a few runs and cannot tell a small bias from noise.", "anchors": ["gerrychain/proposals/proposals.py: propose_any_node_flip", "gerrychain/accept.py: always_accept", "gerrychain/chain.py: MarkovChain.__next__", "gerrychain/constraints/validity.py: Validator.__call__", "gerrychain/partition/partition.py: Partition.flip"]}
{"id": "C127", "title": "What a chain of slow_reversible_propose samples", "statement": "Take a chain whose proposal is slow_reversible_propose, whose acceptance function is always_accept and whose constraints answer True or False depending on the plan alone (they may read updaters and so fill caches), and a set of plans allowed by the constraints that is closed under and connected by allowed boundary moves (moving one node into the district of a neighbour), where each plan has an allowed move and each allowed move can be undone by a boundary move. (The last holds when the districts of all the plans are contiguous and no district vanishes on the way from one plan to another.) For every statistic f of plans and every eps > 0 there is k0 such that for every initial plan of the set, every history of plan objects, whatever the user does with the yielded plans short of changing them or drawing random numbers, and every k >= k0, all but at most the share eps of the runs have an average of f over the first k plans of the loop that differs by at most eps from the mean of f in which plan y weighs w(y), the number of allowed boundary moves from y. In particular the proposal called reversible does not make the chain sample the allowed plans uniformly: plan y makes up w(y) over the sum of all w of a long run. (On the path of four nodes cut into a beginning and a rest, both non-empty, the middle cut makes up 1/2 and each other cut 1/4.)", "quantifier": "all graphs, plans, labels, updaters, constraints that depend on the plan, sessions of plan objects, statistics, accuracies and run lengths from some number on", "why_tests_cant": "The distribution is a limit over run lengths and a statement about nearly all runs; a test sees a few runs and cannot tell a small bias from noise.", "anchors": ["gerrychain/proposals/proposals.py: slow_reversible_propose", "gerrychain/accept.py: always_accept", "gerrychain/chain.py: MarkovChain.__next__", "gerrychain/constraints/validity.py: Validator.__call__", "gerrychain/partition/partition.py: Partition.flip", "gerrychain/updaters/cut_edges.py: cut_edges"]}
{"id": "C128", "title": "What a chain of slow_reversible_propose with cut_edge_accept samples", "statement": "Take a chain whose proposal is slow_reversible_propose, whose acceptance function is cut_edge_accept and whose constraints answer True or False depending on the plan alone (they may read updaters and so fill caches, but do not change the link from a plan to its parent), and a set of plans as in C127: allowed by the constraints, closed under and connected by allowed boundary moves, each with an allowed move, each allowed move undone by a boundary move. For every statistic f of plans and every eps > 0 there is k0 such that for every initial plan of the set, every history of plan objects, whatever the user does with the yielded plans short of changing them or drawing random numbers, and every k >= k0, all but at most the share eps of the runs have an average of f over the first k plans of the loop that differs by at most eps from the mean of f in which plan y weighs w(y)/c(y), where w(y) is the number of allowed boundary moves from y and c(y) the number of its cut edges. So the acceptance function does not turn the chain into a uniform sampler of the allowed plans. (On a triangle with a tail, with two allowed plans that have one move each, the plan with one cut edge makes up 2/3 of a long run and the plan with two cut edges 1/3.)", "quantifier": "all graphs, plans, labels, updaters, constraints that depend on the plan, sessions of plan objects, statistics, accuracies and run lengths from some number on", "why_tests_cant": "The distribution is a limit over run lengths and a statement about nearly all runs; a test sees a few runs and cannot tell a small bias from noise.", "anchors": ["gerrychain/accept.py: cut_edge_accept", "gerrychain/proposals/proposals.py: slow_reversible_propose", "gerrychain/chain.py: MarkovChain.__next__", "gerrychain/constraints/validity.py: Validator.__call__", "gerrychain/partition/partition.py: Partition.flip", "gerrychain/updaters/cut_edges.py: cut_edges"]}
{"id": "C129", "title": "What a chain of slow_reversible_propose_bi samples", "statement": "Take a chain whose proposal is slow_reversible_propose_bi, whose acceptance function is always_accept and whose constraints answer True or False depending on the plan alone (they may read updaters and so fill caches), and a set of plans allowed by the constraints that is closed under and connected by allowed boundary moves (moving one node into the district of a neighbour), where each plan has an allowed move and every node with a neighbour in another district also has a neighbour in its own (otherwise the proposal raises ValueError, C44). For every statistic f of plans and every eps > 0 there is k0 such that for every initial plan of the set, every history of plan objects, whatever the user does with the yielded plans short of changing them or drawing random numbers, and every k >= k0, all but at most the share eps of the runs have an average of f over the first k plans of the loop that differs by at most eps from the mean of f in which plan y weighs w(y): the sum, over the allowed boundary moves from y, of one divided by the number of other districts next to the node that moves. So the chain samples neither uniformly nor as a chain of slow_reversible_propose does (C127). (On three arms that meet in a node, with four allowed plans, the shares are 1/5, 2/5, 1/5, 1/5; those of slow_reversible_propose are 2/8, 3/8, 2/8, 1/8.)", "quantifier": "all graphs, plans, labels, updaters, constraints that depend on the plan, sessions of plan objects, statistics, accuracies and run lengths from some number on", "why_tests_cant": "The distribution is a limit over run lengths and a statement about nearly all runs; a test sees a few runs and cannot tell a small bias from noise.", "anchors": ["gerrychain/proposals/proposals.py: slow_reversible_propose_bi", "gerrychain/chain.py: MarkovChain.__next__", "gerrychain/constraints/validity.py: Validator.__call__", "gerrychain/partition/partition.py: Partition.flip"]}
{"id": "C130", "title": "The order in which sets are listed does not matter for likelihoods, but it does for a seed", "statement": "Proposals choose with random.choice among the elements of sets (the cut edges, the boundary nodes, the districts next to a node, the moves of slow_reversible_propose), listed in an order Python does not fix. Whatever that order is, a call of propose_random_flip, propose_chunk_flip, propose_flip_every_district, slow_reversible_propose, slow_reversible_propose_bi, recom, reversible_recom or spectral_recom (as far as its cut edges are concerned) with some draws is a call in any other order with other draws, and the correspondence between the draws is one to one: the two have the same result, raise the same exception and leave all plan objects in the same state. For chains of propose_random_flip, slow_reversible_propose and slow_reversible_propose_bi under the conditions of C127 and C129, where the orders may change from call to call and depend on everything that happened before: for every event A about the plans of the first k steps, the number of lists of draws whose run shows A is the same as in the fixed order, and so, for the two slow proposals, the averages of long runs are those of C127 and C129. But the same draws do not always give the same plans: fixing the seed of the random module does not make a run reproducible unless the orders of sets are the same too.", "quantifier": "all graphs, plans, labels, histories of plan objects, orders of sets (changing from call to call), draws, events about runs, run lengths, statistics and accuracies", "why_tests_cant": "The order of a set in one interpreter run is one order among all; no test can range over the orders, and a run that happens to be reproducible says nothing about the next interpreter.", "anchors": ["gerrychain/proposals/proposals.py: propose_random_flip", "gerrychain/proposals/proposals.py: propose_chunk_flip", "gerrychain/proposals/proposals.py: propose_flip_every_district", "gerrychain/proposals/proposals.py: slow_reversible_propose", "gerrychain/proposals/proposals.py: slow_reversible_propose_bi", "gerrychain/proposals/tree_proposals.py: recom", "gerrychain/proposals/tree_proposals.py: reversible_recom", "gerrychain/proposals/spectral_proposals.py: spectral_recom", "gerrychain/chain.py: MarkovChain.__next__"]}
{"id": "C131", "title": "Updaters written with on_flow and on_edge_flow are right on every plan", "statement": "A user writes an updater with on_flow or on_edge_flow: an initializer and a function that is told, for a district, the previous value, what came and what left (nodes for on_flow, cut edges for on_edge_flow). Whatever the user means by the right value of a district with given contents: if the initializer is right, and the function turns the right value of the old contents into the right value of the new contents, then every read of the updater on every plan, after every history of flips from any plan, reads in any order and parents dropped by a chain, returns a right value for every district of that plan and raises nothing. The function is called for the districts that gained or lost something only: the others keep the value of the plan before, whatever the function does. Conditions: the alias given to the decorator is the name the updater is registered under (with an alias that names no updater, reading a plan that was flipped from another raises KeyError); on_edge_flow needs the cut_edges updater, otherwise no flipped plan gets a value. The initializer must be right not only for the first plan: a plan first read after a chain has dropped its parent is given to the initializer, and if that is right for the first plan only the value is wrong.", "quantifier": "all graphs, plans, node and district labels, value types, meanings of a right value, initializers and pure functions meeting the conditions, histories of flips, reads and dropped parents, and reading orders", "why_tests_cant": "The function and the initializer are the user's, so a test fixes one of each; whether the value is right must hold for every order of reads and every point at which a parent is dropped.", "anchors": ["gerrychain/updaters/flows.py: on_flow", "gerrychain/updaters/flows.py: on_edge_flow", "gerrychain/updaters/flows.py: flows_from_changes", "gerrychain/updaters/flows.py: compute_edge_flows", "gerrychain/partition/partition.py: Partition.__getitem__", "gerrychain/partition/partition.py: Partition.flip", "gerrychain/chain.py: MarkovChain.__next__"]}
{"id": "C132", "title": "Plans share the values of updaters made with on_flow and on_edge_flow", "statement": "An updater made with on_flow or on_edge_flow copies the dictionary of the plan before, not the values in it. If the user's function makes a new object each time, no read of any plan changes a value object that existed before: what a read once returned stays as it is. For a plan flipped from one that was read before: in a district whose nodes (for on_edge_flow: whose cut edges) are the same, both plans hold the same object, so a caller who changes the value of the new plan (for example adds to a set) changes the value of the old plan; in a district where they changed the new plan has an object of its own, and changing it changes no value of the old plan. If the function changes the previous value in place and returns it, then after the new plan was read the old plan shows the values of the new plan in every district; a value that was right becomes wrong.", "quantifier": "all graphs, plans, labels, values, histories of plan objects, user functions, initializers, flips, reading orders and changes made by a caller", "why_tests_cant": "Whether a value is shared depends on the flips between two plans; a test of the new plan passes while the value of an older plan has changed.", "anchors": ["gerrychain/updaters/flows.py: on_flow", "gerrychain/updaters/flows.py: on_edge_flow", "gerrychain/partition/partition.py: Partition.__getitem__", "gerrychain/partition/partition.py: Partition.flip"]}
{"id": "C133", "title": "Arguments and hemispheres of UTM conversions", "statement": "to_latlon accepts its arguments exactly if one of zone_letter and northern is given and not both (the empty string is no letter), the zone number is 1 to 60, the letter starts with C to W in either case or is X or x, and is not I or O alone, and, if strict, the easting is at least 100000 and less than 1000000 and the northing between 0 and 10000000; everything else is a ValueError. It counts as northern if northern is true or the letter starts with N to X in either case; otherwise 10000000 is subtracted from the northing. A point with latitude -80 to 84 and longitude -180 up to but not including 180, converted by from_latlon, has a letter that counts as northern exactly if its latitude is at least 0, and to_latlon accepts the result and starts from the very numbers of from_latlon's series: the offsets cancel in both hemispheres. At longitude 180 from_latlon returns zone 61, which to_latlon refuses. The strings S, s, south and South are accepted as letters and mean north. from_latlon checks a forced letter only if the zone number is forced too; with a forced number it accepts exactly the points on the map with a valid number and letter.", "quantifier": "all eastings, northings, zone numbers, letters (strings), hemisphere flags, strictness, latitudes, longitudes and results of the series", "why_tests_cant": "Tests convert a few cities; the letters of all bands, all strings given as a letter and both sides of every bound are infinitely many.", "anchors": ["gerrychain/vendor/utm/conversion.py: to_latlon", "gerrychain/vendor/utm/conversion.py: from_latlon", "gerrychain/vendor/utm/conversion.py: check_valid_zone", "gerrychain/vendor/utm/conversion.py: in_bounds", "gerrychain/vendor/utm/conversion.py: negative"]}
