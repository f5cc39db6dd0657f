{
 "claims": [
  {
   "property": "C01",
   "status": "proved",
   "theorems": [
    "C01_history_consistent"
   ],
   "note": "Induction over the flip history on the model of flows_from_changes and update_flows."
  },
  {
   "property": "C02",
   "status": "proved",
   "theorems": [
    "C02_flip_effect",
    "C02_parent_untouched",
    "C02_child_districts"
   ],
   "note": "Effect on the child; on the object machine every existing plan keeps its districts and cached answers through any further operations (see also C14)."
  },
  {
   "property": "C03",
   "status": "proved",
   "theorems": [
    "C03_flip_keyerror_iff"
   ],
   "note": ""
  },
  {
   "property": "C04",
   "status": "proved",
   "theorems": [
    "C04_labels_constant"
   ],
   "note": ""
  },
  {
   "property": "C05",
   "status": "proved",
   "theorems": [
    "C05_from_dict_roundtrip"
   ],
   "note": ""
  },
  {
   "property": "C06",
   "status": "proved",
   "theorems": [
    "C06_init_rejects_exactly_overlaps"
   ],
   "note": ""
  },
  {
   "property": "C07",
   "status": "proved",
   "theorems": [
    "C07_labels_exactly_the_nodes"
   ],
   "note": ""
  },
  {
   "property": "C08",
   "status": "proved",
   "theorems": [
    "C08_cut_edges"
   ],
   "note": "Cache invariant by induction over arbitrary interleavings of flips, reads and erasures."
  },
  {
   "property": "C09",
   "status": "proved",
   "theorems": [
    "C09_cut_edges_by_part"
   ],
   "note": "Same invariant."
  },
  {
   "property": "C10",
   "status": "proved",
   "theorems": [
    "C10_tally",
    "C10_tally_total",
    "C10_data_tally",
    "C10_data_tally_total",
    "C10_vanished_entry_is_zero",
    "C10_carried_over_entries",
    "C10_recomputed_entries",
    "C10_flip_into_missing_keyerror"
   ],
   "note": "Finding: a vanished district loses its key when the tally is recomputed and a later flip into it raises KeyError."
  },
  {
   "property": "C11",
   "status": "proved",
   "theorems": [
    "C11_total_conserved",
    "C11_data_total_conserved"
   ],
   "note": ""
  },
  {
   "property": "C12",
   "status": "proved",
   "theorems": [
    "C12_first_tally_skips_nan",
    "C12_moving_nan_poisons",
    "C12_carried_over_equals_recomputed_refuted"
   ],
   "note": "Finding: NaN data is skipped at first but poisons both entries when moved."
  },
  {
   "property": "C13",
   "status": "proved",
   "theorems": [
    "C13_exterior_boundaries",
    "C13_exterior_boundaries_as_a_set",
    "C13_interior_boundaries",
    "C13_perimeter"
   ],
   "note": ""
  },
  {
   "property": "C14",
   "status": "proved",
   "theorems": [
    "C14_repeatable_reads",
    "C14_reads_change_no_assignment",
    "C14_literal_equality_refuted"
   ],
   "note": "Finding: defaultdict answers gain default entries."
  },
  {
   "property": "C15",
   "status": "proved",
   "theorems": [
    "C15_county_splits_content"
   ],
   "note": ""
  },
  {
   "property": "C16",
   "status": "proved",
   "theorems": [
    "C16_flags_without_parent",
    "C16_flag_rule",
    "C16_new_split_sticks",
    "C16_new_split_means_unsplit_before_refuted",
    "C16_flag_depends_on_erasure_refuted"
   ],
   "note": "Finding: the documented meaning of OLD_SPLIT/NEW_SPLIT is refuted."
  },
  {
   "property": "C17",
   "status": "proved",
   "theorems": [
    "C17_no_new_splits_ever",
    "C17_check_after_erasure_refuted"
   ],
   "note": ""
  },
  {
   "property": "C18",
   "status": "proved",
   "theorems": [
    "C18_election",
    "C18_election_total",
    "C18_empty_district_refuted"
   ],
   "note": "The read succeeds whenever no plan of the session has an empty district; with one it can raise KeyError."
  },
  {
   "property": "C19",
   "status": "proved",
   "theorems": [
    "C19_won",
    "C19_at_most_one_winner",
    "C19_winner_iff_unique_maximum",
    "C19_tie_elects_nobody",
    "C19_seats",
    "C19_seats_bounded"
   ],
   "note": "For every complete table of votes, any number of parties and districts."
  },
  {
   "property": "C20",
   "status": "proved",
   "theorems": [
    "C20_shares",
    "C20_no_votes_nan",
    "C20_overall_share",
    "C20_no_votes_at_all"
   ],
   "note": "Votes are exact rationals; floating-point rounding is not modelled."
  },
  {
   "property": "C21",
   "status": "proved",
   "theorems": [
    "C21_updaters",
    "C21_leak",
    "C21_union",
    "C21_isolated",
    "C21_isolation_refuted",
    "C21_grid_ignores_new_updater_refuted"
   ],
   "note": "Full history theorem over constructions, derivations, registrations and reads. Isolation is refuted; for Grid the older updater wins over the one passed."
  },
  {
   "property": "C22",
   "status": "proved",
   "theorems": [
    "C22_bound",
    "C22_missing_attribute",
    "C22_totals",
    "C22_unknown_node",
    "C22_child_first",
    "C22_second_graph_refuted"
   ],
   "note": "answer names the machine's own tally functions, whose correctness over histories is C10; finding: the second graph's totals are wrong."
  },
  {
   "property": "C23",
   "status": "proved",
   "theorems": [
    "C23_overwritten",
    "C23_cached",
    "C23_first",
    "C23_stability_refuted"
   ],
   "note": "Finding: every plan read shows the scores of the plan read last."
  },
  {
   "property": "C24",
   "status": "proved",
   "theorems": [
    "C24_validator"
   ],
   "note": "Constraints are arbitrary stateful calls; numpy booleans coerced."
  },
  {
   "property": "C25",
   "status": "proved",
   "theorems": [
    "C25_bounds",
    "C25_one_sided",
    "C25_iterator_never_accepted"
   ],
   "note": ""
  },
  {
   "property": "C26",
   "status": "proved",
   "theorems": [
    "C26_population_constraint"
   ],
   "note": "On the object machine, for every session; integer populations."
  },
  {
   "property": "C27",
   "status": "proved",
   "theorems": [
    "C27_upper_fixed_by_first_call",
    "C27_lower_fixed_by_first_call",
    "C27_upper_zero_reconfigures",
    "C27_lower_zero_reconfigures",
    "C27_zero_bound_refuted"
   ],
   "note": "Finding: a zero bound is treated as unset."
  },
  {
   "property": "C28",
   "status": "proved",
   "theorems": [
    "C28_range_fixed_by_first_call",
    "C28_zero_bound_reconfigures",
    "C28_percent_100_accepts_everything",
    "C28_negative_value_rejects_everything"
   ],
   "note": "Finding: zero bounds are treated as unset; negative values give an empty range."
  },
  {
   "property": "C29",
   "status": "proved",
   "theorems": [
    "C29_contiguous_child",
    "C29_contiguous_root",
    "C29_contiguous_object",
    "C29_chain_stays_contiguous",
    "C29_erased_parent_refuted"
   ],
   "note": "Child of a contiguous plan, plans without flips, plan objects, and whole chains whose constraints include contiguous. The erased-parent case is refuted on a star graph."
  },
  {
   "property": "C30",
   "status": "proved",
   "theorems": [
    "C30_contiguous_bfs_child",
    "C30_contiguous_bfs_root",
    "C30_empty_district_raises"
   ],
   "note": "The affected districts may be visited in any order."
  },
  {
   "property": "C31",
   "status": "proved",
   "theorems": [
    "C31_single_flip",
    "C31_no_flips",
    "C31_not_adjacent_refuted",
    "C31_two_flips_refuted",
    "C31_no_op_flip_refuted"
   ],
   "note": "random.choice is any function picking an element; the three boundary cases are refuted with explicit plans."
  },
  {
   "property": "C32",
   "status": "proved",
   "theorems": [
    "C32_are_reachable"
   ],
   "note": "The avoidance predicate may depend on the two ends of an edge only."
  },
  {
   "property": "C33",
   "status": "proved",
   "theorems": [
    "C33_no_vanishing_districts",
    "C33_no_empty_district_ever"
   ],
   "note": ""
  },
  {
   "property": "C34",
   "status": "proved",
   "theorems": [
    "C34_reusable",
    "C34_one_shot",
    "C34_one_shot_enforcement_refuted"
   ],
   "note": ""
  },
  {
   "property": "C35",
   "status": "proved",
   "theorems": [
    "C35_chain_length",
    "C35_chain_finishes",
    "C35_length_for_nonpositive_refuted",
    "C35_all_invalid_runs_forever"
   ],
   "note": "Length for every finished loop of a chain whose callbacks do not raise StopIteration; termination when all proposals are valid; total_steps <= 0 yields one plan."
  },
  {
   "property": "C36",
   "status": "proved",
   "theorems": [
    "C36_yielded_plans_are_valid",
    "C36_yielded_plans_satisfy"
   ],
   "note": "For arbitrary stateful constraints, proposals and acceptance rules."
  },
  {
   "property": "C37",
   "status": "proved",
   "theorems": [
    "C37_steps"
   ],
   "note": "Step relation between consecutive yields, with arbitrary user code in between."
  },
  {
   "property": "C38",
   "status": "proved",
   "theorems": [
    "C38_restart"
   ],
   "note": ""
  },
  {
   "property": "C39",
   "status": "proved",
   "theorems": [
    "C39_one_ancestor"
   ],
   "note": "Proposal, constraints, acceptance and loop body may create, read and erase plans freely."
  },
  {
   "property": "C40",
   "status": "proved",
   "theorems": [
    "C40_stop_iteration_ends_the_loop",
    "C40_stop_iteration_at_any_step",
    "C40_step_count_refuted"
   ],
   "note": "The step-count guarantee is refuted for constraints that raise StopIteration."
  },
  {
   "property": "C41",
   "status": "proved",
   "theorems": [
    "C41_setter",
    "C41_setter_error",
    "C41_after_setter",
    "C41_current_plan_may_violate_refuted"
   ],
   "note": ""
  },
  {
   "property": "C42",
   "status": "proved",
   "theorems": [
    "C42_no_cut_edges",
    "C42_random_flip",
    "C42_every_move_possible"
   ],
   "note": "Also: every boundary move is reached by some draw."
  },
  {
   "property": "C43",
   "status": "proved",
   "theorems": [
    "C43_chunk_flip",
    "C43_chunk_no_cut_edges",
    "C43_every_district",
    "C43_chosen_node_moves_refuted",
    "C43_every_district_history_refuted"
   ],
   "note": "Findings: the chunk flip leaves the chosen node and moves its neighbours; the every-district flip raises IndexError depending on the history."
  },
  {
   "property": "C44",
   "status": "proved",
   "theorems": [
    "C44_moves",
    "C44_reversible",
    "C44_bi",
    "C44_bi_fails_refuted"
   ],
   "note": "Finding: slow_reversible_propose_bi raises ValueError on nodes without neighbours in their own district."
  },
  {
   "property": "C45",
   "status": "proved",
   "theorems": [
    "C45_all_cut_edge_flips",
    "C45_flips_are_boundary_moves",
    "C45_metagraph",
    "C45_degree_counts_distinct_plans_refuted"
   ],
   "note": "Finding: the degree counts a plan once per neighbour in the target district."
  },
  {
   "property": "C46",
   "status": "proved",
   "theorems": [
    "C46_sound",
    "C46_errors"
   ],
   "note": "For every method, plan and choice stream; connectivity under the method contracts that C56_bipartition_tree proves of the library's method."
  },
  {
   "property": "C47",
   "status": "proved",
   "theorems": [
    "C47_few_parts",
    "C47_raises",
    "C47_never_terminates",
    "C47_raises_refuted"
   ],
   "note": "Finding: recom never returns when some two districts are not adjacent and no adjacent pair can be split (path with three districts)."
  },
  {
   "property": "C48",
   "status": "proved",
   "theorems": [
    "C48_self_loop",
    "C48_outcome",
    "bounded_search"
   ],
   "note": "For every tree sampler and two-sided cut search meeting the contracts proved in C53. The search's own errors pass through."
  },
  {
   "property": "C49",
   "status": "proved",
   "theorems": [
    "C49_root",
    "C49_cut_edge_accept",
    "C49_growth_always_accepted_refuted",
    "C49_zero_cut_edges_refuted"
   ],
   "note": "Findings: documented direction is reversed; ZeroDivisionError at no cut edges."
  },
  {
   "property": "C50",
   "status": "proved",
   "theorems": [
    "C50_sides",
    "C50_memoization_two_sided",
    "C50_memoization_one_sided"
   ],
   "note": "Exactly one cut per balanced edge, for every tree with at least three nodes and every root draw."
  },
  {
   "property": "C51",
   "status": "proved",
   "theorems": [
    "C51_contraction_two_sided",
    "C51_same_edges",
    "C51_contraction_one_sided",
    "C51_one_sided_same_edges_refuted",
    "C51_one_sided_equality_refuted"
   ],
   "note": "Two-sided searches agree; the one-sided ones do not (refuted)."
  },
  {
   "property": "C52",
   "status": "proved",
   "theorems": [
    "C52_uniform_spanning_tree",
    "C52_one_node_refuted"
   ],
   "note": "Spanning tree for every draw sequence that ends the walks; the one-node case is refuted."
  },
  {
   "property": "C53",
   "status": "proved",
   "theorems": [
    "C53_memoization_search",
    "C53_contraction_search",
    "C53_sound",
    "C53_attempts",
    "C53_unbounded"
   ],
   "note": "Soundness for both searches and any node_repeats; exact success condition for node_repeats of at least 1 and the default search."
  },
  {
   "property": "C54",
   "status": "proved",
   "theorems": [
    "C54_always_one_sided",
    "C54_sound",
    "C54_attempts",
    "C54_single_try",
    "C54_complement_refuted",
    "C54_recom_refuted"
   ],
   "note": "bipartition_tree_random hands one_sided_cut to the wrong place: its cuts are always one-sided, so the other side may be unbalanced (C54_complement_refuted) and ReCom's default method can fail with PopulationBalanceError where bipartition_tree succeeds (C54_recom_refuted)."
  },
  {
   "property": "C55",
   "status": "proved",
   "theorems": [
    "C55_sound",
    "C55_errors"
   ],
   "note": "For every method at all; the errors are classified."
  },
  {
   "property": "C56",
   "status": "proved",
   "theorems": [
    "C56_sound",
    "C56_one_part_refuted",
    "C56_bipartition_tree"
   ],
   "note": "For every method returning nodes of its graph; bipartition_tree is shown to meet the contracts. Fewer than two labels give IndexError (C56_one_part_refuted)."
  },
  {
   "property": "C57",
   "status": "proved",
   "theorems": [
    "C57_debt"
   ],
   "note": "Stated through the calls the function makes: every call's window is non-empty and it only depends on such calls, and its population checks never fail with a tolerant method."
  },
  {
   "property": "C58",
   "status": "proved",
   "theorems": [
    "C58_largest_prime_factor",
    "C58_zero"
   ],
   "note": ""
  },
  {
   "property": "C59",
   "status": "proved",
   "theorems": [
    "C59_sound",
    "C59_one_part",
    "C59_bipartition_tree"
   ],
   "note": "For any fuel (a fuel-exhausted run returns NoFuel, not a plan); the method may return any non-empty proper subset of its graph."
  },
  {
   "property": "C60",
   "status": "proved",
   "theorems": [
    "C60_small_trees",
    "C60_root_choice",
    "C60_bipartition",
    "C60_recom",
    "C60_recom_refuted"
   ],
   "note": "Finding: recom on adjacent single-node districts raises IndexError; for a plan of single-node districts whatever is drawn (C60_recom), and for some draws when only one such pair exists (C60_recom_refuted)."
  },
  {
   "property": "C61",
   "status": "proved",
   "theorems": [
    "C61_plain",
    "C61_frozen",
    "C61_preserved_refuted",
    "C61_random_plain",
    "C61_random_frozen_refuted"
   ],
   "note": "A frozen graph keeps only the last district's nodes in its cached node set."
  },
  {
   "property": "C62",
   "status": "proved",
   "theorems": [
    "C62_max_weight",
    "C62_region_preferred",
    "C62_no_regions",
    "C62_no_surcharge"
   ],
   "note": ""
  },
  {
   "property": "C63",
   "status": "proved",
   "theorems": [
    "C63_short_bursts",
    "C63_single_run",
    "C63_variable_length",
    "C63_tilted",
    "C63_never_worse",
    "C63_best_of_all",
    "C63_during_the_run_refuted"
   ],
   "note": "At every yield best_part and best_score are those of the last best plan among the initial plan and the plans processed before; the plan just handed out may beat the best score (refutation)."
  },
  {
   "property": "C64",
   "status": "proved",
   "theorems": [
    "C64_short_bursts",
    "C64_single_run",
    "C64_tilted",
    "C64_finishes"
   ],
   "note": "Exact counts and restart from the best plan for every run that ends; the runs do end when nothing raises and every plan is valid. Constraints given as a one-shot iterator are excluded; a callback raising StopIteration ends the run (quiet)."
  },
  {
   "property": "C65",
   "status": "proved",
   "theorems": [
    "C65_never_longer",
    "C65_count",
    "C65_zero_buffer",
    "C65_doubling_refuted"
   ],
   "note": "For every buffer >= 1 and score that depends on the plan only, the run equals the run with a buffer of one and restarts from the best plan every two plans; the documented doubling is refuted on a run that never improves. With a buffer of zero the bursts double."
  },
  {
   "property": "C66",
   "status": "proved",
   "theorems": [
    "C66_tilted",
    "C66_tilted_root",
    "C66_annealing",
    "C66_annealing_improvement",
    "C66_annealing_hot",
    "C66_overflow_refuted",
    "C66_annealing_root",
    "C66_annealing_raises",
    "C66_tilted_raises"
   ],
   "note": "Finding: an improvement whose exponent exceeds the range of math.exp raises OverflowError instead of being accepted, for every limit."
  },
  {
   "property": "C67",
   "status": "proved",
   "theorems": [
    "C67_jumpcycle",
    "C67_linearcycle",
    "C67_linear_jumpcycle",
    "C67_logitcycle",
    "C67_logit_jumpcycle",
    "C67_logit_cold_refuted",
    "C67_empty_cycle"
   ],
   "note": "Over the reals, floating-point rounding not modelled. Finding: with duration_cooldown = 0 the logit schedules return 0 at the first cold step."
  },
  {
   "property": "C68",
   "status": "proved",
   "theorems": [
    "C68_clock",
    "C68_chain_steps_refuted"
   ],
   "note": "For simulated_annealing over any proposal that returns the current plan or a new plan derived from it, and any constraints, score and consumer that only create plans and read steps."
  },
  {
   "property": "C69",
   "status": "proved",
   "theorems": [
    "C69_number",
    "C69_reward_partial",
    "C69_reward_close",
    "C69_penalize_maximum",
    "C69_penalize_average",
    "C69_more_districts",
    "C69_percentages",
    "C69_all_opportunity_refuted"
   ],
   "note": "reward_partial_dist and reward_next_highest_close raise ValueError when every district is an opportunity district (refuted); with threshold 1 penalize_maximum_over raises ZeroDivisionError."
  },
  {
   "property": "C70",
   "status": "proved",
   "theorems": [
    "C70_interference",
    "C70_no_interference",
    "C70_scored_stays",
    "C70_first_gingleator_refuted"
   ],
   "note": "Independence of two Gingleators on plans of one class is refuted; distinct names or unrelated plans do not interfere."
  },
  {
   "property": "C71",
   "status": "proved",
   "theorems": [
    "C71_wasted_votes",
    "C71_efficiency_gap",
    "C71_antisymmetric",
    "C71_equal_turnout",
    "C71_tie_refuted",
    "C71_not_two_parties",
    "C71_nobody_voted"
   ],
   "note": "Antisymmetry fails when a district is tied: a tie counts as won by the second party."
  },
  {
   "property": "C72",
   "status": "proved",
   "theorems": [
    "C72_gini_range",
    "C72_gini_symmetric",
    "C72_gini_equal_turnout",
    "C72_gini_above_one_refuted",
    "C72_gini_nobody_voted"
   ],
   "note": "The upper bound 1 holds for equal turnout and is refuted without it."
  },
  {
   "property": "C73",
   "status": "proved",
   "theorems": [
    "C73_median_splits",
    "C73_mean_median_antisymmetric",
    "C73_mean_thirdian",
    "C73_partisan_bias",
    "C73_empty_district"
   ],
   "note": "Finding: a district without votes makes partisan_bias return -1/2."
  },
  {
   "property": "C74",
   "status": "proved",
   "theorems": [
    "C74_counts",
    "C74_length",
    "C74_contiguous",
    "C74_at_most",
    "C74_not_contiguous_refuted"
   ],
   "note": "Plans are given by what the function reads of them: the assignment and the value of cut_edges (whose correctness is C08/C09). Finding: plans that are not contiguous are under-counted."
  },
  {
   "property": "C75",
   "status": "proved",
   "theorems": [
    "C75_num_parts",
    "C75_num_split_localities",
    "C75_naked_boundary",
    "C75_num_pieces"
   ],
   "note": "Localities per node are arbitrary labels; plans coherent with their graph (record scored)."
  },
  {
   "property": "C76",
   "status": "proved",
   "theorems": [
    "C76_non_string"
   ],
   "note": "str : L -> L models the str() lookup; non-string means no locality equals the str of one."
  },
  {
   "property": "C77",
   "status": "proved",
   "theorems": [
    "C77_counts_cut_regions",
    "C77_split_regions",
    "C77_lower_bound",
    "C77_updater",
    "C77_disconnected_refuted"
   ],
   "note": "The count is of regions with a cut edge; equality needs connected regions, refuted otherwise."
  },
  {
   "property": "C78",
   "status": "proved",
   "theorems": [
    "C78_nodes",
    "C78_edges",
    "C78_graph",
    "C78_edge_number",
    "C78_default_assignment",
    "C78_given_assignment",
    "C78_color_half",
    "C78_default_contiguous",
    "C78_updaters",
    "C78_population",
    "C78_population_total",
    "C78_rows",
    "C78_user_updater_refuted",
    "C78_documented_rows_refuted",
    "C78_documented_shape_refuted",
    "C78_one_row_default_refuted"
   ],
   "note": "Findings: as_list_of_lists is the transpose of what is documented; user updaters named like a default are replaced; one-row grids have two default districts."
  },
  {
   "property": "C79",
   "status": "proved",
   "theorems": [
    "C79_perimeter",
    "C79_one_row_refuted",
    "C79_attributes"
   ],
   "note": "Through the updater machine of C08-C18, for all histories. Finding: boundary_perim is too small for every cell of a grid with one row or column."
  },
  {
   "property": "C80",
   "status": "proved",
   "theorems": [
    "C80_join",
    "C80_join_defined",
    "C80_add_data",
    "C80_add_data_defined",
    "C80_columns_ignored_refuted"
   ],
   "note": "For all attribute stores and tables. Finding: add_data(columns=...) only checks the requested columns and then writes all of them, so unrequested columns overwrite node attributes."
  },
  {
   "property": "C81",
   "status": "proved",
   "theorems": [
    "C81_queen",
    "C81_rook",
    "C81_contained",
    "C81_kinds",
    "C81_overlaps",
    "C81_islands"
   ],
   "note": "For every geometry library satisfying the listed laws (complete spatial index, symmetric intersections); containment needs no laws."
  },
  {
   "property": "C82",
   "status": "proved",
   "theorems": [
    "C82_unit",
    "C82_district",
    "C82_outline"
   ],
   "note": "For all geometry data and all histories of flips and reads; no laws about the geometry library are needed."
  },
  {
   "property": "C83",
   "status": "proved",
   "theorems": [
    "C83_weighted",
    "C83_count",
    "C83_any_column",
    "C83_disconnected",
    "C83_updater",
    "C83_single_node_refuted"
   ],
   "note": "Exact integer determinant in place of exp(slogdet). Finding: districts with one node raise IndexError although they have one spanning tree."
  },
  {
   "property": "C84",
   "status": "proved",
   "theorems": [
    "C84_zone_range",
    "C84_zone_near",
    "C84_svalbard",
    "C84_letter",
    "C84_no_letter",
    "C84_antimeridian_refuted",
    "C84_identify",
    "C84_identify_empty",
    "C84_identify_total",
    "C84_accepted",
    "C84_identify_off_the_map"
   ],
   "note": "Rational coordinates, exact arithmetic; finding: zone 61 on the 180th meridian."
  },
  {
   "property": "C85",
   "status": "proved",
   "theorems": [
    "C85_within_tolerance",
    "C85_monotone_refuted"
   ],
   "note": ""
  },
  {
   "property": "C86",
   "status": "proved",
   "theorems": [
    "C86_deviation"
   ],
   "note": ""
  },
  {
   "property": "C87",
   "status": "proved",
   "theorems": [
    "C87_shared_bound",
    "C87_fresh_chain_accepts_its_own_start_refuted"
   ],
   "note": ""
  },
  {
   "property": "C88",
   "status": "proved",
   "theorems": [
    "C88_nested_loops_interfere",
    "C88_outer_loop"
   ],
   "note": ""
  },
  {
   "property": "C89",
   "status": "proved",
   "theorems": [
    "C89_invalid_initial_plan",
    "C89_validator_object_attribute_error",
    "C89_later_constraint_masks_error_refuted"
   ],
   "note": ""
  },
  {
   "property": "C90",
   "status": "proved",
   "theorems": [
    "C90_contiguous_components"
   ],
   "note": "Components are given by their node lists."
  },
  {
   "property": "C91",
   "status": "proved",
   "theorems": [
    "C91_number_of_contiguous_parts"
   ],
   "note": ""
  },
  {
   "property": "C92",
   "status": "proved",
   "theorems": [
    "C92_any_node_flip"
   ],
   "note": ""
  },
  {
   "property": "C93",
   "status": "proved",
   "theorems": [
    "C93_random_spanning_tree",
    "C93_errors"
   ],
   "note": ""
  },
  {
   "property": "C94",
   "status": "proved",
   "theorems": [
    "C94_shannon",
    "C94_power",
    "C94_shannon_zero",
    "C94_power_zero",
    "C94_symmetric",
    "C94_symmetric_bound",
    "C94_symmetric_empty_district"
   ],
   "note": "Over R; uses the standard library's axioms of the real numbers."
  },
  {
   "property": "C95",
   "status": "proved",
   "theorems": [
    "C23_overwritten",
    "C95_second_graph_refuted"
   ],
   "note": "C23_overwritten gives the scores in terms of the first plan's localities for every history; finding: wrong on a second graph."
  },
  {
   "property": "C96",
   "status": "proved",
   "theorems": [
    "C96_refused",
    "C96_outcome",
    "C96_stored",
    "C96_ignore_errors_refuted",
    "C96_area_refuted"
   ],
   "note": "Findings: the validity test after reprojection is inverted with respect to ignore_errors, cols_to_add does not limit what is stored, and table columns replace computed attributes."
  },
  {
   "property": "C97",
   "status": "proved",
   "theorems": [
    "C97_cut",
    "C97_recom",
    "C97_errors",
    "C97_weights",
    "C97_connected",
    "C97_zero_refuted",
    "C97_order_refuted"
   ],
   "note": "Finding: networkx orders the matrix by iterating over the frozen graph, i.e. over a set, while the labels follow graph.nodes(); if the two orders differ a district may fall apart (refutation on a path of three nodes). A zero entry breaks the positive side (refutation on a star)."
  },
  {
   "property": "C98",
   "status": "proved",
   "theorems": [
    "C98_chance",
    "C98_unique",
    "C98_detailed_balance",
    "C98_other_pair",
    "seam_count"
   ],
   "note": "Given a uniformly drawn spanning tree of the merged districts (uniformity of the sampler is an assumption of the statement: the trees are averaged over)."
  },
  {
   "property": "C99",
   "status": "proved",
   "theorems": [
    "C99_uniform",
    "C99_limit"
   ],
   "note": "The root need not be uniform for this; only the neighbour draws are. Random draws are the model's numbers reduced modulo the length of the list."
  },
  {
   "property": "C100",
   "status": "proved",
   "theorems": [
    "C100_support",
    "C100_levels",
    "C100_regions",
    "C100_order",
    "C100_uniform_refuted"
   ],
   "note": "The trees are not uniformly distributed (C100_uniform_refuted), unlike those of uniform_spanning_tree (C99)."
  },
  {
   "property": "C101",
   "status": "proved",
   "theorems": [
    "C101_count",
    "C101_law",
    "C101_balance",
    "C101_stationary",
    "C101_uniform_refuted"
   ],
   "note": "Finding: redrawing invalid proposals biases the chain towards plans with many valid proposals; also applies to reversible_recom with constraints."
  },
  {
   "property": "C102",
   "status": "proved",
   "theorems": [
    "C102_random_flip",
    "C102_accepted",
    "C102_metropolis",
    "C102_slow",
    "C102_slow_balance",
    "C102_bi",
    "C102_any_node",
    "C102_uniform_refuted",
    "C102_slow_uniform_refuted"
   ],
   "note": "Finding: neither flips with cut_edge_accept nor slow_reversible_propose are in balance with the uniform distribution. random.random() is modelled by a uniform grid whose size is a multiple of the numbers of cut edges."
  },
  {
   "property": "C103",
   "status": "proved",
   "theorems": [
    "C103_scores",
    "C103_grid",
    "C103_norms",
    "C103_undefined",
    "C103_no_worse",
    "C103_implied",
    "C103_nan",
    "C103_process_refuted"
   ],
   "note": "Finding: the two compactness constraints are module-level objects whose bound is that of the first plan in the process, so a second chain can reject its own initial plan; a NaN first score makes them reject everything. Floats are reals with NaN; numpy scalars, infinities and overflow are not modelled."
  },
  {
   "property": "C104",
   "status": "proved",
   "theorems": [
    "C104_exact",
    "C104_pair",
    "C104_split",
    "C104_fail",
    "C104_other",
    "C104_moves",
    "C104_balance",
    "C104_trees_refuted"
   ],
   "note": "Exact law of one recom call and its detailed balance; finding: the stationary weight carries the number of cut edges as a factor, so ordinary recom does not sample the spanning tree distribution even with exact balance. Stated for splits up to exchanging the two labels, node_repeats=1, allow_pair_reselection=False; the trees are counted uniformly, which is what the random walk sampler gives (C99) and the random weight sampler does not (C100)."
  },
  {
   "property": "C105",
   "status": "proved",
   "theorems": [
    "C105_frame",
    "C105_flip",
    "C105_shared_refuted",
    "C105_to_dict_refuted"
   ],
   "note": "Finding: Assignment(parts) and to_dict() alias the caller's or the internal dictionary; the refutations give the sequences. Justifies the implicit copy in M_Partition."
  },
  {
   "property": "C106",
   "status": "proved",
   "theorems": [
    "C106_effect",
    "C106_consistent",
    "C106_coherent",
    "C106_orphan_refuted"
   ],
   "note": "Finding: update_parts does not check that the replaced parts are re-covered."
  },
  {
   "property": "C107",
   "status": "proved",
   "theorems": [
    "C107_reads",
    "C107_equal",
    "C107_sources",
    "C107_rebuild",
    "C107_districtr"
   ],
   "note": "Finding: an Assignment passed to Partition goes through from_dict (it has .items), so the branch for Assignment objects is never reached and empty districts are lost. Opening and parsing the JSON file is not modelled."
  },
  {
   "property": "C108",
   "status": "proved",
   "theorems": [
    "C108_frozen",
    "C108_unfrozen",
    "C108_removed",
    "C108_attributes",
    "C108_copy",
    "C108_reads",
    "C108_shown",
    "C108_lookup",
    "C108_lookup_unwritten",
    "C108_lookup_sticks",
    "C108_lookup_evicted",
    "C108_stale_refuted",
    "C108_flicker_refuted"
   ],
   "note": "Finding: changing node data after a plan was built is neither refused nor reliably seen; the refutations give the programs. networkx's freeze and subgraph are modelled by their documented effect."
  },
  {
   "property": "C109",
   "status": "proved",
   "theorems": [
    "C109_subgraphs",
    "C109_sticks",
    "C109_stale_refuted"
   ],
   "note": "The parts of a plan are not written by the library after construction (C105), so the boundary needs a write by the caller."
  },
  {
   "property": "C110",
   "status": "proved",
   "theorems": [
    "C110_values",
    "C110_rebuild",
    "C110_roundtrip",
    "C110_other_nodes",
    "C110_reload",
    "C110_attributes",
    "C110_save_errors",
    "C110_order_refuted",
    "C110_lossy_refuted",
    "C110_grid_refuted"
   ],
   "note": "Findings: graphs of grids cannot be loaded back; neighbour order changes on the first load, so a seeded chain can differ between a graph and its saved copy; an attribute id is lost. The text of JSON is not modelled: numbers and strings are read back as written. numpy arrays, float keys and float, boolean or None nodes are not modelled."
  },
  {
   "property": "C111",
   "status": "proved",
   "theorems": [
    "C111_attribute_is_item",
    "C111_item",
    "C111_missing",
    "C111_shadowed",
    "C111_blank_diverges",
    "C111_edge_flows",
    "C111_keys_as_attributes_refuted",
    "C111_copy_refuted"
   ],
   "note": "Findings: deepcopy of a plan raises KeyError and pickled plans cannot be restored; the docstring's claim that updater keys become attributes fails for reserved names. What copy and pickle ask for is Python's documented protocol and is not modelled beyond the two look-ups."
  },
  {
   "property": "C112",
   "status": "proved",
   "theorems": [
    "C112_uncut",
    "C112_exception",
    "C112_cut",
    "C112_valid",
    "C112_at_most",
    "C112_finished",
    "C112_swallowed_plan_refuted",
    "C112_uncounted_move_refuted"
   ],
   "note": "Findings: an interrupt between counting and returning loses a plan from the sequence, and one between moving and counting makes the chain move twice for one handed-out plan. Statements are taken as atomic; an interrupt inside a callback is the case of an exception."
  },
  {
   "property": "C113",
   "status": "proved",
   "theorems": [
    "C113_recom_chain",
    "C113_stays_balanced",
    "C113_reversible_chain",
    "C113_contiguous_passes",
    "C113_population_passes"
   ],
   "note": "The contracts of the bipartition method are those proved for bipartition_tree in C56, of the search for cuts those of C53. eps < 1 is used only to show that districts are not empty."
  },
  {
   "property": "C114",
   "status": "proved",
   "theorems": [
    "C114_any_node",
    "C114_swallowed",
    "C114_gone",
    "C114_inner_edge",
    "C114_flip_refuted",
    "C114_recom_refuted",
    "C114_reversible_refuted"
   ],
   "note": "Finding: irreducibility fails for the boundary flips (a vanished district never returns) and for recombination with tight tolerance."
  },
  {
   "property": "C115",
   "status": "proved",
   "theorems": [
    "C115_reply_stays",
    "C115_any_schedule",
    "C115_unknown_name",
    "C115_erasure_refuted"
   ],
   "note": "Finding: erasing the parent before the first read can change the reply (NaN tallies). Sessions of all earlier properties now include caller look-ups that insert labels in cached defaultdicts."
  },
  {
   "property": "C116",
   "status": "proved",
   "theorems": [
    "C116_session_goes_on",
    "C116_plans_untouched",
    "C116_retry",
    "C116_nothing_stored",
    "C116_last_moment"
   ],
   "note": "An interrupt inside one dictionary operation of the interpreter is not modelled (CPython makes them atomic). User-written updaters are functions of the plan, as in the machine."
  },
  {
   "property": "C117",
   "status": "proved",
   "theorems": [
    "C117_same_graph",
    "C117_recorded",
    "C117_failure",
    "C117_outcome",
    "C117_reproject_without",
    "C117_file",
    "C117_file_refuted",
    "C117_file_without_refuted",
    "C117_override_refuted",
    "C117_caller_refuted"
   ],
   "note": "Findings: from_file with reproject=True records the wrong system; from_file raises AttributeError on a file without one; crs_override is refused instead of overriding, and comes too late for reprojection; it is written into the caller's table. geopandas' to_crs and set_crs are modelled after their documentation."
  },
  {
   "property": "C118",
   "status": "proved",
   "theorems": [
    "C118_warnings",
    "C118_overlaps",
    "C118_unasked_refuted"
   ],
   "note": "Warnings are those issued; Python's filter may show repeated ones only once. Finding: columns that were not asked for are stored without a check for missing values."
  },
  {
   "property": "C119",
   "status": "proved",
   "theorems": [
    "C119_defined",
    "C119_unique",
    "C119_moves",
    "C119_never",
    "C119_total",
    "C119_balance",
    "C119_stationary",
    "C119_forever"
   ],
   "note": "Plans up to relabelling; non-vacuity on the 4-cycle, whose two balanced plans are proved to be the only ones (probabilities 1/8 and 7/8). The uniformity of the drawn tree is the subject of C99."
  },
  {
   "property": "C120",
   "status": "proved",
   "theorems": [
    "C120_best",
    "C120_fresh",
    "C120_start",
    "C120_burst",
    "C120_known",
    "C120_torn_refuted",
    "C120_unscored_refuted",
    "C120_shared_refuted",
    "C120_alone_bursts",
    "C120_alone_single",
    "C120_alone_variable",
    "C120_alone_unique"
   ],
   "note": "Findings: an interrupt between the two assignments makes best_part and best_score disagree and can lose the best plan; a run whose initial plan cannot be scored leaves the previous best_score with the initial plan; runs under way at the same time share both."
  },
  {
   "property": "C121",
   "status": "proved",
   "theorems": [
    "C121_districts_fixed",
    "C121_values_kept",
    "C121_untouched",
    "C121_window",
    "C121_reuse_refuted",
    "C121_window_sharp_refuted"
   ],
   "note": "Finding: flip stores the caller's dictionary by reference and cut_edges and Tally may consult it again later, so a proposal that reuses one dictionary can silently get wrong cut edges and tallies. C121_untouched is also what justifies treating the flips of a plan as a value in the other models."
  },
  {
   "property": "C122",
   "status": "proved",
   "theorems": [
    "C122_pieces",
    "C122_once",
    "C122_first",
    "C122_current_plan_refuted"
   ],
   "note": "Finding: the numbers are never recomputed. Division and ceiling are exact (the code divides floats)."
  },
  {
   "property": "C123",
   "status": "proved",
   "theorems": [
    "C123_shares",
    "C123_rate",
    "C123_limit",
    "C123_two",
    "C123_unreachable",
    "C123_refuted"
   ],
   "note": "The law of a call is that of C119: pair, tree, cut and final number drawn uniformly and independently, the tree uniform among the spanning trees. The transition table is exact, not in floats."
  },
  {
   "property": "C124",
   "status": "proved",
   "theorems": [
    "C124_law",
    "C124_averages",
    "C124_limit",
    "C124_alternates_refuted"
   ],
   "note": "One number below D per proposal, uniform and independent; a chance is the limit of the fraction of words of n draws as n grows, as in C101."
  },
  {
   "property": "C125",
   "status": "proved",
   "theorems": [
    "C125_averages",
    "C125_histogram"
   ],
   "note": "A share of runs is the limit inferior of the fraction of words of n draws as n grows, as in C101 and C124. Statistics take rational values and depend on the plan alone."
  },
  {
   "property": "C126",
   "status": "proved",
   "theorems": [
    "C126_averages",
    "C126_histogram",
    "C126_uniform_refuted"
   ],
   "note": "Finding: uniform proposals do not give uniform plans, because invalid proposals are redrawn. A share of runs is as in C125. A constraint is a function of the plan and keeps every plan object's districts; drawing random numbers in constraints is excluded."
  },
  {
   "property": "C127",
   "status": "proved",
   "theorems": [
    "C127_averages",
    "C127_histogram",
    "C127_undoable",
    "C127_uniform_refuted"
   ],
   "note": "Finding: a chain of slow_reversible_propose with always_accept does not sample uniformly, even among plans that can all be reached from one another. The weight of a plan is its number of allowed boundary moves. A share of runs is as in C125."
  },
  {
   "property": "C128",
   "status": "proved",
   "theorems": [
    "C128_averages",
    "C128_histogram",
    "C128_uniform_refuted"
   ],
   "note": "Finding: with cut_edge_accept the weight of a plan is its number of allowed boundary moves over its number of cut edges; the chain is not uniform. random.random() is a uniform grid of M points, as in C102."
  },
  {
   "property": "C129",
   "status": "proved",
   "theorems": [
    "C129_averages",
    "C129_histogram",
    "C129_undoable",
    "C129_uniform_refuted",
    "C129_slow_refuted"
   ],
   "note": "Finding: slow_reversible_propose_bi with always_accept samples neither uniformly nor what slow_reversible_propose samples, on the same plans under the same constraints. A share of runs is as in C125, over the pairs of choices that are equally likely."
  },
  {
   "property": "C130",
   "status": "proved",
   "theorems": [
    "C130_random_flip",
    "C130_chunk_flip",
    "C130_every_district",
    "C130_slow",
    "C130_bi",
    "C130_recom",
    "C130_reversible",
    "C130_spectral",
    "C130_flip_runs",
    "C130_slow_runs",
    "C130_bi_runs",
    "C130_slow_averages",
    "C130_bi_averages",
    "C130_reproducible_refuted"
   ],
   "note": "Finding: the seed of the random module does not determine the run; the listing order of sets does too. Exact for one call of each of the eight proposals; runs for propose_random_flip, slow_reversible_propose and slow_reversible_propose_bi. The order in which the nodes of a district are listed inside the tree methods is not an argument here; the order of the matrix rows in spectral_recom is not harmless, see C97."
  },
  {
   "property": "C131",
   "status": "proved",
   "theorems": [
    "C131_on_flow",
    "C131_on_edge_flow",
    "C131_untouched",
    "C131_untouched_edges",
    "C131_alias",
    "C131_no_cut_edges",
    "C131_count_nodes",
    "C131_count_cuts",
    "C131_sum_nodes",
    "C131_sum_cuts",
    "C131_first_only_refuted"
   ],
   "note": "Finding: an initializer that is right for the first plan only gives wrong values on plans first read after their parent was dropped. User functions are taken as pure; one user updater at a time; on_edge_flow for graphs with at least one node."
  },
  {
   "property": "C132",
   "status": "proved",
   "theorems": [
    "C132_pure",
    "C132_shared",
    "C132_shared_edges",
    "C132_in_place",
    "C132_in_place_edges",
    "C132_in_place_refuted"
   ],
   "note": "Findings: value objects are shared between plans, and a function that works in place makes the values of the parent wrong. on_edge_flow needs the cut_edges updater and a plan with at least one district."
  },
  {
   "property": "C133",
   "status": "proved",
   "theorems": [
    "C133_accepts",
    "C133_error",
    "C133_hemisphere",
    "C133_there_and_back",
    "C133_antimeridian_refuted",
    "C133_south_refuted",
    "C133_forced_letter_refuted",
    "C133_forced"
   ],
   "note": "Findings: zone 61 on the antimeridian is refused on the way back; south as a letter means north; a forced letter is unchecked without a forced number. The series themselves are not modelled; strings are ASCII, coordinates scalar."
  }
 ]
}