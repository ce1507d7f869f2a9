{
 "claims": [
  {
   "property": "C01",
   "status": "proved",
   "theorems": [
    "C01_make_fraction_exact_lowest",
    "C01_mul_exact_lowest",
    "C01_mul_int_exact_lowest",
    "C01_div_exact_lowest",
    "C01_div_int_exact_lowest",
    "C01_div_by_zero_rejected"
   ],
   "note": ""
  },
  {
   "property": "C02",
   "status": "proved",
   "theorems": [
    "C02_lt_exact",
    "C02_Qltb_is_Qlt",
    "C02_eq_exact",
    "C02_gt_exact",
    "C02_le_exact",
    "C02_lt_int_exact",
    "C02_eq_int_exact",
    "C02_gt_int_exact",
    "C02_nonpositive_denominator_rejected",
    "C02_total_on_constructible_refuted"
   ],
   "note": "Exact for positive denominators; the claim for every constructible fraction (zero denominator allowed by the constructor) is refuted by C02_total_on_constructible_refuted."
  },
  {
   "property": "C03",
   "status": "proved",
   "theorems": [
    "C03_modulo_canonical",
    "C03_modulo_zero_undefined"
   ],
   "note": ""
  },
  {
   "property": "C04",
   "status": "proved",
   "theorems": [
    "C04_floor",
    "C04_ceil",
    "C04_floord",
    "C04_ceild"
   ],
   "note": ""
  },
  {
   "property": "C05",
   "status": "partial",
   "theorems": [
    "C05_extended_euclide_solves_partial",
    "C05_extended_euclide_rejects",
    "C05_extended_euclide_up_to_sign_partial",
    "C05_negative_coefficients_refuted"
   ],
   "note": "Holds for non-negative a or up to sign; refuted for negative coefficients (C05_negative_coefficients_refuted)."
  },
  {
   "property": "C06",
   "status": "partial",
   "theorems": [
    "C06_fibo_is_fibonacci_refuted",
    "C06_fibo_value_partial"
   ],
   "note": "The claim is false of the code: fibo(n) is refuted as the Fibonacci function and its actual value is characterised."
  },
  {
   "property": "C07",
   "status": "proved",
   "theorems": [
    "C07_split_sdf3_list"
   ],
   "note": ""
  },
  {
   "property": "C08",
   "status": "proved",
   "theorems": [
    "C08_latexize_escapes"
   ],
   "note": ""
  },
  {
   "property": "C09",
   "status": "proved",
   "theorems": [
    "C09_rgb_hex_roundtrip"
   ],
   "note": ""
  },
  {
   "property": "C10",
   "status": "proved",
   "theorems": [
    "C10_ids_unique",
    "C10_ids_after_rejections",
    "C10_rejected_additions_refuted"
   ],
   "note": "For accepted calls other than setVertexIdUnsafe; after rejected calls non-zero identifiers stay unique but zero ones do not (C10_rejected_additions_refuted)."
  },
  {
   "property": "C11",
   "status": "proved",
   "theorems": [
    "C11_names_unique",
    "C11_named_is_found"
   ],
   "note": ""
  },
  {
   "property": "C12",
   "status": "proved",
   "theorems": [
    "C12_fresh_vertex",
    "C12_fresh_edge",
    "C12_max_ids",
    "C12_chosen_vertex_id"
   ],
   "note": ""
  },
  {
   "property": "C13",
   "status": "proved",
   "theorems": [
    "C13_remove_vertex",
    "C13_no_dangling"
   ],
   "note": ""
  },
  {
   "property": "C14",
   "status": "partial",
   "theorems": [
    "C14_totals_partial",
    "C14_totals_wrap",
    "C14_large_sum_refuted"
   ],
   "note": "Holds for non-negative rates summing below 2^31; in general the total is the sum with 32-bit wrap-around (C14_totals_wrap), so the unrestricted claim is refuted (C14_large_sum_refuted)."
  },
  {
   "property": "C15",
   "status": "proved",
   "theorems": [
    "C15_phases_coherent",
    "C15_contradiction_refused",
    "C15_fit_for_analysis",
    "C15_phases_call_refuted",
    "C15_rejected_rates_refuted"
   ],
   "note": "For histories of accepted calls using setPhasesQuantity only before rates; refuted without these restrictions (C15_phases_call_refuted, C15_rejected_rates_refuted)."
  },
  {
   "property": "C16",
   "status": "proved",
   "theorems": [
    "C16_frozen",
    "C16_no_stale_result",
    "C16_writable_has_no_result",
    "C16_analysis_freezes",
    "C16_counter_moves_refuted"
   ],
   "note": "Vertices, edges and attributes are untouched; the automatic number moves on a refused addVertex() (C16_counter_moves_refuted)."
  },
  {
   "property": "C17",
   "status": "partial",
   "theorems": [
    "C17_cached_gcd_partial",
    "C17_first_query_partial",
    "C17_stale_refuted",
    "C17_reused_identifier_refuted"
   ],
   "note": "Holds when rates and identifiers are fixed once queried and on first queries; in general the cache is stale (C17_stale_refuted, C17_reused_identifier_refuted)."
  },
  {
   "property": "C18",
   "status": "proved",
   "theorems": [
    "C18_balance",
    "C18_fit_for_scheduling"
   ],
   "note": "For graphs with non-negative rates, one rate per phase and at least one task; also composed with the scheduling theorems (C18_fit_for_scheduling)."
  },
  {
   "property": "C19",
   "status": "proved",
   "theorems": [
    "C19_cycle_counts_coprime",
    "C19_least_solution",
    "C19_disconnected_refuted"
   ],
   "note": "Every multi-phase task must have a channel; the extension to disconnected graphs is refuted (C19_disconnected_refuted)."
  },
  {
   "property": "C20",
   "status": "proved",
   "theorems": [
    "C20_consistency_exact",
    "C20_empty_graph_refuted"
   ],
   "note": "For graphs with at least one task; the empty graph is undefined behaviour (C20_empty_graph_refuted)."
  },
  {
   "property": "C21",
   "status": "partial",
   "theorems": [
    "C21_isolated_task_refuted"
   ],
   "note": "The claim is false of the code: C21_isolated_task_refuted; tasks with a channel satisfy it (C18_balance)."
  },
  {
   "property": "C22",
   "status": "proved",
   "theorems": [
    "C22_normalised",
    "C22_succeeds_iff_consistent",
    "C22_connected_graphs",
    "C22_same_amount_everywhere",
    "C22_lone_task_refuted"
   ],
   "note": "normalize on graphs as built by the API: soundness of the stored weights, success exactly on consistent graphs (connected graphs included), equal normalised flow. A graph with channels and a task without any is rejected although consistent (refuted case). Overflow is not modelled."
  },
  {
   "property": "C23",
   "status": "proved",
   "theorems": [
    "C23_components",
    "C23_topological_order"
   ],
   "note": "For unique identifiers and channels inside the graph, which builder histories guarantee (C10, C13)."
  },
  {
   "property": "C24",
   "status": "partial",
   "theorems": [
    "C24_cycles_partial",
    "C24_no_self_loop_partial",
    "C24_self_loop_refuted",
    "C24_self_limit"
   ],
   "note": "The claim is false for channels from a task to itself (C24_self_loop_refuted); exact for cycles through two tasks and for graphs without such channels."
  },
  {
   "property": "C25",
   "status": "proved",
   "theorems": [
    "C25_start_times_satisfy",
    "C25_start_times_complete",
    "C25_generated_graphs_closed"
   ],
   "note": ""
  },
  {
   "property": "C26",
   "status": "partial",
   "theorems": [
    "C26_infeasible_period_refuted",
    "C26_flag_meaning_partial"
   ],
   "note": "The claim is false of the code: C26_infeasible_period_refuted exhibits an infeasible period reported as success; C26_flag_meaning_partial says what the flag does mean."
  },
  {
   "property": "C27",
   "status": "proved",
   "theorems": [
    "C27_generation_total",
    "C27_constraints_sound",
    "C27_constraints_sound_reentrant",
    "C27_returned_schedule_valid",
    "C27_reentrant_multiphase_refuted",
    "C27_initial_rates_refuted"
   ],
   "note": "For positive reentrancy factors (or single-phase tasks at K=1) and initial rates that are multiples of the channel's fine gcd; outside that domain the claim is refuted by C27_reentrant_multiphase_refuted and C27_initial_rates_refuted."
  },
  {
   "property": "C28",
   "status": "proved",
   "theorems": [
    "C28_constraints_necessary",
    "C28_feasible_iff_circuits_fit"
   ],
   "note": "For graphs without initial phases and positive reentrancy factors."
  },
  {
   "property": "C29",
   "status": "proved",
   "theorems": [
    "C29_bounds_agree",
    "C29_variants_agree"
   ],
   "note": ""
  },
  {
   "property": "C30",
   "status": "proved",
   "theorems": [
    "C30_selfloop_serialises",
    "C30_selfloop_exact",
    "C30_long_initial_phase_refuted"
   ],
   "note": "Needs the initial phases not longer than charged; refuted otherwise by C30_long_initial_phase_refuted."
  },
  {
   "property": "C31",
   "status": "proved",
   "theorems": [
    "C31_update_vector_invariants",
    "C31_update_vector_order"
   ],
   "note": "For repetition vectors that are multiples of the phase counts."
  },
  {
   "property": "C32",
   "status": "proved",
   "theorems": [
    "C32_kiter_terminates"
   ],
   "note": "For graphs without initial phases; the solver is an arbitrary function."
  },
  {
   "property": "C33",
   "status": "proved",
   "theorems": [
    "C33_refining_K_monotone"
   ],
   "note": ""
  },
  {
   "property": "C34",
   "status": "proved",
   "theorems": [
    "C34_sameset_exact"
   ],
   "note": ""
  },
  {
   "property": "C35",
   "status": "proved",
   "theorems": [
    "C35_update_is_regeneration"
   ],
   "note": "For graphs without initial phases (with them the code looks up missing events)."
  },
  {
   "property": "C36",
   "status": "partial",
   "theorems": [
    "C36_token_conservation_partial",
    "C36_self_loop_refuted",
    "C36_initial_phases_refuted"
   ],
   "note": "Every reachable state of graphs without initial phases whose self-channels produce in each phase what they consume; refuted outside (C36_self_loop_refuted, C36_initial_phases_refuted)."
  },
  {
   "property": "C37",
   "status": "partial",
   "theorems": [
    "C37_capacity_respected_partial",
    "C37_small_capacity_refuted"
   ],
   "note": "Same graphs as C36, capacities at least the initial tokens; a smaller capacity starts with negative space (C37_small_capacity_refuted)."
  },
  {
   "property": "C38",
   "status": "partial",
   "theorems": [
    "C38_time_advance_partial",
    "C38_long_duration_refuted"
   ],
   "note": "Durations below LONG_MAX; at LONG_MAX a false deadlock is reported (C38_long_duration_refuted)."
  },
  {
   "property": "C39",
   "status": "partial",
   "theorems": [
    "C39_recurrence_is_periodic_partial",
    "C39_start_is_unique"
   ],
   "note": "Same graphs as C36, connected, every task with an input channel (or any channel when bounded)."
  },
  {
   "property": "C40",
   "status": "proved",
   "theorems": [
    "C40_size_is_sum",
    "C40_last_value"
   ],
   "note": "Histories of the three setters from any distribution whose size is right; keys stay in order, size is the sum, last write wins."
  },
  {
   "property": "C41",
   "status": "proved",
   "theorems": [
    "C41_history",
    "C41_next",
    "C41_membership"
   ],
   "note": "All histories over a fixed channel list; asking an empty set is undefined (C41_next)."
  },
  {
   "property": "C42",
   "status": "proved",
   "theorems": [
    "C42_infeasible_frontier"
   ],
   "note": "All sequences of points."
  },
  {
   "property": "C43",
   "status": "partial",
   "theorems": [
    "C43_feasible_query_partial",
    "C43_minimality_refuted"
   ],
   "note": "Closure of the query is proved; the minimality half is false of the code (C43_minimality_refuted)."
  },
  {
   "property": "C44",
   "status": "proved",
   "theorems": [
    "C44_knees",
    "C44_cut"
   ],
   "note": "Knee coverage and the cut are proved for all sequences of infeasible points."
  },
  {
   "property": "C45",
   "status": "proved",
   "theorems": [
    "C45_minimum"
   ],
   "note": "Greatest lower bound and size of the sum."
  },
  {
   "property": "C46",
   "status": "partial",
   "theorems": [
    "C46_fore_cone",
    "C46_back_cone_partial",
    "C46_back_cone_refuted"
   ],
   "note": "Fore cone exact; back cone reads an uninitialised variable on an empty iteration (C46_back_cone_refuted), exact otherwise."
  },
  {
   "property": "C47",
   "status": "partial",
   "theorems": [
    "C47_step_is_gcd",
    "C47_defined",
    "C47_multiples_partial",
    "C47_nothing_between_steps_partial",
    "C47_initial_phases_refuted"
   ],
   "note": "gcd for every channel; the token counts claim holds without initial phases and is refuted with them (C47_initial_phases_refuted)."
  },
  {
   "property": "C48",
   "status": "partial",
   "theorems": [
    "C48_feedback_is_capacity_partial",
    "C48_loads",
    "C48_initial_phases_refuted"
   ],
   "note": "Exact for channels without initial phases; refuted with them (C48_initial_phases_refuted): the feedback channel drops them."
  },
  {
   "property": "C49",
   "status": "partial",
   "theorems": [
    "C49_generation_partial",
    "C49_symmetric",
    "C49_core_has_one_router",
    "C49_lookup",
    "C49_overflow_refuted"
   ],
   "note": "Exact while the largest link identifier fits in an int; beyond, generation overflows (C49_overflow_refuted), first at 153 x 153."
  },
  {
   "property": "C50",
   "status": "proved",
   "theorems": [
    "C50_xy_route",
    "C50_shortest"
   ],
   "note": "Every pair of cores; also shown shortest among all chains of links."
  },
  {
   "property": "C51",
   "status": "partial",
   "theorems": [
    "C51_modulo_mapping_refuted",
    "C51_route_undefined_refuted"
   ],
   "note": "Refuted: the node is always a router, and xyRouting is then undefined."
  },
  {
   "property": "C52",
   "status": "partial",
   "theorems": [
    "C52_square_partial",
    "C52_rectangle_refuted"
   ],
   "note": "Exact on square meshes; refuted when rows and columns differ."
  },
  {
   "property": "C53",
   "status": "proved",
   "theorems": [
    "C53_groups_are_components"
   ],
   "note": "All call sequences; getall returns exactly one non-empty set per connected component."
  },
  {
   "property": "C54",
   "status": "partial",
   "theorems": [
    "C54_values_partial",
    "C54_joining_value_refuted"
   ],
   "note": "The claim is false of the code: C54_joining_value_refuted; the exact content of each set is C54_values_partial."
  },
  {
   "property": "C55",
   "status": "proved",
   "theorems": [
    "C55_kiter_optimal",
    "C55_kiter_end_to_end"
   ],
   "note": "Relative to an exact answer of MinCycleRatio on the final event graph (hypothesis exact_answer), graphs without initial phases, positive reentrancy factors."
  },
  {
   "property": "C56",
   "status": "partial",
   "theorems": [
    "C56_least_size_partial",
    "C56_phases_refuted"
   ],
   "note": "Exact for one rate on each side and sizes below INT_MAX; refuted with several phases (C56_phases_refuted)."
  },
  {
   "property": "C57",
   "status": "proved",
   "theorems": [
    "C57_feasible_set"
   ],
   "note": "All sequences of points."
  },
  {
   "property": "C58",
   "status": "partial",
   "theorems": [
    "C58_infeasible_set_refuted"
   ],
   "note": "Refuted: as soon as the set holds two points, the uninitialised local of isInBackCone is read."
  },
  {
   "property": "C59",
   "status": "proved",
   "theorems": [
    "C59_pareto_frontier"
   ],
   "note": "Relative to a sound evaluation (the record sound_evaluation); positive target."
  },
  {
   "property": "C60",
   "status": "partial",
   "theorems": [
    "C60_terminates_partial",
    "C60_ends_for_any_target",
    "C60_zero_target_refuted",
    "C60_skipped_target_refuted"
   ],
   "note": "C60_terminates_partial: ends when some grid distribution attains the target and none exceeds it. C60_ends_for_any_target: ends for every positive target when channels with much room are never critical (met by K-Iter: C117). Findings: with a zero target the result is undefined (C60_zero_target_refuted); with a target strictly between two attainable throughputs and a channel that stays critical the search never ends (C60_skipped_target_refuted)."
  },
  {
   "property": "C61",
   "status": "proved",
   "theorems": [
    "C61_random_mapping",
    "C61_every_core"
   ],
   "note": "All meshes that can be built, all non-negative draws."
  },
  {
   "property": "C62",
   "status": "proved",
   "theorems": [
    "C62_random_route"
   ],
   "note": "All sequences of draws."
  },
  {
   "property": "C63",
   "status": "proved",
   "theorems": [
    "C63_mesh_side"
   ],
   "note": "sqrt and ceil taken exactly."
  },
  {
   "property": "C64",
   "status": "proved",
   "theorems": [
    "C64_event_cycle"
   ],
   "note": "All slots."
  },
  {
   "property": "C65",
   "status": "proved",
   "theorems": [
    "C65_earliest"
   ],
   "note": "Same graphs as C36, positive durations."
  },
  {
   "property": "C66",
   "status": "partial",
   "theorems": [
    "C66_deadlock_is_real_partial",
    "C66_self_loop_refuted"
   ],
   "note": "Same graphs as C36; refuted for an uneven self-channel (C66_self_loop_refuted) and for LONG_MAX durations (C38_long_duration_refuted)."
  },
  {
   "property": "C67",
   "status": "partial",
   "theorems": [
    "C67_throughput_is_maximal_partial"
   ],
   "note": "Same graphs as C36, connected, positive durations."
  },
  {
   "property": "C68",
   "status": "proved",
   "theorems": [
    "C68_agrees_with_kiter",
    "C68_deadlock_agrees_with_kiter"
   ],
   "note": "The maximum cycle ratio solver of K-Iter is an oracle answering exactly."
  },
  {
   "property": "C69",
   "status": "partial",
   "theorems": [
    "C69_simulation_ends_partial",
    "C69_decides_liveness_partial",
    "C69_lone_task_refuted",
    "C69_huge_factors_refuted"
   ],
   "note": "Proved for graphs as in C36 that are strongly connected, or connected with capacities holding the initial tokens, with a repetition factor below INT_MAX; a task without channels never ends (C69_lone_task_refuted) and with all factors from INT_MAX on the reference task is undefined (C69_huge_factors_refuted)."
  },
  {
   "property": "C70",
   "status": "partial",
   "theorems": [
    "C70_throughput_of_any_graph_partial",
    "C70_always_answers_partial",
    "C70_steps_do_not_matter",
    "C70_agrees_with_kiter_partial",
    "C70_component_graphs",
    "C70_cut_duration_refuted"
   ],
   "note": "Graphs without initial phases, with even self-channels and positive durations; tasks on no cycle must have integer durations, because getVertexTotalDuration accumulates in an int (C70_cut_duration_refuted)."
  },
  {
   "property": "C71",
   "status": "partial",
   "theorems": [
    "C71_always_answers",
    "C71_value_is_a_circuit",
    "C71_minimum_bounds_circuits_partial",
    "C71_maximum_bounds_circuits_partial",
    "C71_minimum_exact_partial",
    "C71_maximum_exact_partial",
    "C71_iteration_limit_refuted",
    "C71_no_circuit_refuted",
    "C71_single_event_refuted"
   ],
   "note": "Exact rationals instead of long double. The unconditional statement is false: the loop gives up after 100 rounds and returns a wrong value (C71_iteration_limit_refuted); a graph without circuit (maximum) and a single event (minimum) are answered wrongly (C71_no_circuit_refuted, C71_single_event_refuted)."
  },
  {
   "property": "C72",
   "status": "partial",
   "theorems": [
    "C72_kiter_with_its_solver_partial",
    "C72_solver_answers"
   ],
   "note": "Needs the run of the solver on the last event graph to settle within its 100 rounds and exact comparisons; see C71."
  },
  {
   "property": "C73",
   "status": "proved",
   "theorems": [
    "C73_constraints_exact",
    "C73_feasible_iff",
    "C73_schedule_valid",
    "C73_critical_channel_refuted"
   ],
   "note": "The constraint and schedule statements hold in full; the critical channels reported with the schedule are wrong (C73_critical_channel_refuted)."
  },
  {
   "property": "C74",
   "status": "partial",
   "theorems": [
    "C74_always_answers",
    "C74_best_with_exact_solver",
    "C74_best_partial",
    "C74_schedule_best_partial",
    "C74_live_graph_refuted",
    "C74_single_task_refuted"
   ],
   "note": "Proved for any exact solver; for the solver of the code it needs a settled run and exact comparisons. Unconditionally false: a live graph without strictly periodic schedule gets a negative period and a lone task period 0 (C74_live_graph_refuted, C74_single_task_refuted)."
  },
  {
   "property": "C75",
   "status": "partial",
   "theorems": [
    "C75_approximation_sound",
    "C75_never_above_partial"
   ],
   "note": "Soundness of the constraints is proved in full; the comparison of the two throughputs needs settled runs of the solver."
  },
  {
   "property": "C76",
   "status": "proved",
   "theorems": [
    "C76_never_beats_kiter"
   ],
   "note": "K-Iter with an exact solver; see C72 for its own."
  },
  {
   "property": "C77",
   "status": "proved",
   "theorems": [
    "C77_kperiodic_schedule_best"
   ],
   "note": "For any solver that is exact on the last event graph; see C72 for the solver of the code."
  },
  {
   "property": "C78",
   "status": "proved",
   "theorems": [
    "C78_one_periodic_schedule_best",
    "C78_periodic_throughput_best",
    "C78_no_periodic_schedule_refuted"
   ],
   "note": "For any solver that is exact on the event graph. Nothing checks the sign of the period: a live graph without 1-periodic schedule gets a negative period (C78_no_periodic_schedule_refuted)."
  },
  {
   "property": "C79",
   "status": "proved",
   "theorems": [
    "C79_nperiodic_is_optimal",
    "C79_kiter_equals_nperiodic"
   ],
   "note": "For any solver that is exact on the two event graphs."
  },
  {
   "property": "C80",
   "status": "proved",
   "theorems": [
    "C80_merged_schedule_is_valid"
   ],
   "note": "The phase-pattern condition is explicit; single-phase tasks always meet it."
  },
  {
   "property": "C81",
   "status": "proved",
   "theorems": [
    "C81_merge_consistent_never_faster",
    "C81_cut_patterns_overestimate_refuted"
   ],
   "note": "The phase-pattern condition is explicit and needed: C81_cut_patterns_overestimate_refuted merges tasks of a two-phase graph and gets a graph with a schedule faster than any of the original."
  },
  {
   "property": "C82",
   "status": "proved",
   "theorems": [
    "C82_merge_succeeds",
    "C82_kperiodic_merge_succeeds"
   ],
   "note": "The fuel of the model stands for the unbounded search loop: enough of it always exists. The second theorem is the full transformation, with any solver that is exact on the last event graph."
  },
  {
   "property": "C83",
   "status": "partial",
   "theorems": [
    "C83_merge_keeps_schedule_partial",
    "C83_merge_deadlocks_refuted"
   ],
   "note": "Proved when the repetition counts of the merged tasks are coprime. In general false: C83_merge_deadlocks_refuted merges two tasks of a live graph and gets a graph without any schedule."
  },
  {
   "property": "C84",
   "status": "proved",
   "theorems": [
    "C84_round_trip",
    "C84_exact_round_trip",
    "C84_factor_refuted",
    "C84_self_loop_refuted"
   ],
   "note": "Fractional times depend on the two number conversions of the stream library, which are oracles; the theorem asks that they invert each other on the times of the graph. Findings: a factor above one is read back as one (C84_factor_refuted), a one-token unit self-loop is no longer a channel (C84_self_loop_refuted)."
  },
  {
   "property": "C85",
   "status": "proved",
   "theorems": [
    "C85_accepted_documents",
    "C85_loop_meaning",
    "C85_missing_time_refuted",
    "C85_shared_port_refuted"
   ],
   "note": "The rates of the channels are covered by C84 and C86; C85_shared_port_refuted and C85_missing_time_refuted show documents that are accepted with rates or durations missing, or that index an empty vector."
  },
  {
   "property": "C86",
   "status": "proved",
   "theorems": [
    "C86_rate_notation",
    "C86_empty_rate_refuted"
   ],
   "note": "An empty rate or an empty item is undefined behaviour (C86_empty_rate_refuted)."
  },
  {
   "property": "C87",
   "status": "partial",
   "theorems": [
    "C87_constraints_exact",
    "C87_throughput_exact",
    "C87_equals_kiter",
    "C87_own_solver_partial",
    "C87_answers_on_live_graphs",
    "C87_no_tokens_deadlock",
    "C87_initial_phases_refuted"
   ],
   "note": "Proved with an exact maximum-ratio solver (oracle) and with the modelled Howard solver at tolerance 0 whenever it settles; missing: that it settles within its 1000 passes. Finding: graphs with initial phases are accepted and the initial phases ignored (C87_initial_phases_refuted)."
  },
  {
   "property": "C88",
   "status": "proved",
   "theorems": [
    "C88_cleaning",
    "C88_clean_throughput_exact"
   ],
   "note": "The throughput part is for an exact maximum-ratio solver (oracle), as in C87."
  },
  {
   "property": "C89",
   "status": "proved",
   "theorems": [
    "C89_sizes_are_enough"
   ],
   "note": "The solver is an oracle, quantified in the theorem; it is only assumed to return a point of the problem it was given."
  },
  {
   "property": "C90",
   "status": "proved",
   "theorems": [
    "C90_ilp_is_minimal",
    "C90_relaxation_never_below",
    "C90_solvable_iff_schedulable"
   ],
   "note": "The solver is an oracle, quantified in the theorem; its point is assumed optimal for the problem it was given."
  },
  {
   "property": "C91",
   "status": "partial",
   "theorems": [
    "C91_impossible_period_refuted",
    "C91_no_solution_is_zero",
    "C91_no_default_period",
    "C91_given_period"
   ],
   "note": "False of the code as stated: C91_impossible_period_refuted, C91_no_solution_is_zero and C91_no_default_period; what holds is C91_given_period."
  },
  {
   "property": "C92",
   "status": "proved",
   "theorems": [
    "C92_fixed_offsets",
    "C92_burst_offsets",
    "C92_average_offsets"
   ],
   "note": "Solver as an oracle. The Wiggers and MINMAX offsets are in C161 and C163."
  },
  {
   "property": "C93",
   "status": "partial",
   "theorems": [
    "C93_strictly_periodic_sizing",
    "C93_long_task_refuted"
   ],
   "note": "Proved when one-phase tasks fit their own period; refuted without this condition (C93_long_task_refuted)."
  },
  {
   "property": "C94",
   "status": "partial",
   "theorems": [
    "C94_exploration_ends",
    "C94_zero_throughput_refuted"
   ],
   "note": "Proved for every positive throughput; refuted for a throughput of 0 (C94_zero_throughput_refuted; FreqDseProps.stuck is a graph with that throughput)."
  },
  {
   "property": "C95",
   "status": "proved",
   "theorems": [
    "C95_points_are_real",
    "C95_front_is_complete"
   ],
   "note": "Exact rationals for doubles."
  },
  {
   "property": "C96",
   "status": "proved",
   "theorems": [
    "C96_periodic_exploration"
   ],
   "note": "Solver as an oracle, assumed exact on the problems it is given; exact rationals for doubles."
  },
  {
   "property": "C97",
   "status": "partial",
   "theorems": [
    "C97_answers_only_if_live",
    "C97_synchronous_exact",
    "C97_deadlock_never_reported",
    "C97_inconsistent_rejected",
    "C97_cyclostatic_refuted"
   ],
   "note": "Exact on single-phase graphs; on every graph an answer implies liveness; refuted for cyclo-static graphs (C97_cyclostatic_refuted)."
  },
  {
   "property": "C98",
   "status": "proved",
   "theorems": [
    "C98_program_order",
    "C98_program_order_exists"
   ],
   "note": "Proved of every answer, and an answer exists on live single-phase graphs."
  },
  {
   "property": "C99",
   "status": "partial",
   "theorems": [
    "C99_trace_is_ordered",
    "C99_trace_is_complete",
    "C99_trace_content",
    "C99_packets_follow_production",
    "C99_duration_refuted"
   ],
   "note": "Order, numbering and completeness proved; printed durations refuted (C99_duration_refuted)."
  },
  {
   "property": "C100",
   "status": "partial",
   "theorems": [
    "C100_packet_size",
    "C100_unlimited_size_refuted",
    "C100_waits_for_packets_partial",
    "C100_second_packet_only_refuted"
   ],
   "note": "Waiting proved when each task executes once; refuted in general and for the default size (C100_second_packet_only_refuted, C100_unlimited_size_refuted)."
  },
  {
   "property": "C101",
   "status": "proved",
   "theorems": [
    "C101_schedulable_iff_live",
    "C101_kiter_decides_liveness",
    "C101_simulation_decides_liveness",
    "C101_symbolic_agrees_with_kiter"
   ],
   "note": "K-Iter with an exact cycle ratio solver, as in C55; the simulation on connected graphs, as in C66."
  },
  {
   "property": "C102",
   "status": "proved",
   "theorems": [
    "C102_fits",
    "C102_consistent",
    "C102_answers",
    "C102_empty_refuted",
    "C102_undefined_refuted",
    "C102_lonely_task_rejected",
    "C102_redraw_unbounded_refuted"
   ],
   "note": "C102_undefined_refuted, C102_empty_refuted and C102_lonely_task_rejected show the configurations that give no graph, C102_redraw_unbounded_refuted a stream for which the generator runs for ever."
  },
  {
   "property": "C103",
   "status": "proved",
   "theorems": [
    "C103_marking",
    "C103_generated_live",
    "C103_exact_solver_exists"
   ],
   "note": "The cycle ratio solver is any exact one (C103_exact_solver_exists gives one; C71 and C72 say when Howard's is).  C103_generated_live is for configurations of synchronous graphs with sequential tasks, as generate_random_sdf sets by default."
  },
  {
   "property": "C104",
   "status": "partial",
   "theorems": [
    "C104_answers",
    "C104_sizes_work_partial",
    "C104_computed",
    "C104_rates_refuted",
    "C104_phases_refuted",
    "C104_period_refuted",
    "C104_lines"
   ],
   "note": "C104_sizes_work_partial for synchronous graphs with slow or empty channels; the rest is false of the code: C104_phases_refuted, C104_rates_refuted, C104_period_refuted.  C104_computed gives the starts and sizes exactly on synchronous graphs."
  },
  {
   "property": "C105",
   "status": "partial",
   "theorems": [
    "C105_cycles",
    "C105_all_cycles_partial",
    "C105_self_loops_refuted",
    "C105_numbering_refuted",
    "C105_second_run"
   ],
   "note": "C105_cycles characterises the list exactly on graphs numbered 1..n; C105_all_cycles_partial: it is all elementary cycles when there are no self-loops; otherwise false of the code: C105_self_loops_refuted, C105_numbering_refuted, C105_second_run."
  },
  {
   "property": "C106",
   "status": "proved",
   "theorems": [
    "C106_lossless",
    "C106_prunes_nothing",
    "C106_reached_refuted",
    "C106_ends",
    "C106_optimum_refuted"
   ],
   "note": "C106_lossless (all channels are buffers), C106_prunes_nothing and C106_ends (feedback channels); C106_reached_refuted and C106_optimum_refuted show the empty answers.  Termination without feedback channels is not proved; C106_prunes_nothing assumes that the best size found fits an int."
  },
  {
   "property": "C107",
   "status": "proved",
   "theorems": [
    "C107_component_search"
   ],
   "note": "C107_component_search: ends, exactly the channels on cycles of dependencies, no repetition."
  },
  {
   "property": "C108",
   "status": "proved",
   "theorems": [
    "C108_default_search",
    "C108_complete_refuted"
   ],
   "note": "C108_default_search; C108_complete_refuted shows that it misses channels on cycles."
  },
  {
   "property": "C109",
   "status": "proved",
   "theorems": [
    "C109_deadlock"
   ],
   "note": "C109_deadlock, for both searches; deadlocks detected by the simulated loop as modelled in Sim.v, component by component."
  },
  {
   "property": "C110",
   "status": "proved",
   "theorems": [
    "C110_period",
    "C110_answers",
    "C110_default_refuted"
   ],
   "note": "C110_period and C110_answers with SYMB_EXEC_CORRECTED, when the second execution has given its answer (it does: C111_answers); C110_default_refuted for the default search."
  },
  {
   "property": "C111",
   "status": "proved",
   "theorems": [
    "C111_answers",
    "C111_sound_evaluation",
    "C111_true_frontier",
    "C111_default_refuted"
   ],
   "note": "C111_answers, C111_sound_evaluation, C111_true_frontier for the exploration of Dse.v with the execution of StorDep.v as its evaluation (buffers bounded by the execution, not by feedback channels); C111_default_refuted without SYMB_EXEC_CORRECTED.  That the exploration ends is C60."
  },
  {
   "property": "C112",
   "status": "proved",
   "theorems": [
    "C112_finite_buffers"
   ],
   "note": "C112_finite_buffers: no connectivity is asked; tasks without channels have one phase."
  },
  {
   "property": "C113",
   "status": "proved",
   "theorems": [
    "C113_complete_exploration"
   ],
   "note": "C113_complete_exploration: end to end, from compute_asap_throughput to the answers; the throughputs are exact rationals (doubles in the code), tasks on no cycle have integer durations (C70)."
  },
  {
   "property": "C114",
   "status": "proved",
   "theorems": [
    "C114_critical_channels_to_blame"
   ],
   "note": "C114_critical_channels_to_blame: compute_Kperiodic_throughput_and_cycles is the loop of compute_Kperiodic_throughput (KIter.v); the solver answers exactly on the last event graph."
  },
  {
   "property": "C115",
   "status": "proved",
   "theorems": [
    "C115_sound_evaluation",
    "C115_evaluates",
    "C115_true_frontier"
   ],
   "note": "C115_sound_evaluation, C115_true_frontier; C115_evaluates discharges the assumption on the evaluation for every exact solver (one exists, try_all_exact) and tasks that take time. Throughputs are exact rationals (doubles in the code)."
  },
  {
   "property": "C116",
   "status": "proved",
   "theorems": [
    "C116_complete_exploration"
   ],
   "note": "C116_complete_exploration: the target is what K-Iter answers on the graph itself."
  },
  {
   "property": "C117",
   "status": "proved",
   "theorems": [
    "C117_ends_for_any_target"
   ],
   "note": "C117_ends_for_any_target: for every exact solver and tasks that take time. Throughputs are exact rationals (doubles in the code)."
  },
  {
   "property": "C118",
   "status": "proved",
   "theorems": [
    "C118_modes_agree"
   ],
   "note": "C118_modes_agree, from C113 and C116. same_start says that both searches start from the same room and step for every channel. Answers of throughput zero are not compared: the patch of the first answer depends on the mode."
  },
  {
   "property": "C119",
   "status": "partial",
   "theorems": [
    "C119_throughput_reached_partial",
    "C119_engines_agree_refuted",
    "C119_throughput_reached_refuted"
   ],
   "note": "C119_throughput_reached_partial covers reentrant tasks of one phase that the iteration leaves at periodicity 1. The full statement is false: C119_throughput_reached_refuted (an unfolded reentrant task: the announced throughput is twice that of any schedule) and C119_engines_agree_refuted (self-timed execution never overlaps a task with itself)."
  },
  {
   "property": "C120",
   "status": "proved",
   "theorems": [
    "C120_counts_kept",
    "C120_shape",
    "C120_succeeds",
    "C120_no_route_refuted"
   ],
   "note": "For routed graphs (each channel between two tasks has a route or is marked virtual). Without that C120_no_route_refuted: the channel is rebuilt with production rate 1."
  },
  {
   "property": "C121",
   "status": "proved",
   "theorems": [
    "C121_schedules_delayed",
    "C121_never_faster"
   ],
   "note": "C121_schedules_delayed for every valid schedule; C121_never_faster for K-Iter with an exact solver on both graphs."
  },
  {
   "property": "C122",
   "status": "proved",
   "theorems": [
    "C122_live_iff"
   ],
   "note": "Both directions, for every balanced repetition vector."
  },
  {
   "property": "C123",
   "status": "proved",
   "theorems": [
    "C123_accepts_valid",
    "C123_exact",
    "C123_two_starters_refuted",
    "C123_overlap_refuted",
    "C123_phases_refuted",
    "C123_defined_refuted"
   ],
   "note": "C123_accepts_valid and C123_exact under the stated hypotheses. Each hypothesis is needed: C123_two_starters_refuted (two tasks at time 0: an invalid schedule is accepted), C123_overlap_refuted (overlapping executions accepted), C123_phases_refuted (a valid schedule of a two-phase task is refused), C123_defined_refuted (one-task graphs and task identifiers beyond getMaxEdgeId: undefined behaviour)."
  },
  {
   "property": "C124",
   "status": "partial",
   "theorems": [
    "C124_shortest_partial",
    "C124_unreachable_refuted",
    "C124_mesh_partial",
    "C124_last_core_refuted",
    "C124_least_contended_refuted"
   ],
   "note": "C124_shortest_partial for networks whose counts cover every link, C124_mesh_partial for every generated mesh with the counts the tool keeps, except from the last core. Missing because false: C124_last_core_refuted (from the last core the search reads past the counts, on every mesh), C124_unreachable_refuted (an unreachable destination reads prev[-1]). C124_least_contended_refuted: the tie-break does not give the least contended path."
  },
  {
   "property": "C125",
   "status": "partial",
   "theorems": [
    "C125_found_partial",
    "C125_none_partial",
    "C125_mesh_refuted",
    "C125_least_contended_refuted"
   ],
   "note": "C125_found_partial and C125_none_partial when the counts cover every link. C125_mesh_refuted: with the counts the tool keeps, on every mesh without overused links, between any two cores, the search reads past the counts. C125_least_contended_refuted: not the least contended path, as its comment says."
  },
  {
   "property": "C126",
   "status": "partial",
   "theorems": [
    "C126_all_simple_paths",
    "C126_square_mesh_partial",
    "C126_least_contended",
    "C126_mesh_least_contended_partial",
    "C126_rectangle_refuted"
   ],
   "note": "C126_all_simple_paths, C126_least_contended for all networks, C126_square_mesh_partial and C126_mesh_least_contended_partial for all square meshes (from any core but the last for getPath). C126_rectangle_refuted: on other meshes the length is computed with sqrt(V/2) as side, so connected cores get no path and longer paths are kept."
  },
  {
   "property": "C127",
   "status": "proved",
   "theorems": [
    "C127_route",
    "C127_mesh",
    "C127_link_ids",
    "C127_same_core_refuted",
    "C127_clear_refuted"
   ],
   "note": "C127_route, C127_mesh, C127_link_ids (the identifiers are those of the mesh). C127_same_core_refuted: two tasks on one core make the function read past an empty path (distinct cores is a precondition). C127_clear_refuted: clear() keeps the existing counts."
  },
  {
   "property": "C128",
   "status": "partial",
   "theorems": [
    "C128_built",
    "C128_order",
    "C128_events",
    "C128_feasible_partial",
    "C128_times_partial",
    "C128_times_refuted",
    "C128_deadlock_refuted"
   ],
   "note": "C128_built (always built), C128_order (executions in order, for any numbers per period). With one execution per period: C128_feasible (a period is accepted exactly when a valid evenly spaced schedule has it) and C128_times (the times are valid after delaying each task by two of its executions; exact for equal weights). Missing because false: C128_times_refuted (satisfying times take absent tokens) and C128_deadlock_refuted (with two executions per period the constraints of a live ring cannot be satisfied at all): line 231 adds the shift that should be subtracted."
  },
  {
   "property": "C129",
   "status": "proved",
   "theorems": [
    "C129_algorithm_parameters",
    "C129_parts_unique",
    "C129_generator_parameters"
   ],
   "note": "C129_algorithm_parameters, C129_generator_parameters; C129_parts_unique shows the parts of the line they speak of are determined."
  },
  {
   "property": "C130",
   "status": "proved",
   "theorems": [
    "C130_help",
    "C130_in_order",
    "C130_graphs",
    "C130_registry",
    "C130_unsupported_refuted",
    "C130_unknown_refuted"
   ],
   "note": "C130_help, C130_in_order, C130_graphs, C130_registry. C130_unsupported_refuted: two generators, or a file and a generator, are announced as unsupported but the program goes on and ends with 0. C130_unknown_refuted: an unknown algorithm is reported only after those before it have run."
  },
  {
   "property": "C131",
   "status": "partial",
   "theorems": [
    "C131_ends",
    "C131_one_task_per_core",
    "C131_every_task",
    "C131_no_waste_partial",
    "C131_parallel_refuted"
   ],
   "note": "C131_ends, C131_one_task_per_core, C131_every_task hold without condition on the channels. A core per task and no more: C131_no_waste_partial without parallel channels; false otherwise, C131_parallel_refuted: the target of parallel channels is placed once per channel, until the cores run out, on any network."
  },
  {
   "property": "C132",
   "status": "proved",
   "theorems": [
    "C132_routes",
    "C132_only_channels"
   ],
   "note": "C132_routes, C132_only_channels."
  },
  {
   "property": "C133",
   "status": "partial",
   "theorems": [
    "C133_defined",
    "C133_first_and_alone",
    "C133_least_cost",
    "C133_cost_unique",
    "C133_two_sources_refuted",
    "C133_cycle_refuted"
   ],
   "note": "C133_first_and_alone, C133_least_cost (square networks), C133_cost_unique. Always possible is false: C133_defined says exactly when a step is defined; C133_two_sources_refuted, C133_cycle_refuted: an application with two source tasks feeding a third, or with a cycle of two tasks, reads past the end of the counts on every network. A later task without placed neighbours goes to the last free core (C133_first_and_alone)."
  },
  {
   "property": "C134",
   "status": "proved",
   "theorems": [
    "C134_first_executions",
    "C134_each_once",
    "C134_ends"
   ],
   "note": "C134_first_executions, C134_each_once, C134_ends (both directions, and no end on a deadlock)."
  },
  {
   "property": "C135",
   "status": "partial",
   "theorems": [
    "C135_preparation_partial",
    "C135_preparation_refuted",
    "C135_no_cycle_partial",
    "C135_kept",
    "C135_every_task_placed",
    "C135_out_of_range_refuted",
    "C135_self_loop_refuted",
    "C135_only_cycles_refuted"
   ],
   "note": "C135_no_cycle_partial, C135_kept and C135_every_task_placed hold with a vector that has an entry for every task and no channel from a task to itself outside the marked tasks. The program's own vector is one entry short: C135_out_of_range_refuted, on every graph. Only such channels: false, C135_only_cycles_refuted. A task with a channel to itself: never placed, C135_self_loop_refuted. C135_preparation_partial and C135_preparation_refuted: the same of the whole preparation, from the search for cycles on."
  },
  {
   "property": "C136",
   "status": "proved",
   "theorems": [
    "C136_cycles",
    "C136_marks",
    "C136_self_loop_refuted"
   ],
   "note": "C136_cycles and C136_marks, with 'cycle' read as: through a task that is on a cycle with another task. A task with a channel to itself on no longer cycle is missed: C136_self_loop_refuted."
  },
  {
   "property": "C137",
   "status": "partial",
   "theorems": [
    "C137_written",
    "C137_alone_refuted",
    "C137_whole_partial",
    "C137_out_of_range_refuted",
    "C137_room"
   ],
   "note": "C137_written (what is written is right and no check fails), C137_room (the default network is large enough), C137_whole_partial (the whole, with a vector in removeCycleEdges that has an entry for every task, without channels from a task to itself; the placement may still be undefined, see C133). False of the program as it is: C137_out_of_range_refuted (undefined on every such graph); C137_alone_refuted (a task without channels is refused)."
  },
  {
   "property": "C138",
   "status": "partial",
   "theorems": [
    "C138_reached",
    "C138_acyclic",
    "C138_every_task_refuted"
   ],
   "note": "C138_reached says exactly which tasks are reached; C138_acyclic: all, without cycles. False in general: C138_every_task_refuted. The search for cycles does not depend on it (C136)."
  },
  {
   "property": "C139",
   "status": "proved",
   "theorems": [
    "C139_parts",
    "C139_same_event_refuted"
   ],
   "note": "C139_parts. The events must be distinct, as those of the graphs made by the analyses are: C139_same_event_refuted."
  },
  {
   "property": "C140",
   "status": "proved",
   "theorems": [
    "C140_circuits",
    "C140_period"
   ],
   "note": ""
  },
  {
   "property": "C141",
   "status": "partial",
   "theorems": [
    "C141_bags",
    "C141_once",
    "C141_together_partial",
    "C141_defined",
    "C141_together_refuted"
   ],
   "note": "The last part is false (C141_together_refuted): a crossing that joins two groups is lost. C141_together_partial has it for crossings that bring in a link not used before."
  },
  {
   "property": "C142",
   "status": "proved",
   "theorems": [
    "C142_joined",
    "C142_accepted",
    "C142_phases_refuted"
   ],
   "note": "A task or target of several phases is refused in the middle of the change: C142_phases_refuted."
  },
  {
   "property": "C143",
   "status": "partial",
   "theorems": [
    "C143_balance",
    "C143_same_rates_partial",
    "C143_rates_refuted",
    "C143_tokens_refuted"
   ],
   "note": "C143_balance says what the balance becomes; it is the same when each output takes as many tokens as it gives (C143_same_rates_partial). Otherwise rates and initial tokens are lost: C143_rates_refuted, C143_tokens_refuted."
  },
  {
   "property": "C144",
   "status": "proved",
   "theorems": [
    "C144_removed",
    "C144_read",
    "C144_accepted",
    "C144_atomic_refuted"
   ],
   "note": "For graphs whose identifiers are distinct (C10) and lists without an empty name. A failure half way leaves the tasks listed earlier removed: C144_atomic_refuted."
  },
  {
   "property": "C145",
   "status": "proved",
   "theorems": [
    "C145_cleared",
    "C145_accepted"
   ],
   "note": "For graphs whose identifiers are distinct (C10) and lists without an empty name."
  },
  {
   "property": "C146",
   "status": "proved",
   "theorems": [
    "C146_generated",
    "C146_asked",
    "C146_usable",
    "C146_numbers"
   ],
   "note": "The clamping of options that do not fit in an int is not modelled."
  },
  {
   "property": "C147",
   "status": "proved",
   "theorems": [
    "C147_inner",
    "C147_edges",
    "C147_update",
    "C147_update_refuted"
   ],
   "note": "The claim records what the code does: C147_update_refuted shows that an update with two knee points is undefined behaviour. Overflow of token counts is not modelled."
  },
  {
   "property": "C148",
   "status": "proved",
   "theorems": [
    "C148_bounds"
   ],
   "note": "Stated for handlings that return; C149 says when they do not."
  },
  {
   "property": "C149",
   "status": "proved",
   "theorems": [
    "C149_feasible_start_refuted",
    "C149_returned",
    "C149_two_free_refuted",
    "C149_second_refuted"
   ],
   "note": "The claim records what the code does, which is not what is expected of an exploration. The evaluation is any pair of functions of the distribution. Overflow is not modelled."
  },
  {
   "property": "C150",
   "status": "proved",
   "theorems": [
    "C150_order",
    "C150_exclusive"
   ],
   "note": "The model starts from the packets and slot lines that are read; overflow is not modelled. The distance is getDistance, for which see C52."
  },
  {
   "property": "C151",
   "status": "proved",
   "theorems": [
    "C151_prompt"
   ],
   "note": "An example shows a packet that starts one cycle late."
  },
  {
   "property": "C152",
   "status": "proved",
   "theorems": [
    "C152_ends",
    "C152_unslotted",
    "C152_deadlock"
   ],
   "note": "Ending is stated as the existence of enough fuel."
  },
  {
   "property": "C153",
   "status": "proved",
   "theorems": [
    "C153_report",
    "C153_zero_refuted"
   ],
   "note": "The final division, in float, is not modelled."
  },
  {
   "property": "C154",
   "status": "proved",
   "theorems": [
    "C154_messages",
    "C154_tokens"
   ],
   "note": "The slots and routes of the channels are parameters (generateConditions is not modelled); the construction of the schedule from the start times is not modelled either."
  },
  {
   "property": "C155",
   "status": "proved",
   "theorems": [
    "C155_no_deadlock_reported",
    "C155_dead_refuted",
    "C155_late_refuted"
   ],
   "note": "Two theorems say what does not hold (refuted), one that the answer for deadlock is unreachable."
  },
  {
   "property": "C156",
   "status": "proved",
   "theorems": [
    "C156_firings",
    "C156_nonnegative",
    "C156_eager"
   ],
   "note": "As C154. A task without input channel may start a firing in every round, and is excluded."
  },
  {
   "property": "C157",
   "status": "proved",
   "theorems": [
    "C157_text",
    "C157_in_round",
    "C157_title_refuted",
    "C157_xml",
    "C157_round_refuted"
   ],
   "note": "The parsing of the files is not modelled: the model starts from the fields of the lines, or the rules. An attribute missing in a rule, an empty route and a short line are undefined behaviour."
  },
  {
   "property": "C158",
   "status": "proved",
   "theorems": [
    "C158_measured",
    "C158_rate_refuted"
   ],
   "note": "C158_measured is what holds, C158_rate_refuted what does not. The quotient, in floating point, is not modelled."
  },
  {
   "property": "C159",
   "status": "proved",
   "theorems": [
    "C159_rows_are_schedules",
    "C159_period_optimal",
    "C159_single_phase_schedule",
    "C159_start_order_refuted",
    "C159_task_period_refuted",
    "C159_schedule_valid_refuted"
   ],
   "note": "C159_rows_are_schedules, C159_period_optimal and C159_single_phase_schedule are what holds, C159_start_order_refuted, C159_task_period_refuted and C159_schedule_valid_refuted what does not. The solver is an oracle assumed exact for the program at hand; doubles are rationals."
  },
  {
   "property": "C160",
   "status": "proved",
   "theorems": [
    "C160_rows_are_even_schedules",
    "C160_period_optimal",
    "C160_not_faster"
   ],
   "note": "Same solver oracle as C159."
  },
  {
   "property": "C161",
   "status": "proved",
   "theorems": [
    "C161_offsets",
    "C161_latest",
    "C161_no_room",
    "C161_no_overlap"
   ],
   "note": "Times are rationals. The production line of a channel is specified as the code takes it (line_time in WiggersSpec.v); that it bounds the tokens produced is not claimed."
  },
  {
   "property": "C162",
   "status": "proved",
   "theorems": [
    "C162_command",
    "C162_offset_needed",
    "C162_period_needed",
    "C162_long_task_refuted"
   ],
   "note": "C162_command, C162_offset_needed and C162_period_needed are what holds, C162_long_task_refuted what does not. The MINMAX offsets are a parameter here; C163 gives them. The solver is an oracle, as in C92."
  },
  {
   "property": "C163",
   "status": "proved",
   "theorems": [
    "C163_program",
    "C163_offsets",
    "C163_no_answer",
    "C163_command",
    "C163_self_loop_refuted"
   ],
   "note": "C163_program, C163_offsets, C163_command and C163_no_answer are what holds, C163_self_loop_refuted what does not. The solver is an oracle: it is assumed exact, and numbers are rationals. The lines are those of the code (MinMaxSpec.v: out_late to in_early); that they bound the tokens of the channels is not claimed."
  }
 ]
}