# Formal model of bbodin/kiter in Rocq (Coq 8.16.1)

Source: `/repo` at the pinned commit, read as text only.  All paths below are
relative to `/repo/src/libkiter`.

## Layout

For each area `X` there are several files in `rocq/theories`:

* `X.v` – the executable model (definitions only, each citing file and lines);
* `XSpec.v` – the small specification the statements of the properties are written
  in, independent of the model's helpers (where the area needs one);
* `XProofs.v` and further `X*.v` – lemmas;
* `XProps.v` – the property theorems `Cnn_…`, each with `Print Assumptions` beneath it
  and `Example`s showing that a concrete non-trivial case meets the hypotheses.

`Base.v` has the outcomes of a call (`Ok`, `Rejected`: a tripped assertion or thrown
failure, `Undefined`: undefined behaviour, `Timeout`: a loop that did not end within
the given number of steps).  `Graph.v` has dataflow graphs as the analyses see them,
`ScheduleSpec.v` what a valid schedule of a graph is (infinite, quantified over all
start times), used by all throughput theorems.

## Modelling conventions

* `long int` (`TOKEN_UNIT`, `EXEC_COUNT`, `PHASE_INDEX`, `ARRAY_INDEX`) → `Z`
  (unbounded) unless the property is about wrap-around; then the wrap is
  explicit.  C++ `/` and `%` are `Z.quot` and `Z.rem` (truncating).
* `long double` (`TIME_UNIT`) → `Q`.  Floating-point rounding is *not*
  modelled; theorems are about exact arithmetic.
* Loops → structural recursion or explicit fuel; running out of fuel, undefined
  behaviour and a tripped `VERBOSE_ASSERT` / `VERBOSE_FAILURE` are distinct outcomes,
  never a normal-looking value.  Theorems either say that fuel suffices or are about
  every amount of it.
* `std::map`/`std::set` → association lists in key order or functions; iteration
  order that depends on heap addresses (`std::set<Edge>` orders by property pointer,
  `models/Dataflow.h` `operator<`) → an arbitrary list order, quantified over.
* The cycle ratio solver is an oracle (a function quantified in the theorem, with a
  hypothesis on its answer) in C31–C35 and C55; `Howard.v` models the solver itself
  and C72 discharges the hypothesis.  `rand()` is an arbitrary sequence.
* Verbose output, timing and logging are left out.

## What is modelled

| Model | Code |
|-------|------|
| `Fraction.v` | `commons/commons.h`: class FRACTION |
| `Commons.v` | `commons/commons.h`, `commons/commons.cpp`: arithmetic, string and colour helpers |
| `Builder.v` | `models/Dataflow.h`: the graph building API (identifiers, names, phases, rates, totals, caches, read-only mark) |
| `Graph.v` | `models/Dataflow.h`: the accessors the analyses use |
| `RepVec.v` | `models/repetition_vector.cpp` |
| `Normal.v` | `algorithms/normalization.cpp` |
| `Scc.v` | `algorithms/scc.cpp`, the cycle test of `algorithms/analysis/cycle_detection.cpp` |
| `EventGraph.v` | `models/EventGraph.h`: constraints, Bellman-Ford start times |
| `KPeriodic.v` | `algorithms/throughput/kperiodic.cpp`: both constraint generators, self-loops, event graph, returned schedule |
| `KIter.v` | `kperiodic.cpp`: `sameset`, K-vector update, event graph update, K-Iter's loop |
| `Howard.v` | `commons/howard_cycle_ratio.hpp`, `models/EventGraph.h` 450-525 |
| `SPeriodic.v` | `algorithms/throughput/csdf_strictly_periodic.cpp`, `algorithms/scheduling/CSDF_SPeriodicScheduling.cpp` |
| `Periodic.v` | `algorithms/scheduling/CSDF_KPeriodicScheduling.cpp` |
| `Merge.v` | `algorithms/transformation/merging.cpp` 36-41, 289-684 (not `basic_mergeCSDFFromSchedule`) |
| `Sdf3.v` | `printers/SDF3Wrapper.cpp` 30-871 (XML trees; not libxml2, nor the plain string attributes) |
| `Degroote.v` | `algorithms/throughput/degroote.cpp` 18-182, `models/EventGraph.h` 203-234 (exact rationals for doubles) |
| `Sizing.v` | `algorithms/buffersizing/periodic.cpp` 21-395, `periodic_fixed.cpp` 56-111, 198-292, 753-1065, `buffersizing.h` 12-33 (exact rationals for doubles; column and row names assumed distinct; GLPK is an oracle) |
| `FreqDse.v` | `algorithms/dse/periodic.cpp` 88-212 (exact rationals for doubles; log files not modelled) |
| `SymbExec.v` | `algorithms/symbolic_execution.cpp`, `algorithms/software_noc.cpp` 119-172 (the mapping of tasks to cores in the printed lines is not modelled) |
| `RandomGen.v` | generators/RandomGenerator.cpp: `generate`, `set_initial_marking`, default configurations; the random engine is an arbitrary stream of integers; `max_duration` an integer; of the scheduling only throughput and critical channels are kept |
| `Backpressure.v` | algorithms/buffersizing/backpressure.cpp 15-378; exact rationals; division by zero is undefined; the linear solver is a parameter; plots not modelled |
| `Cycles.v` | algorithms/analysis/cycle_detection.cpp 48-202 (enumeration of cycles) on the model of Kosaraju; recursion and rounds bounded by fuel, shown enough; the process-wide list is an argument |
| `MonoOpt.v` | algorithms/dse/base_monotonic_optimisation.cpp 31-79, 205-362 and dse.cpp 247-270; the evaluation is a pair of functions (throughput, critical edges); unbounded integers except the constant INT_MAX; counters and logs left out |
| `StorDep.v` | algorithms/dse/abstract_dep_graph.cpp; throughput/actor.cpp 236-275 (computeCausalDeps); throughput/symbolic_execution.cpp 175-200, 303-407, 432-557; recursions and loops fuelled; channels named by position; the component is the graph itself (splitting into components is C70) |
| `Communications.v` | ModelNoCConflictFreeCommunication: every channel becomes a chain of link and router tasks. Names, mappings and edge types left out (K-Iter adds the same constraint for bufferless edges); the routes and the virtual flag are parameters |
| `SchedCheck.v` | Scheduling::is_valid_schedule. Times are exact rationals (doubles in the code); repetition counts and getMaxEdgeId are given; printing left out; every task has a schedule entry |
| `NocPath.v` | NoCGraph (findPathDijkstra, findLowContentionPath, path enumeration, getPath, clear), createNoCGraph, setmap and dijkstra_findPaths of GraphMapper.h. Vertices and costs are naturals (no int overflow); INT_MAX and -1 are `None`; the visited array of the enumeration is the list of vertices of the current path; sqrt is the integer square root |
| `Expansion.v` | ExpansionGraph.cpp (all three kinds of edges, generate). Doubles are exact quotients; algorithm1 and algorithm2, which only print, are left out; the repetition vector computation is only its assertion, which normalize repeats |
| `Cmdline.v` | kiter/main.cpp and commons/KiterRegistry.h. getopt is the list of options it returns; reader, generators and algorithms are any functions; -v and messages are left out |
| `Mapper.v` | mapping/bufferless_utils/GraphMapper.h. The comparison of the priority queue is any choice of a queued task; float costs are exact; identifiers are those addVertex gives |
| `TaskOrder.v` | mapping/BufferlessNoCMapAndRoute.cpp 48-191. SDF graphs, as the code says; identifiers are those addVertex and addEdge give |
| `CycleFinder.v` | mapping/bufferless_utils/SCCFinder.h, and the two calls of addStartActor and the preparation in BufferlessNoCMapAndRoute.cpp 194-256. Recursion depth becomes fuel |
| `MapFinish.v` | mapping/BufferlessNoCMapAndRoute.cpp 112-123, 283-296, 332-402 and the composition of the parts. `sqrt` on doubles is exact; the check of the period (313-321) is left out |
| `EventScc.v` | models/EventGraph.cpp 14-84 and the part of models/EventGraph.h it uses (addEvent, addEventConstraint, getConstraint, setSCC). Debug assertions are left out |
| `Overlaps.v` | algorithms/scheduling/BufferlessNoCScheduling.cpp 109-186. The merging that follows (190-261) is not modelled |
| `SingleOutput.v` | algorithms/transformation/singleOutput.cpp 11-78, as calls of `Builder.v`. The type of a task is left out |
| `RemoveTask.v` | algorithms/transformation/bug_explorer.cpp 47-72 (remove_task) and remove_reentrancy.cpp 12-35, as calls of `Builder.v` |
| `Lte.v` | generators/LTEGeneator.cpp 11-72, as calls of `Builder.v` |
| `Knees.v` | algorithms/dse/buffer_sizing.cpp 514-614: knee points |
| `MonoKnee.v` | algorithms/dse/buffer_sizing.cpp 943-1011, algorithms/dse/monotonic_optimisation.cpp 30-270: the option M_OPT |
| `Tdma.v` | algorithms/scheduling/TDMAScheduler.h 41-96, TDMAScheduler.cpp 125-301: slot table, event loop and report of the TDMA schedule (not the parsing of the files) |
| `So4.v` | algorithms/throughput/actor.cpp 208-234, state.cpp 176-199, so4_noc.cpp 105-266: execution with TDMA slots (not generateConditions, nor the schedule built at the end) |
| `So4Rules.v` | algorithms/throughput/so4_noc.cpp 21-103: slots of the channels from what is read of a text or XML file |
| `KPeriodicLp.v` | algorithms/scheduling/CSDF_KPeriodicScheduling_LP.cpp: linear programs of K-periodic and strictly periodic schedules, collection of the results |
| `Wiggers.v` | algorithms/buffersizing/periodic_fixed.cpp: generateWiggersOffsets, checkOffsets, compute_fixed_offset_buffer_sizing (the MINMAX offsets are a parameter) |
| `MinMax.v` | algorithms/buffersizing/periodic_fixed.cpp: generateMinMaxOffsets and its linear program |
| `Sim.v` | `algorithms/throughput/actor.cpp`, `state.cpp`, `symbolic_execution.cpp`: actors, states, steps, the loop |
| `SimScc.v` | `symbolic_execution.cpp`: `compute_asap_throughput` over strongly connected components |
| `Storage.v` | `algorithms/dse/buffer_sizing.cpp`, `.h`: storage distributions and their sets, frontiers, cones, knees, steps, minimum sizes |
| `Dse.v` | `algorithms/dse/dse.cpp`: feedback channels, loading a distribution, the exploration loop |
| `GroupList.v` | `commons/GroupList.h` |
| `Noc.v` | `models/NoC.cpp`, `NoC.h`, `algorithms/mapping/{xyRouting,randomRouting,randomMapping,moduloMapping,createNoC}.cpp`, TDMA distances |

What is *not* modelled. Whole files: `scheduling/bufferLessAwareScheduling.cpp`,
`transformation/dynamicNoC.cpp`, `mapping/generateTDMA.cpp` (it has no defined behaviour),
`experiments/expansion_experiment.cpp`, `printers/stdout.cpp`, `commons/verbose.cpp`, and the solver
wrappers `lp/glpsol*.cpp`: linear programs are modelled as data, and the solver is an oracle. Of
`BufferlessNoCScheduling.cpp` only `get_overlaps` is modelled. In every other file, what is
modelled is what the comments in the model cite, and nothing else; the rows above name what is left
out. The XML library, floating-point rounding (times are exact rationals unless a row says
otherwise), memory exhaustion and threads are not modelled.


## Plan and result per property

Every property in the list is expressible in a model; none is declared not applicable. `_partial` marks a theorem that proves its property under restrictions the code really needs; `_refuted` marks a proved counterexample to the unrestricted property, on the model of the code. The status of each claim and what a partial one misses is also in MANIFEST.json.

### C01 Fraction arithmetic is exact and stays in lowest terms

* Model: `Fraction.v`: constructor, `*=`, `/=` on pairs of integers
* Proof: gcd algebra; value compared by cross-multiplication
* Theorems (`FractionProps.v`): `C01_make_fraction_exact_lowest`, `C01_mul_exact_lowest`, `C01_mul_int_exact_lowest`, `C01_div_exact_lowest`, `C01_div_int_exact_lowest`, `C01_div_by_zero_rejected`
* Status: proved. 

### C02 Fraction comparison is the exact rational order

* Model: `Fraction.v`: the continued-fraction comparison loop with fuel
* Proof: Euclid induction, fuel sufficiency, equality with the order of `Q`
* Theorems (`FractionProps.v`): `C02_lt_exact`, `C02_Qltb_is_Qlt`, `C02_eq_exact`, `C02_gt_exact`, `C02_le_exact`, `C02_lt_int_exact`, `C02_eq_int_exact`, `C02_gt_int_exact`, `C02_nonpositive_denominator_rejected`, `C02_total_on_constructible_refuted`
* Status: proved. Exact for positive denominators; the claim for every constructible fraction (zero denominator allowed by the constructor) is refuted by C02_total_on_constructible_refuted.

### C03 modulo returns the canonical residue

* Model: `Commons.v`
* Proof: division lemmas
* Theorems (`CommonsProps.v`): `C03_modulo_canonical`, `C03_modulo_zero_undefined`
* Status: proved. 

### C04 Rounding helpers return the nearest multiple on the promised side

* Model: `Commons.v`
* Proof: division lemmas, characterised as greatest/least multiple
* Theorems (`CommonsProps.v`): `C04_floor`, `C04_ceil`, `C04_floord`, `C04_ceild`
* Status: proved. 

### C05 Extended Euclid solves the Diophantine equation

* Model: `Commons.v`: the loop of `extended_euclide`
* Proof: loop invariant
* Theorems (`CommonsProps.v`): `C05_extended_euclide_solves_partial`, `C05_extended_euclide_rejects`, `C05_extended_euclide_up_to_sign_partial`, `C05_negative_coefficients_refuted`
* Status: partial. Holds for non-negative a or up to sign; refuted for negative coefficients (C05_negative_coefficients_refuted).

### C06 fibo returns Fibonacci numbers

* Model: `Commons.v`: `fibo`
* Proof: induction; refuted, actual value proved
* Theorems (`CommonsProps.v`): `C06_fibo_is_fibonacci_refuted`, `C06_fibo_value_partial`
* Status: partial. The claim is false of the code: fibo(n) is refuted as the Fibonacci function and its actual value is characterised.

### C07 SDF3 rate lists expand run lengths faithfully

* Model: `Commons.v`: strings
* Proof: induction on the list of items
* Theorems (`CommonsProps.v`): `C07_split_sdf3_list`
* Status: proved. 

### C08 latexize escapes every underscore exactly once

* Model: `Commons.v`
* Proof: induction on the string
* Theorems (`CommonsProps.v`): `C08_latexize_escapes`
* Status: proved. 

### C09 RGB hex formatting round-trips

* Model: `Commons.v`
* Proof: finite case analysis over all 256 values, lifted to triples
* Theorems (`CommonsProps.v`): `C09_rgb_hex_roundtrip`
* Status: proved. 

### C10 Vertex and edge identifiers stay unique and resolvable

* Model: `Builder.v`: state machine of the builder API, every call an operation with accepted and rejected outcomes
* Proof: invariant by induction over all histories of operations
* Theorems (`BuilderProps.v`): `C10_ids_unique`, `C10_ids_after_rejections`, `C10_rejected_additions_refuted`
* Status: proved. For accepted calls other than setVertexIdUnsafe; after rejected calls non-zero identifiers stay unique but zero ones do not (C10_rejected_additions_refuted).

### C11 Names stay unique

* Model: `Builder.v`: state machine of the builder API, every call an operation with accepted and rejected outcomes
* Proof: invariant by induction over all histories of operations
* Theorems (`BuilderProps.v`): `C11_names_unique`, `C11_named_is_found`
* Status: proved. 

### C12 Automatically chosen identifiers are fresh

* Model: `Builder.v`: state machine of the builder API, every call an operation with accepted and rejected outcomes
* Proof: invariant by induction over all histories of operations
* Theorems (`BuilderProps.v`): `C12_fresh_vertex`, `C12_fresh_edge`, `C12_max_ids`, `C12_chosen_vertex_id`
* Status: proved. 

### C13 Removing a vertex leaves no dangling edge

* Model: `Builder.v`: state machine of the builder API, every call an operation with accepted and rejected outcomes
* Proof: invariant by induction over all histories of operations
* Theorems (`BuilderProps.v`): `C13_remove_vertex`, `C13_no_dangling`
* Status: proved. 

### C14 Channel totals equal the sum of the phase rates

* Model: `Builder.v` with an explicit 32-bit accumulator
* Proof: induction on the rates; refuted in general
* Theorems (`BuilderProps.v`): `C14_totals_partial`, `C14_totals_wrap`, `C14_large_sum_refuted`
* Status: partial. Holds for non-negative rates summing below 2^31; in general the total is the sum with 32-bit wrap-around (C14_totals_wrap), so the unrestricted claim is refuted (C14_large_sum_refuted).

### C15 Phase counts stay coherent between tasks and channels

* Model: `Builder.v`: state machine of the builder API, every call an operation with accepted and rejected outcomes
* Proof: invariant by induction over all histories of operations
* Theorems (`BuilderProps.v`): `C15_phases_coherent`, `C15_contradiction_refused`, `C15_fit_for_analysis`, `C15_phases_call_refuted`, `C15_rejected_rates_refuted`
* Status: proved. For histories of accepted calls using setPhasesQuantity only before rates; refuted without these restrictions (C15_phases_call_refuted, C15_rejected_rates_refuted).

### C16 A frozen graph cannot be structurally modified

* Model: `Builder.v`: state machine of the builder API, every call an operation with accepted and rejected outcomes
* Proof: invariant by induction over all histories of operations
* Theorems (`BuilderProps.v`): `C16_frozen`, `C16_no_stale_result`, `C16_writable_has_no_result`, `C16_analysis_freezes`, `C16_counter_moves_refuted`
* Status: proved. Vertices, edges and attributes are untouched; the automatic number moves on a refused addVertex() (C16_counter_moves_refuted).

### C17 Cached channel gcd is the gcd of the current rates

* Model: `Builder.v`: the gcd cache
* Proof: invariant over histories; refuted when rates change
* Theorems (`BuilderProps.v`): `C17_cached_gcd_partial`, `C17_first_query_partial`, `C17_stale_refuted`, `C17_reused_identifier_refuted`
* Status: partial. Holds when rates and identifiers are fixed once queried and on first queries; in general the cache is stale (C17_stale_refuted, C17_reused_identifier_refuted).

### C18 Repetition vector satisfies the balance equations

* Model: `RepVec.v`: the recursive propagation
* Proof: depth-first invariant: visited tasks satisfy their balance equations
* Theorems (`RepVecProps.v`): `C18_balance`, `C18_fit_for_scheduling`
* Status: proved. For graphs with non-negative rates, one rate per phase and at least one task; also composed with the scheduling theorems (C18_fit_for_scheduling).

### C19 Repetition vector is minimal

* Model: `RepVec.v`
* Proof: gcd algebra; uniqueness of solutions up to a factor on a component
* Theorems (`RepVecProps.v`): `C19_cycle_counts_coprime`, `C19_least_solution`, `C19_disconnected_refuted`
* Status: proved. Every multi-phase task must have a channel; the extension to disconnected graphs is refuted (C19_disconnected_refuted).

### C20 Consistency check is exact

* Model: `RepVec.v`
* Proof: soundness and completeness of propagation
* Theorems (`RepVecProps.v`): `C20_consistency_exact`, `C20_empty_graph_refuted`
* Status: proved. For graphs with at least one task; the empty graph is undefined behaviour (C20_empty_graph_refuted).

### C21 Repetition vector on tasks without channels

* Model: `RepVec.v`
* Proof: counterexample
* Theorems (`RepVecProps.v`): `C21_isolated_task_refuted`
* Status: partial. The claim is false of the code: C21_isolated_task_refuted; tasks with a channel satisfy it (C18_balance).

### C22 Normalisation makes both sides of every channel equal to its task weight

* Model: `Normal.v`
* Proof: invariant of the propagation of weights; completeness from consistency
* Theorems (`NormalProps.v`): `C22_normalised`, `C22_succeeds_iff_consistent`, `C22_connected_graphs`, `C22_same_amount_everywhere`, `C22_lone_task_refuted`
* Status: proved. normalize on graphs as built by the API: soundness of the stored weights, success exactly on consistent graphs (connected graphs included), equal normalised flow. A graph with channels and a task without any is rejected although consistent (refuted case). Overflow is not modelled.

### C23 SCC decomposition is exactly mutual reachability

* Model: `Scc.v`: Kosaraju's two passes
* Proof: finishing-time invariants of the two depth-first passes
* Theorems (`SccProps.v`): `C23_components`, `C23_topological_order`
* Status: proved. For unique identifiers and channels inside the graph, which builder histories guarantee (C10, C13).

### C24 Cycle test

* Model: `Scc.v`
* Proof: from C23
* Theorems (`SccProps.v`): `C24_cycles_partial`, `C24_no_self_loop_partial`, `C24_self_loop_refuted`, `C24_self_limit`
* Status: partial. The claim is false for channels from a task to itself (C24_self_loop_refuted); exact for cycles through two tasks and for graphs without such channels.

### C25 Computed start times satisfy every event constraint

* Model: `EventGraph.v`: Bellman-Ford
* Proof: rounds invariant; longest simple path argument
* Theorems (`KPeriodicProps.v`): `C25_start_times_satisfy`, `C25_start_times_complete`, `C25_generated_graphs_closed`
* Status: proved. 

### C26 Infeasible periods are reported

* Model: `EventGraph.v`
* Proof: counterexample; exact meaning of the flag
* Theorems (`KPeriodicProps.v`): `C26_infeasible_period_refuted`, `C26_flag_meaning_partial`
* Status: partial. The claim is false of the code: C26_infeasible_period_refuted exhibits an infeasible period reported as success; C26_flag_meaning_partial says what the flag does mean.

### C27 K-periodic constraints are sound

* Model: `KPeriodic.v`
* Proof: token counting on infinite schedules: constraints on one period imply all firings
* Theorems (`KPeriodicProps.v`): `C27_generation_total`, `C27_constraints_sound`, `C27_constraints_sound_reentrant`, `C27_returned_schedule_valid`, `C27_reentrant_multiphase_refuted`, `C27_initial_rates_refuted`
* Status: proved. For positive reentrancy factors (or single-phase tasks at K=1) and initial rates that are multiples of the channel's fine gcd; outside that domain the claim is refuted by C27_reentrant_multiphase_refuted and C27_initial_rates_refuted.

### C28 K-periodic constraints are necessary

* Model: `KPeriodic.v`
* Proof: converse; circuits via C25
* Theorems (`KPeriodicProps.v`): `C28_constraints_necessary`, `C28_feasible_iff_circuits_fit`
* Status: proved. For graphs without initial phases and positive reentrancy factors.

### C29 Optimised and reference constraint code agree

* Model: `KPeriodic.v`: both generators
* Proof: arithmetic equality of loop bounds, then of the lists
* Theorems (`KPeriodicProps.v`): `C29_bounds_agree`, `C29_variants_agree`
* Status: proved. 

### C30 Task executions are serialised

* Model: `KPeriodic.v`: self-loops
* Proof: telescoping along the chain of phases
* Theorems (`KPeriodicProps.v`): `C30_selfloop_serialises`, `C30_selfloop_exact`, `C30_long_initial_phase_refuted`
* Status: proved. Needs the initial phases not longer than charged; refuted otherwise by C30_long_initial_phase_refuted.

### C31 K-vector update keeps every K a divisor of the repetition factor

* Model: `KIter.v`
* Proof: divisibility
* Theorems (`KIterProps.v`): `C31_update_vector_invariants`, `C31_update_vector_order`
* Status: proved. For repetition vectors that are multiples of the phase counts.

### C32 K-Iter terminates

* Model: `KIter.v`: the loop
* Proof: well-founded measure on the distance of K to the repetition vector
* Theorems (`KIterProps.v`): `C32_kiter_terminates`
* Status: proved. For graphs without initial phases; the solver is an arbitrary function.

### C33 Refining K never loses throughput

* Model: `KPeriodic.v`
* Proof: a K-periodic schedule is one for every multiple of K
* Theorems (`KPeriodicProps.v`): `C33_refining_K_monotone`
* Status: proved. 

### C34 sameset compares critical circuits as sets

* Model: `KIter.v`
* Proof: set reasoning
* Theorems (`KIterProps.v`): `C34_sameset_exact`
* Status: proved. 

### C35 Incremental event graph update equals regeneration

* Model: `KIter.v`
* Proof: membership characterisation of both graphs
* Theorems (`KIterProps.v`): `C35_update_is_regeneration`
* Status: proved. For graphs without initial phases (with them the code looks up missing events).

### C36 Self-timed execution conserves tokens

* Model: `Sim.v`
* Proof: invariant over all reachable states of the simulation
* Theorems (`SimProps.v`): `C36_token_conservation_partial`, `C36_self_loop_refuted`, `C36_initial_phases_refuted`
* Status: partial. Every reachable state of graphs without initial phases whose self-channels produce in each phase what they consume; refuted outside (C36_self_loop_refuted, C36_initial_phases_refuted).

### C37 Bounded simulation respects buffer capacities

* Model: `Sim.v`
* Proof: invariant over all reachable states of the simulation
* Theorems (`SimProps.v`): `C37_capacity_respected_partial`, `C37_small_capacity_refuted`
* Status: partial. Same graphs as C36, capacities at least the initial tokens; a smaller capacity starts with negative space (C37_small_capacity_refuted).

### C38 Simulated time advances correctly

* Model: `Sim.v`
* Proof: invariant over all reachable states of the simulation
* Theorems (`SimProps.v`): `C38_time_advance_partial`, `C38_long_duration_refuted`
* Status: partial. Durations below LONG_MAX; at LONG_MAX a false deadlock is reported (C38_long_duration_refuted).

### C39 A recurrent state proves periodicity

* Model: `Sim.v`
* Proof: determinism: equal states have equal futures
* Theorems (`SimProps.v`): `C39_recurrence_is_periodic_partial`, `C39_start_is_unique`
* Status: partial. Same graphs as C36, connected, every task with an input channel (or any channel when bounded).

### C40 A storage distribution's size is the sum of its channel quantities

* Model: `Storage.v`
* Proof: invariant over operation lists
* Theorems (`StorageProps.v`): `C40_size_is_sum`, `C40_last_value`
* Status: proved. Histories of the three setters from any distribution whose size is right; keys stay in order, size is the sum, last write wins.

### C41 Set of storage distributions is indexed by size without duplicates

* Model: `Storage.v`
* Proof: invariant over operation lists
* Theorems (`StorageProps.v`): `C41_history`, `C41_next`, `C41_membership`
* Status: proved. All histories over a fixed channel list; asking an empty set is undefined (C41_next).

### C42 Infeasible frontier is a maximal antichain covering all infeasible points

* Model: `Storage.v`
* Proof: order theory of componentwise comparison, invariants of the scans
* Theorems (`StorageProps.v`): `C42_infeasible_frontier`
* Status: proved. All sequences of points.

### C43 Feasible frontier contains only minimal points

* Model: `Storage.v`
* Proof: order theory of componentwise comparison, invariants of the scans
* Theorems (`StorageProps.v`): `C43_feasible_query_partial`, `C43_minimality_refuted`
* Status: partial. Closure of the query is proved; the minimality half is false of the code (C43_minimality_refuted).

### C44 Knee points never hide a candidate

* Model: `Storage.v`
* Proof: order theory of componentwise comparison, invariants of the scans
* Theorems (`StorageProps.v`): `C44_knees`, `C44_cut`
* Status: proved. Knee coverage and the cut are proved for all sequences of infeasible points.

### C45 Minimal common distribution is the componentwise minimum

* Model: `Storage.v`
* Proof: order theory of componentwise comparison, invariants of the scans
* Theorems (`StorageProps.v`): `C45_minimum`
* Status: proved. Greatest lower bound and size of the sum.

### C46 Back-cone query is defined and exact

* Model: `Storage.v`
* Proof: order theory of componentwise comparison, invariants of the scans
* Theorems (`StorageProps.v`): `C46_fore_cone`, `C46_back_cone_partial`, `C46_back_cone_refuted`
* Status: partial. Fore cone exact; back cone reads an uninitialised variable on an empty iteration (C46_back_cone_refuted), exact otherwise.

### C47 Buffer step size divides every rate

* Model: `Storage.v`: `findMinimumStepSz`
* Proof: gcd algebra over infinite token sequences
* Theorems (`ChannelProps.v`): `C47_step_is_gcd`, `C47_defined`, `C47_multiples_partial`, `C47_nothing_between_steps_partial`, `C47_initial_phases_refuted`
* Status: partial. gcd for every channel; the token counts claim holds without initial phases and is refuted with them (C47_initial_phases_refuted).

### C48 Feedback channel models a bounded buffer

* Model: `Dse.v`: feedback channels
* Proof: simulation between schedules with capacities and schedules of the extended graph
* Theorems (`DseProps.v`): `C48_feedback_is_capacity_partial`, `C48_loads`, `C48_initial_phases_refuted`
* Status: partial. Exact for channels without initial phases; refuted with them (C48_initial_phases_refuted): the feedback channel drops them.

### C49 Mesh NoC has unique identifiers and is symmetric

* Model: `Noc.v`: mesh generation with 32-bit identifiers
* Proof: arithmetic on identifiers
* Theorems (`NocProps.v`): `C49_generation_partial`, `C49_symmetric`, `C49_core_has_one_router`, `C49_lookup`, `C49_overflow_refuted`
* Status: partial. Exact while the largest link identifier fits in an int; beyond, generation overflows (C49_overflow_refuted), first at 153 x 153.

### C50 XY routing delivers along a shortest mesh path

* Model: `Noc.v`
* Proof: route induction, Manhattan metric
* Theorems (`NocProps.v`): `C50_xy_route`, `C50_shortest`
* Status: proved. Every pair of cores; also shown shortest among all chains of links.

### C51 Modulo mapping places tasks on cores

* Model: `Noc.v`
* Proof: counterexample
* Theorems (`NocProps.v`): `C51_modulo_mapping_refuted`, `C51_route_undefined_refuted`
* Status: partial. Refuted: the node is always a router, and xyRouting is then undefined.

### C52 TDMA distance is the mesh distance

* Model: `Noc.v`
* Proof: arithmetic; counterexample on rectangles
* Theorems (`NocProps.v`): `C52_square_partial`, `C52_rectangle_refuted`
* Status: partial. Exact on square meshes; refuted when rows and columns differ.

### C53 GroupList maintains connected components

* Model: `GroupList.v`
* Proof: refinement to the equivalence closure of the links
* Theorems (`GroupListProps.v`): `C53_groups_are_components`
* Status: proved. All call sequences; getall returns exactly one non-empty set per connected component.

### C54 GroupList keeps every value

* Model: `GroupList.v`
* Proof: refinement; counterexample
* Theorems (`GroupListProps.v`): `C54_values_partial`, `C54_joining_value_refuted`
* Status: partial. The claim is false of the code: C54_joining_value_refuted; the exact content of each set is C54_values_partial.

### C55 K-Iter reports the maximum throughput

* Model: `KIter.v` with the solver as an oracle
* Proof: saturated critical circuit, C27, C28 and C33; lower bound for every non-Zeno schedule
* Theorems (`KIterProps.v`, `RepVecProps.v`): `C55_kiter_optimal`, `C55_kiter_end_to_end`
* Status: proved. Relative to an exact answer of MinCycleRatio on the final event graph (hypothesis exact_answer), graphs without initial phases, positive reentrancy factors.

### C56 Minimum channel size is the least that keeps the channel running

* Model: `Storage.v`: `findMinimumChannelSz`
* Proof: two-actor channel executions characterised by Bezout
* Theorems (`ChannelProps.v`): `C56_least_size_partial`, `C56_phases_refuted`
* Status: partial. Exact for one rate on each side and sizes below INT_MAX; refuted with several phases (C56_phases_refuted).

### C57 The feasible set keeps exactly the minimal feasible points

* Model: `Storage.v`
* Proof: order theory of componentwise comparison, invariants of the scans
* Theorems (`StorageProps.v`): `C57_feasible_set`
* Status: proved. All sequences of points.

### C58 Updating the infeasible set is defined

* Model: `Storage.v`
* Proof: order theory of componentwise comparison, invariants of the scans
* Theorems (`StorageProps.v`): `C58_infeasible_set_refuted`
* Status: partial. Refuted: as soon as the set holds two points, the uninitialised local of isInBackCone is read.

### C59 The exploration returns the Pareto frontier

* Model: `Dse.v`: exploration with throughput and critical channels as oracles
* Proof: invariant: every undominated point is found or below a point still to be checked
* Theorems (`DseProps.v`): `C59_pareto_frontier`
* Status: proved. Relative to a sound evaluation (the record sound_evaluation); positive target.

### C60 The exploration ends with a result

* Model: `Dse.v`
* Proof: well-founded measure on the grid below the target
* Theorems (`DseProps.v`): `C60_terminates_partial`, `C60_ends_for_any_target`, `C60_zero_target_refuted`, `C60_skipped_target_refuted`
* Status: partial. C60_terminates_partial: ends when some grid distribution attains the target and none exceeds it. C60_ends_for_any_target: ends for every positive target when channels with much room are never critical (met by K-Iter: C117). Findings: with a zero target the result is undefined (C60_zero_target_refuted); with a target strictly between two attainable throughputs and a channel that stays critical the search never ends (C60_skipped_target_refuted).

### C61 Random mapping places every task on a core

* Model: `Noc.v` with `rand` arbitrary
* Proof: induction over tasks
* Theorems (`NocProps.v`): `C61_random_mapping`, `C61_every_core`
* Status: proved. All meshes that can be built, all non-negative draws.

### C62 Random routes are shortest paths and end

* Model: `Noc.v` with `rand` arbitrary
* Proof: distance decreases
* Theorems (`NocProps.v`): `C62_random_route`
* Status: proved. All sequences of draws.

### C63 The created mesh has a core for every task

* Model: `Noc.v`
* Proof: arithmetic
* Theorems (`NocProps.v`): `C63_mesh_side`
* Status: proved. sqrt and ceil taken exactly.

### C64 The TDMA wait is the time to the next slot

* Model: `Noc.v`
* Proof: modular arithmetic
* Theorems (`NocProps.v`): `C64_event_cycle`
* Status: proved. All slots.

### C65 Self-timed execution is as soon as possible

* Model: `Sim.v`
* Proof: by induction over steps, no valid schedule starts an execution earlier than the simulation
* Theorems (`SimProps.v`): `C65_earliest`
* Status: proved. Same graphs as C36, positive durations.

### C66 A deadlock reported by the simulation is real

* Model: `Sim.v`
* Proof: C65 plus progress
* Theorems (`SimProps.v`): `C66_deadlock_is_real_partial`, `C66_self_loop_refuted`
* Status: partial. Same graphs as C36; refuted for an uneven self-channel (C66_self_loop_refuted) and for LONG_MAX durations (C38_long_duration_refuted).

### C67 The simulated throughput is achieved and maximal

* Model: `Sim.v`
* Proof: recurrent state gives a periodic schedule; C65 bounds every other
* Theorems (`SimProps.v`): `C67_throughput_is_maximal_partial`
* Status: partial. Same graphs as C36, connected, positive durations.

### C68 Symbolic execution and K-Iter agree

* Model: `Sim.v`, `KIter.v`
* Proof: both equal the optimum
* Theorems (`SimProps.v`): `C68_agrees_with_kiter`, `C68_deadlock_agrees_with_kiter`
* Status: proved. The maximum cycle ratio solver of K-Iter is an oracle answering exactly.

### C69 The simulation ends

* Model: `Sim.v`
* Proof: bounded reachable state space, pigeonhole
* Theorems (`SimProps.v`): `C69_simulation_ends_partial`, `C69_decides_liveness_partial`, `C69_lone_task_refuted`, `C69_huge_factors_refuted`
* Status: partial. Proved for graphs as in C36 that are strongly connected, or connected with capacities holding the initial tokens, with a repetition factor below INT_MAX; a task without channels never ends (C69_lone_task_refuted) and with all factors from INT_MAX on the reference task is undefined (C69_huge_factors_refuted).

### C70 The simulated throughput of any graph is achieved and maximal

* Model: `SimScc.v`
* Proof: composition of component schedules, slowed to the slowest; C23, C67, C69
* Theorems (`SimSccProps.v`): `C70_throughput_of_any_graph_partial`, `C70_always_answers_partial`, `C70_steps_do_not_matter`, `C70_agrees_with_kiter_partial`, `C70_component_graphs`, `C70_cut_duration_refuted`
* Status: partial. Graphs without initial phases, with even self-channels and positive durations; tasks on no cycle must have integer durations, because getVertexTotalDuration accumulates in an int (C70_cut_duration_refuted).

### C71 The cycle ratio solver returns the best ratio over all circuits

* Model: `Howard.v`: policy construction, evaluation, improvement, the loop
* Proof: invariant tying policy, incoming lists and distances; a settled policy is a potential certifying every circuit; simple circuits lie under the starting bound
* Theorems (`HowardProps.v`): `C71_always_answers`, `C71_value_is_a_circuit`, `C71_minimum_bounds_circuits_partial`, `C71_maximum_bounds_circuits_partial`, `C71_minimum_exact_partial`, `C71_maximum_exact_partial`, `C71_iteration_limit_refuted`, `C71_no_circuit_refuted`, `C71_single_event_refuted`
* Status: partial. Exact rationals instead of long double. The unconditional statement is false: the loop gives up after 100 rounds and returns a wrong value (C71_iteration_limit_refuted); a graph without circuit (maximum) and a single event (minimum) are answered wrongly (C71_no_circuit_refuted, C71_single_event_refuted).

### C72 K-Iter running on its own cycle ratio solver is optimal

* Model: `Howard.v`, `KIter.v`, `KPeriodic.v`
* Proof: C71 on event graphs, C55
* Theorems (`HowardProps.v`): `C72_kiter_with_its_solver_partial`, `C72_solver_answers`
* Status: partial. Needs the run of the solver on the last event graph to settle within its 100 rounds and exact comparisons; see C71.

### C73 The strictly periodic constraints are exactly those of a strictly periodic schedule

* Model: `SPeriodic.v`: event graph with one event per task, bags of phases of equal duration, weights
* Proof: the weight of a channel is the greatest useful threshold over phase pairs; token counts at all instants reduce to those thresholds (`ScheduleCore`)
* Theorems (`SPeriodicProps.v`): `C73_constraints_exact`, `C73_feasible_iff`, `C73_schedule_valid`, `C73_critical_channel_refuted`
* Status: proved. The constraint and schedule statements hold in full; the critical channels reported with the schedule are wrong (C73_critical_channel_refuted).

### C74 The strictly periodic throughput is that of the best strictly periodic schedule

* Model: `SPeriodic.v`, `Howard.v`
* Proof: C73 and C71: circuits fit iff the period is at least the inverse of the minimum ratio
* Theorems (`SPeriodicProps.v`): `C74_always_answers`, `C74_best_with_exact_solver`, `C74_best_partial`, `C74_schedule_best_partial`, `C74_live_graph_refuted`, `C74_single_task_refuted`
* Status: partial. Proved for any exact solver; for the solver of the code it needs a settled run and exact comparisons. Unconditionally false: a live graph without strictly periodic schedule gets a negative period and a lone task period 0 (C74_live_graph_refuted, C74_single_task_refuted).

### C75 The approximation with the longest phase is safe

* Model: `SPeriodic.v` with use_max_duration
* Proof: the approximate graph equals the exact one of the slowed graph; later ends only remove tokens
* Theorems (`SPeriodicProps.v`): `C75_approximation_sound`, `C75_never_above_partial`
* Status: partial. Soundness of the constraints is proved in full; the comparison of the two throughputs needs settled runs of the solver.

### C76 Strictly periodic scheduling never beats K-Iter

* Model: `SPeriodic.v`, `KIter.v`
* Proof: an evenly spaced schedule keeps pace; C55
* Theorems (`SPeriodicProps.v`): `C76_never_beats_kiter`
* Status: proved. K-Iter with an exact solver; see C72 for its own.

### C77 The K-periodic schedule handed out is valid and the best there is

* Model: `Periodic.v`: K-Iter followed by period2Scheduling
* Proof: C55 for the period, C28 for the schedule denoted by the start times
* Theorems (`PeriodicProps.v`): `C77_kperiodic_schedule_best`
* Status: proved. For any solver that is exact on the last event graph; see C72 for the solver of the code.

### C78 1-periodic scheduling is valid and the best of its kind

* Model: `Periodic.v`: event graph for K = 1, solver, start times
* Proof: circuits of the event graph fit a period iff a K-periodic schedule of that period exists; the exact ratio is the least such period
* Theorems (`PeriodicProps.v`): `C78_one_periodic_schedule_best`, `C78_periodic_throughput_best`, `C78_no_periodic_schedule_refuted`
* Status: proved. For any solver that is exact on the event graph. Nothing checks the sign of the period: a live graph without 1-periodic schedule gets a negative period (C78_no_periodic_schedule_refuted).

### C79 N-periodic throughput is the maximum and equals that of K-Iter

* Model: `Periodic.v`, `KIter.v`
* Proof: for K = N every circuit bounds every schedule, so the exact ratio is optimal; two optimal values agree
* Theorems (`PeriodicProps.v`): `C79_nperiodic_is_optimal`, `C79_kiter_equals_nperiodic`
* Status: proved. For any solver that is exact on the two event graphs.

### C80 Every schedule of a merged graph is a schedule of the original

* Model: `Merge.v`: the execution walk, the counts per round, the new task, the new channels
* Proof: the order walked is a linear order of all executions of the merged tasks that respects the schedule; renaming executions along it turns channels of the new graph into the old ones; channels between merged tasks hold because the order does
* Theorems (`MergeProps.v`): `C80_merged_schedule_is_valid`
* Status: proved. The phase-pattern condition is explicit; single-phase tasks always meet it.

### C81 A merged graph is well formed, consistent, and never promises more throughput

* Model: `Merge.v`
* Proof: rates per round and repetition counts computed from the walk; C80 carries each schedule of the merged graph back, with its pace
* Theorems (`MergeProps.v`): `C81_merge_consistent_never_faster`, `C81_cut_patterns_overestimate_refuted`
* Status: proved. The phase-pattern condition is explicit and needed: C81_cut_patterns_overestimate_refuted merges tasks of a two-phase graph and gets a graph with a schedule faster than any of the original.

### C82 Merging terminates and succeeds

* Model: `Merge.v`, `Periodic.v`: mergeCSDFFromKperiodicSchedule
* Proof: downward closed sets of executions are determined by their counts, so the walk of a periodic schedule repeats after one period
* Theorems (`MergeProps.v`): `C82_merge_succeeds`, `C82_kperiodic_merge_succeeds`
* Status: proved. The fuel of the model stands for the unbounded search loop: enough of it always exists. The second theorem is the full transformation, with any solver that is exact on the last event graph.

### C83 Merging keeps a live graph live

* Model: `Merge.v`
* Proof: the schedule itself, read along the walk, is a schedule of the merged graph when a round is a whole iteration; two counterexamples by computation and a deadlock argument
* Theorems (`MergeProps.v`): `C83_merge_keeps_schedule_partial`, `C83_merge_deadlocks_refuted`
* Status: partial. Proved when the repetition counts of the merged tasks are coprime. In general false: C83_merge_deadlocks_refuted merges two tasks of a live graph and gets a graph without any schedule.

### C84 Writing a graph to an SDF3 file and reading it back preserves it

* Model: `Sdf3.v`: reader, writer on XML trees, number texts
* Proof: number texts are inverted digit by digit; the state of the graph after each actor, channel, properties and port element of a written document is given in closed form
* Theorems (`Sdf3Props.v`): `C84_round_trip`, `C84_exact_round_trip`, `C84_factor_refuted`, `C84_self_loop_refuted`
* Status: proved. Fractional times depend on the two number conversions of the stream library, which are oracles; the theorem asks that they invert each other on the times of the graph. Findings: a factor above one is read back as one (C84_factor_refuted), a one-token unit self-loop is no longer a channel (C84_self_loop_refuted).

### C85 Whatever SDF3 document is accepted, the graph is sound and says what the document says

* Model: `Sdf3.v`: reader, on `Builder.v`
* Proof: each element only makes accepted calls; invariants for the four stages (tasks, channels without rates, times, ports)
* Theorems (`Sdf3Props.v`): `C85_accepted_documents`, `C85_loop_meaning`, `C85_missing_time_refuted`, `C85_shared_port_refuted`
* Status: proved. The rates of the channels are covered by C84 and C86; C85_shared_port_refuted and C85_missing_time_refuted show documents that are accepted with rates or durations missing, or that index an empty vector.

### C86 The rate notation is expanded as documented

* Model: `Sdf3.v`, `Commons.v`
* Proof: structure of the text: lines at the separators are the items
* Theorems (`Sdf3Props.v`): `C86_rate_notation`, `C86_empty_rate_refuted`
* Status: proved. An empty rate or an empty item is undefined behaviour (C86_empty_rate_refuted).

### C87 The expansion-based (deGroote) throughput is the true maximal throughput

* Model: `Degroote.v`: generate_LCG and the two entry points
* Proof: end times of a one-iteration schedule solve the constraints exactly when the schedule is valid; the circuit theorem of C30 with the two weights exchanged; optimality as in C79
* Theorems (`DegrooteProps.v`): `C87_constraints_exact`, `C87_throughput_exact`, `C87_equals_kiter`, `C87_own_solver_partial`, `C87_answers_on_live_graphs`, `C87_no_tokens_deadlock`, `C87_initial_phases_refuted`
* Status: partial. Proved with an exact maximum-ratio solver (oracle) and with the modelled Howard solver at tolerance 0 whenever it settles; missing: that it settles within its 1000 passes. Finding: graphs with initial phases are accepted and the initial phases ignored (C87_initial_phases_refuted).

### C88 Cleaning the expanded graph does not change the throughput

* Model: `Degroote.v`: FullConnectionned
* Proof: an event with arcs on one side only is on no circuit; each pass that counts something removes an arc
* Theorems (`DegrooteProps.v`): `C88_cleaning`, `C88_clean_throughput_exact`
* Status: proved. The throughput part is for an exact maximum-ratio solver (oracle), as in C87.

### C89 Buffer sizes found for a period are enough for that period

* Model: `Sizing.v`: the linear program of periodic.cpp, row by row, and the reading back of its solution
* Proof: a start row is the K-periodic channel constraint, a pair of feedback rows the constraint of the reverse channel; rounding is absorbed by the step of the lattice
* Theorems (`SizingProps.v`): `C89_sizes_are_enough`
* Status: proved. The solver is an oracle, quantified in the theorem; it is only assumed to return a point of the problem it was given.

### C90 The integer program finds the smallest storage over all 1-periodic schedules

* Model: `Sizing.v`
* Proof: every schedule within capacities gives a point of the program with that objective; capacities exist for every periodic schedule
* Theorems (`SizingProps.v`): `C90_ilp_is_minimal`, `C90_relaxation_never_below`, `C90_solvable_iff_schedulable`
* Status: proved. The solver is an oracle, quantified in the theorem; its point is assumed optimal for the problem it was given.

### C91 A sizing result marked valid is a size that works; the command picks a period by itself

* Model: `Sizing.v`: the result constructors and the choice of the period
* Proof: case analysis, and a graph whose tasks are longer than the period
* Theorems (`SizingProps.v`): `C91_impossible_period_refuted`, `C91_no_solution_is_zero`, `C91_no_default_period`, `C91_given_period`
* Status: partial. False of the code as stated: C91_impossible_period_refuted, C91_no_solution_is_zero and C91_no_default_period; what holds is C91_given_period.

### C92 Sizing with fixed start offsets is sound, minimal for these offsets, and reports impossibility

* Model: `Sizing.v`: the fixed-offset program, burst and average offsets
* Proof: as C89 and C90 with one start per task; sums of durations by induction on the phases
* Theorems (`SizingProps.v`): `C92_fixed_offsets`, `C92_burst_offsets`, `C92_average_offsets`
* Status: proved. Solver as an oracle. The Wiggers and MINMAX offsets are in C161 and C163.

### C93 Strictly periodic buffer sizing is exact

* Model: `Sizing.v`: strictly periodic offsets
* Proof: an evenly spaced schedule is a 1-periodic one following the even offsets
* Theorems (`SizingProps.v`): `C93_strictly_periodic_sizing`, `C93_long_task_refuted`
* Status: partial. Proved when one-phase tasks fit their own period; refuted without this condition (C93_long_task_refuted).

### C94 The exploration of throughputs by bisection ends

* Model: `FreqDse.v`: the queue of ranges and the map of sizes
* Proof: a range of depth n costs 2^(15-n)-1 turns; depth 14 is below the granularity
* Theorems (`FreqDseProps.v`): `C94_exploration_ends`, `C94_zero_throughput_refuted`
* Status: partial. Proved for every positive throughput; refuted for a throughput of 0 (C94_zero_throughput_refuted; FreqDseProps.stuck is a graph with that throughput).

### C95 The points printed by the bisection are real, not dominated, and cover every throughput

* Model: `FreqDse.v`
* Proof: invariant: every frequency is in a waiting range or between two explored ones that are close or of equal size
* Theorems (`FreqDseProps.v`): `C95_points_are_real`, `C95_front_is_complete`
* Status: proved. Exact rationals for doubles.

### C96 The periodic exploration prints the least storage of every throughput it shows, and misses none by more than its granularity

* Model: `FreqDse.v` with `Sizing.v`
* Proof: C90 and C95; a schedule stretched in time fits the same capacities
* Theorems (`FreqDseProps.v`): `C96_periodic_exploration`
* Status: proved. Solver as an oracle, assumed exact on the problems it is given; exact rationals for doubles.

### C97 Symbolic execution answers exactly on the live graphs

* Model: `SymbExec.v`: the passes over the tasks, the counters of tokens and executions
* Proof: the executed sequence is playable; in a synchronous graph any playable prefix of an iteration can be continued, so each pass executes something
* Theorems (`SymbExecProps.v`): `C97_answers_only_if_live`, `C97_synchronous_exact`, `C97_deadlock_never_reported`, `C97_inconsistent_rejected`, `C97_cyclostatic_refuted`
* Status: partial. Exact on single-phase graphs; on every graph an answer implies liveness; refuted for cyclo-static graphs (C97_cyclostatic_refuted).

### C98 The program order contains each task once and respects the channels without enough initial tokens

* Model: `SymbExec.v`: the same loop noting first executions
* Proof: invariant: noted tasks are those executed, a task noted after its feeders
* Theorems (`SymbExecProps.v`): `C98_program_order`, `C98_program_order_exists`
* Status: proved. Proved of every answer, and an answer exists on live single-phase graphs.

### C99 The packet trace is a numbered acyclic trace with one line per execution and per packet

* Model: `SymbExec.v`: the same loop printing lines
* Proof: invariant on the printed lines, the last line of each channel and of each task
* Theorems (`SymbExecProps.v`): `C99_trace_is_ordered`, `C99_trace_is_complete`, `C99_trace_content`, `C99_packets_follow_production`, `C99_duration_refuted`
* Status: partial. Order, numbering and completeness proved; printed durations refuted (C99_duration_refuted).

### C100 In the packet trace an execution waits for the packets it consumes

* Model: `SymbExec.v`: the loop that cuts a production into packets
* Proof: the loop ends only if the size divides the production; each task executed once
* Theorems (`SymbExecProps.v`): `C100_packet_size`, `C100_unlimited_size_refuted`, `C100_waits_for_packets_partial`, `C100_second_packet_only_refuted`
* Status: partial. Waiting proved when each task executes once; refuted in general and for the default size (C100_second_packet_only_refuted, C100_unlimited_size_refuted).

### C101 Throughput analyses agree on which graphs deadlock

* Model: `KIter.v`, `Sim.v`, `SymbExec.v`
* Proof: a schedule gives an order by taking the earliest remaining execution; an order repeated for ever, one slot per execution, gives a schedule; then C55, C66, C67 and C97
* Theorems (`LiveProps.v`): `C101_schedulable_iff_live`, `C101_kiter_decides_liveness`, `C101_simulation_decides_liveness`, `C101_symbolic_agrees_with_kiter`
* Status: proved. K-Iter with an exact cycle ratio solver, as in C55; the simulation on connected graphs, as in C66.

### C102 Random graphs respect the configuration and are consistent

* Model: `RandomGen.v`: the generator, the draws being an arbitrary stream
* Proof: invariants of the loops on tasks and channels; rates proportional to task weights solve the balance equations; then C18 and C19
* Theorems (`RandomGenProps.v`): `C102_fits`, `C102_consistent`, `C102_answers`, `C102_empty_refuted`, `C102_undefined_refuted`, `C102_lonely_task_rejected`, `C102_redraw_unbounded_refuted`
* Status: proved. C102_undefined_refuted, C102_empty_refuted and C102_lonely_task_rejected show the configurations that give no graph, C102_redraw_unbounded_refuted a stream for which the generator runs for ever.

### C103 The initial marking of random graphs ends and makes them live

* Model: `RandomGen.v`: the marking loop around K-Iter
* Proof: a critical circuit with no throughput has weight at most 0, one of its simple sub-circuits goes through the chosen channel, its other arcs weigh at least -1 each, so the channel holds few tokens; the tokens missing to that bound decrease; liveness by C101
* Theorems (`RandomGenProps.v`): `C103_marking`, `C103_generated_live`, `C103_exact_solver_exists`
* Status: proved. The cycle ratio solver is any exact one (C103_exact_solver_exists gives one; C71 and C72 say when Howard's is).  C103_generated_live is for configurations of synchronous graphs with sequential tasks, as generate_random_sdf sets by default.

### C104 Back-pressure buffer sizes let the graph run at the requested period

* Model: `Backpressure.v`: lines, retiming, linear program, sizes; the solver is a parameter
* Proof: evenly spaced moves on two lines of the same slope stay apart when the lines do; the rows give the data, the sizes the room; counterexamples by computation and a dependency cycle
* Theorems (`BackpressureProps.v`): `C104_answers`, `C104_sizes_work_partial`, `C104_computed`, `C104_rates_refuted`, `C104_phases_refuted`, `C104_period_refuted`, `C104_lines`
* Status: partial. C104_sizes_work_partial for synchronous graphs with slow or empty channels; the rest is false of the code: C104_phases_refuted, C104_rates_refuted, C104_period_refuted.  C104_computed gives the starts and sizes exactly on synchronous graphs.

### C105 Cycle enumeration lists every elementary cycle exactly once

* Model: `Cycles.v`: removal of tasks, subgraphs, components (the model of Kosaraju), blocking sets and maps, the recursive search
* Proof: invariant of the search: a blocked task off the stack cannot complete the stack, and its successors hold it in the map; unblocking terminates and restores it; the outer loop by restriction of the graph to larger identifiers and to a component
* Theorems (`CyclesProps.v`): `C105_cycles`, `C105_all_cycles_partial`, `C105_self_loops_refuted`, `C105_numbering_refuted`, `C105_second_run`
* Status: partial. C105_cycles characterises the list exactly on graphs numbered 1..n; C105_all_cycles_partial: it is all elementary cycles when there are no self-loops; otherwise false of the code: C105_self_loops_refuted, C105_numbering_refuted, C105_second_run.

### C106 Monotonic optimisation loses no small distribution

* Model: `MonoOpt.v`: createPoint, select, the growth of critical buffers, the choice loop, the raised knees, the exploration from them
* Proof: invariant: what the knees reach is what no infeasible point is above (C44); with feedback channels every infeasible point is 0 on the user channels, so each subsumed knee comes back as its own smallest extension and the knees never change; measure on missing storage, then on the best size
* Theorems (`MonoOptProps.v`): `C106_lossless`, `C106_prunes_nothing`, `C106_reached_refuted`, `C106_ends`, `C106_optimum_refuted`
* Status: proved. C106_lossless (all channels are buffers), C106_prunes_nothing and C106_ends (feedback channels); C106_reached_refuted and C106_optimum_refuted show the empty answers.  Termination without feedback channels is not proved; C106_prunes_nothing assumes that the best size found fits an int.

### C107 Storage dependencies, strongly connected search

* Model: `StorDep.v`: the two depth-first searches of computeStorageDependenciesSCC and the choice of the channels
* Proof: Kosaraju: each transposed search gathers the tasks that wait for each other
* Theorems (`StorDepProps.v`): `C107_component_search`
* Status: proved. C107_component_search: ends, exactly the channels on cycles of dependencies, no repetition.

### C108 Storage dependencies, default search

* Model: `StorDep.v`: computeCycles with its deletions
* Proof: invariant: the visited tasks are a chain of predecessors; the first task deleted with dependencies left was on no cycle, or its cycle was marked
* Theorems (`StorDepProps.v`): `C108_default_search`, `C108_complete_refuted`
* Status: proved. C108_default_search; C108_complete_refuted shows that it misses channels on cycles.

### C109 Deadlock blames the right channels

* Model: `StorDep.v`: computeDeadlockStorageDeps
* Proof: every stopped task lacks a token or room; the chain of lacks is finite, hence closes on a listed channel cycle, around which the starts of any schedule would decrease
* Theorems (`StorDepProps.v`): `C109_deadlock`
* Status: proved. C109_deadlock, for both searches; deadlocks detected by the simulated loop as modelled in Sim.v, component by component.

### C110 A slow period blames the right channels

* Model: `StorDep.v`: computePeriodicStorageDeps, computeCausalDeps, the retraced period
* Proof: every start of the settled execution is tight with an end on which it depends; the retrace records all dependencies of a period (recurrence of states); in a component of dependencies nobody leaves, following the ties back, any other schedule takes as long
* Theorems (`StorDepProps.v`): `C110_period`, `C110_answers`, `C110_default_refuted`
* Status: proved. C110_period and C110_answers with SYMB_EXEC_CORRECTED, when the second execution has given its answer (it does: C111_answers); C110_default_refuted for the default search.

### C111 Exploration by self-timed execution finds the true trade-off

* Model: `Dse.v` (exploration) with `StorDep.v` (execution with its retraced period) as evaluation
* Proof: C109 and C110 make the execution a sound evaluation in the sense of C59; the retraced period ends because the settled execution passes the recorded state again; existence of the evaluation functions by constructive choice on the number of ticks
* Theorems (`DseExecProps.v`): `C111_answers`, `C111_sound_evaluation`, `C111_true_frontier`, `C111_default_refuted`
* Status: proved. C111_answers, C111_sound_evaluation, C111_true_frontier for the exploration of Dse.v with the execution of StorDep.v as its evaluation (buffers bounded by the execution, not by feedback channels); C111_default_refuted without SYMB_EXEC_CORRECTED.  That the exploration ends is C60.

### C112 Finite buffers lose no throughput

* Model: schedules of `ScheduleSpec.v` and capacities of `SimSpec.v`
* Proof: execution m of a task is delayed to the latest of the executions m, m-N, m-2N, ... each a whole number of iterations later: still valid by balance, never ahead of the pace, so that the room claimed is bounded
* Theorems (`DseEndsProps.v`): `C112_finite_buffers`
* Status: proved. C112_finite_buffers: no connectivity is asked; tasks without channels have one phase.

### C113 The exploration to the throughput of the graph is complete

* Model: `SimScc.v` for the target, `Dse.v` and `StorDep.v` for the exploration
* Proof: C112 gives a distribution that reaches the target, C70 that none exceeds it; C60 then ends the exploration and C111 says what it found
* Theorems (`DseEndsProps.v`): `C113_complete_exploration`
* Status: proved. C113_complete_exploration: end to end, from compute_asap_throughput to the answers; the throughputs are exact rationals (doubles in the code), tasks on no cycle have integer durations (C70).

### C114 The critical channels K-Iter reports are to blame

* Model: `KIter.v`
* Proof: the bound of a saturated critical circuit only uses the channels of the circuit (`valid_along`), and fewer tokens constrain more
* Theorems (`DseKiterProps.v`): `C114_critical_channels_to_blame`
* Status: proved. C114_critical_channels_to_blame: compute_Kperiodic_throughput_and_cycles is the loop of compute_Kperiodic_throughput (KIter.v); the solver answers exactly on the last event graph.

### C115 The exploration by K-Iter finds the true trade-off

* Model: `KIter.v` on the graph loaded by `Dse.v`
* Proof: C114 gives the sound evaluation C59 asks for; schedules of the loaded graph are the schedules within the capacities
* Theorems (`DseKiterProps.v`): `C115_sound_evaluation`, `C115_evaluates`, `C115_true_frontier`
* Status: proved. C115_sound_evaluation, C115_true_frontier; C115_evaluates discharges the assumption on the evaluation for every exact solver (one exists, try_all_exact) and tasks that take time. Throughputs are exact rationals (doubles in the code).

### C116 The exploration by K-Iter to the throughput of the graph is complete

* Model: `KIter.v`, `Dse.v`
* Proof: C112 gives a distribution that reaches the target, C32 that none exceeds it; C60 then ends the exploration and C115 says what it found
* Theorems (`DseKiterProps.v`): `C116_complete_exploration`
* Status: proved. C116_complete_exploration: the target is what K-Iter answers on the graph itself.

### C117 The exploration by K-Iter ends whatever the target

* Model: `KIter.v`, `Dse.v`
* Proof: a critical channel lies on a simple circuit whose weight is the throughput times its duration, so it holds few tokens; the sizes visited are then finitely many (C60_ends_for_any_target)
* Theorems (`DseKiterProps.v`): `C117_ends_for_any_target`
* Status: proved. C117_ends_for_any_target: for every exact solver and tasks that take time. Throughputs are exact rationals (doubles in the code).

### C118 The two exploration modes agree

* Model: `Dse.v` with `StorDep.v` and with `KIter.v`
* Proof: C113 and C116 characterise both by the schedules within the same capacities; pareto-minimality makes the match exact
* Theorems (`DseAgreeProps.v`): `C118_modes_agree`
* Status: proved. C118_modes_agree, from C113 and C116. same_start says that both searches start from the same room and step for every channel. Answers of throughput zero are not compared: the patch of the first answer depends on the mode.

### C119 The throughput announced by K-Iter is reached when tasks may overlap themselves

* Model: `KPeriodic.v` and `KIter.v` (factor 0 drops the constraint from the last to the first execution), `Sim.v`
* Proof: K-Iter's result fits all circuits, start times exist, mixed_sound makes a schedule of them; the refutation counts the tokens that any schedule can turn round in a given time
* Theorems (`ReentrantProps.v`): `C119_throughput_reached_partial`, `C119_engines_agree_refuted`, `C119_throughput_reached_refuted`
* Status: partial. C119_throughput_reached_partial covers reentrant tasks of one phase that the iteration leaves at periodicity 1. The full statement is false: C119_throughput_reached_refuted (an unfolded reentrant task: the announced throughput is twice that of any schedule) and C119_engines_agree_refuted (self-timed execution never overlaps a task with itself).

### C120 Modelling the network communications keeps the repetition vector

* Model: `Communications.v`
* Proof: induction over the links of a route, then over the channels, with the set of untouched channels as invariant
* Theorems (`CommunicationsProps.v`): `C120_counts_kept`, `C120_shape`, `C120_succeeds`, `C120_no_route_refuted`
* Status: proved. For routed graphs (each channel between two tasks has a route or is marked virtual). Without that C120_no_route_refuted: the channel is rebuilt with production rate 1.

### C121 Modelling the network communications only delays tokens

* Model: `Communications.v`, `KIter.v`
* Proof: token counts along the chain, one link at a time; the optimality of K-Iter (C55) on both graphs
* Theorems (`CommunicationsProps.v`): `C121_schedules_delayed`, `C121_never_faster`
* Status: proved. C121_schedules_delayed for every valid schedule; C121_never_faster for K-Iter with an exact solver on both graphs.

### C122 Modelling the network communications neither adds nor hides a deadlock

* Model: `Communications.v`
* Proof: orders of execution are stretched (each producer followed by its link executions) or restricted to the application tasks
* Theorems (`CommunicationsProps.v`): `C122_live_iff`
* Status: proved. Both directions, for every balanced repetition vector.

### C123 The schedule check accepts the valid schedules and only those

* Model: `SchedCheck.v`
* Proof: loop invariant: executions seen, ended and charged, and the tokens of every channel; the prefix reaches an instant by which every task has made one iteration, then induction over the periods
* Theorems (`SchedCheckProps.v`): `C123_accepts_valid`, `C123_exact`, `C123_two_starters_refuted`, `C123_overlap_refuted`, `C123_phases_refuted`, `C123_defined_refuted`
* Status: proved. C123_accepts_valid and C123_exact under the stated hypotheses. Each hypothesis is needed: C123_two_starters_refuted (two tasks at time 0: an invalid schedule is accepted), C123_overlap_refuted (overlapping executions accepted), C123_phases_refuted (a valid schedule of a two-phase task is refused), C123_defined_refuted (one-task graphs and task identifiers beyond getMaxEdgeId: undefined behaviour).

### C124 The path found between two cores has fewest links

* Model: `NocPath.v`
* Proof: invariant of the search: costs of visited vertices are final and at most those of the others, every link out of a visited vertex is accounted for; the path is read back along decreasing costs
* Theorems (`NocPathProps.v`): `C124_shortest_partial`, `C124_unreachable_refuted`, `C124_mesh_partial`, `C124_last_core_refuted`, `C124_least_contended_refuted`
* Status: partial. C124_shortest_partial for networks whose counts cover every link, C124_mesh_partial for every generated mesh with the counts the tool keeps, except from the last core. Missing because false: C124_last_core_refuted (from the last core the search reads past the counts, on every mesh), C124_unreachable_refuted (an unreachable destination reads prev[-1]). C124_least_contended_refuted: the tie-break does not give the least contended path.

### C125 The search that avoids loaded links respects the hardware limit

* Model: `NocPath.v`
* Proof: same invariant over the links under the limit; on a mesh the last core is always visited, where the read is out of range
* Theorems (`NocPathProps.v`): `C125_found_partial`, `C125_none_partial`, `C125_mesh_refuted`, `C125_least_contended_refuted`
* Status: partial. C125_found_partial and C125_none_partial when the counts cover every link. C125_mesh_refuted: with the counts the tool keeps, on every mesh without overused links, between any two cores, the search reads past the counts. C125_least_contended_refuted: not the least contended path, as its comment says.

### C126 All shortest paths are listed and the least contended is returned

* Model: `NocPath.v`
* Proof: induction on the number of links left; the best path is a fold over the enumeration; lengths on the mesh from C50
* Theorems (`NocPathProps.v`): `C126_all_simple_paths`, `C126_square_mesh_partial`, `C126_least_contended`, `C126_mesh_least_contended_partial`, `C126_rectangle_refuted`
* Status: partial. C126_all_simple_paths, C126_least_contended for all networks, C126_square_mesh_partial and C126_mesh_least_contended_partial for all square meshes (from any core but the last for getPath). C126_rectangle_refuted: on other meshes the length is computed with sqrt(V/2) as side, so connected cores get no path and longer paths are kept.

### C127 Recording a route counts exactly the links between its routers

* Model: `NocPath.v`
* Proof: induction on the path; identifiers are injective; a simple path uses each link once
* Theorems (`NocPathProps.v`): `C127_route`, `C127_mesh`, `C127_link_ids`, `C127_same_core_refuted`, `C127_clear_refuted`
* Status: proved. C127_route, C127_mesh, C127_link_ids (the identifiers are those of the mesh). C127_same_core_refuted: two tasks on one core make the function read past an empty path (distinct cores is a precondition). C127_clear_refuted: clear() keeps the existing counts.

### C128 The expansion graph describes exactly the valid periodic schedules

* Model: `Expansion.v`, over the normalisation of `Normal.v`
* Proof: the tight pairs of executions of ScheduleCore.v scaled by the weights, Bezout for the pair that meets the bound; the constraint differs from the right one by a difference of potentials when there is one execution per period
* Theorems (`ExpansionProps.v`): `C128_built`, `C128_order`, `C128_events`, `C128_feasible_partial`, `C128_times_partial`, `C128_times_refuted`, `C128_deadlock_refuted`
* Status: partial. C128_built (always built), C128_order (executions in order, for any numbers per period). With one execution per period: C128_feasible (a period is accepted exactly when a valid evenly spaced schedule has it) and C128_times (the times are valid after delaying each task by two of its executions; exact for equal weights). Missing because false: C128_times_refuted (satisfying times take absent tokens) and C128_deadlock_refuted (with two executions per period the constraints of a live ring cannot be satisfied at all): line 231 adds the shift that should be subtracted.

### C129 Parameters on the command line reach the algorithms they were given for

* Model: `Cmdline.v`, over any reader, generators and algorithms
* Proof: induction on the options from the right: the pending parameters are those of the last part
* Theorems (`CmdlineProps.v`): `C129_algorithm_parameters`, `C129_parts_unique`, `C129_generator_parameters`
* Status: proved. C129_algorithm_parameters, C129_generator_parameters; C129_parts_unique shows the parts of the line they speak of are determined.

### C130 The command line runs the algorithms asked for, in order, on one graph

* Model: `Cmdline.v`
* Proof: same induction; induction on the algorithms and generators gathered
* Theorems (`CmdlineProps.v`): `C130_help`, `C130_in_order`, `C130_graphs`, `C130_registry`, `C130_unsupported_refuted`, `C130_unknown_refuted`
* Status: proved. C130_help, C130_in_order, C130_graphs, C130_registry. C130_unsupported_refuted: two generators, or a file and a generator, are announced as unsupported but the program goes on and ends with 0. C130_unknown_refuted: an unknown algorithm is reported only after those before it have run.

### C131 The placement gives every task a core of its own

* Model: `Mapper.v`, over any order of the queue
* Proof: invariant of the loop: free cores and cores in use share out the network; every task whose sources are visited is queued; rank induction
* Theorems (`MapperProps.v`): `C131_ends`, `C131_one_task_per_core`, `C131_every_task`, `C131_no_waste_partial`, `C131_parallel_refuted`
* Status: partial. C131_ends, C131_one_task_per_core, C131_every_task hold without condition on the channels. A core per task and no more: C131_no_waste_partial without parallel channels; false otherwise, C131_parallel_refuted: the target of parallel channels is placed once per channel, until the cores run out, on any network.

### C132 The placement routes every channel between the cores of its tasks

* Model: `Mapper.v` on `NocPath.v`
* Proof: invariant: a route per channel between placed tasks, kept when a task is placed again
* Theorems (`MapperProps.v`): `C132_routes`, `C132_only_channels`
* Status: proved. C132_routes, C132_only_channels.

### C133 Each task is placed where its channels cost least

* Model: `Mapper.v` on `NocPath.v`
* Proof: induction on the free cores from the right; the paths of `NocPath.v` (C124, C127)
* Theorems (`MapperProps.v`): `C133_defined`, `C133_first_and_alone`, `C133_least_cost`, `C133_cost_unique`, `C133_two_sources_refuted`, `C133_cycle_refuted`
* Status: partial. C133_first_and_alone, C133_least_cost (square networks), C133_cost_unique. Always possible is false: C133_defined says exactly when a step is defined; C133_two_sources_refuted, C133_cycle_refuted: an application with two source tasks feeding a third, or with a cycle of two tasks, reads past the end of the counts on every network. A later task without placed neighbours goes to the last free core (C133_first_and_alone).

### C134 The order of the tasks is that of an execution of the application

* Model: `TaskOrder.v`
* Proof: invariant: the state is that after an admissible sequence; a complete sequence shows that each pass executes something
* Theorems (`TaskOrderProps.v`): `C134_first_executions`, `C134_each_once`, `C134_ends`
* Status: proved. C134_first_executions, C134_each_once, C134_ends (both directions, and no end on a deadlock).

### C135 Before the placement the cycles of the application are cut

* Model: `TaskOrder.v`, over any marking and any size of the vector
* Proof: invariant of the depth-first search: tasks being searched from and tasks done with; the reverse order of completion ranks the channels left
* Theorems (`CycleFinderProps.v`, `TaskOrderProps.v`): `C135_preparation_partial`, `C135_preparation_refuted`, `C135_no_cycle_partial`, `C135_kept`, `C135_every_task_placed`, `C135_out_of_range_refuted`, `C135_self_loop_refuted`, `C135_only_cycles_refuted`
* Status: partial. C135_no_cycle_partial, C135_kept and C135_every_task_placed hold with a vector that has an entry for every task and no channel from a task to itself outside the marked tasks. The program's own vector is one entry short: C135_out_of_range_refuted, on every graph. Only such channels: false, C135_only_cycles_refuted. A task with a channel to itself: never placed, C135_self_loop_refuted. C135_preparation_partial and C135_preparation_refuted: the same of the whole preparation, from the search for cycles on.

### C136 The cycles of the application that a task leads to are all found, once each

* Model: `CycleFinder.v`
* Proof: invariant of the three depth-first searches (one generic run lemma); the search through simple paths records exactly the elementary cycles; the second pass finds the components
* Theorems (`CycleFinderProps.v`): `C136_cycles`, `C136_marks`, `C136_self_loop_refuted`
* Status: proved. C136_cycles and C136_marks, with 'cycle' read as: through a task that is on a cycle with another task. A task with a channel to itself on no longer cycle is missed: C136_self_loop_refuted.

### C137 The mapping gives every task a core of its own and every channel a route between the cores of its ends

* Model: `MapFinish.v` over `CycleFinder.v`, `TaskOrder.v`, `Mapper.v`
* Proof: invariant over the routes dealt with; composition of C131, C132, C134, C135, C136
* Theorems (`MapFinishProps.v`): `C137_written`, `C137_alone_refuted`, `C137_whole_partial`, `C137_out_of_range_refuted`, `C137_room`
* Status: partial. C137_written (what is written is right and no check fails), C137_room (the default network is large enough), C137_whole_partial (the whole, with a vector in removeCycleEdges that has an entry for every task, without channels from a task to itself; the placement may still be undefined, see C133). False of the program as it is: C137_out_of_range_refuted (undefined on every such graph); C137_alone_refuted (a task without channels is refused).

### C138 The first task that the mapping adds comes before every task

* Model: `with_start` in `CycleFinder.v`
* Proof: induction on paths and on the rank of a task
* Theorems (`MapFinishProps.v`): `C138_reached`, `C138_acyclic`, `C138_every_task_refuted`
* Status: partial. C138_reached says exactly which tasks are reached; C138_acyclic: all, without cycles. False in general: C138_every_task_refuted. The search for cycles does not depend on it (C136).

### C139 Splitting an event graph gives its strongly connected parts

* Model: `EventScc.v`: the recursive search with its numbers, low numbers and stack, then the sharing out
* Proof: invariant of the search (stack sorted by number, lower reaches higher, every vertex on the stack reaches a vertex being searched, vertices left are closed), contract of a call by induction on its depth
* Theorems (`EventSccProps.v`): `C139_parts`, `C139_same_event_refuted`
* Status: proved. C139_parts. The events must be distinct, as those of the graphs made by the analyses are: C139_same_event_refuted.

### C140 Splitting an event graph keeps every circuit

* Model: `EventScc.v`
* Proof: every event of a circuit reaches every other, so C139 puts them in one part
* Theorems (`EventSccProps.v`): `C140_circuits`, `C140_period`
* Status: proved. 

### C141 Transfers that share a link of a router are put together

* Model: `Overlaps.v`: the table of crossings by router and the groups of each
* Proof: invariant of the group list (C53) composed over the routers
* Theorems (`OverlapsProps.v`): `C141_bags`, `C141_once`, `C141_together_partial`, `C141_defined`, `C141_together_refuted`
* Status: partial. The last part is false (C141_together_refuted): a crossing that joins two groups is lost. C141_together_partial has it for crossings that bring in a link not used before.

### C142 Joining the outputs of a task leaves it one output that feeds the same tasks

* Model: `SingleOutput.v`: the loop as calls of the graph object of `Builder.v`
* Proof: exact effect of each call, invariant of the loop (targets kept up to order, degrees of the new tasks, a new task is fed by the task or by a later one)
* Theorems (`SingleOutputProps.v`): `C142_joined`, `C142_accepted`, `C142_phases_refuted`
* Status: proved. A task or target of several phases is refused in the middle of the change: C142_phases_refuted.

### C143 Joining the outputs of a task keeps how often the tasks fire

* Model: `SingleOutput.v`
* Proof: from C142: every new channel has rates 1, so its ends fire equally often
* Theorems (`SingleOutputProps.v`): `C143_balance`, `C143_same_rates_partial`, `C143_rates_refuted`, `C143_tokens_refuted`
* Status: partial. C143_balance says what the balance becomes; it is the same when each output takes as many tokens as it gives (C143_same_rates_partial). Otherwise rates and initial tokens are lost: C143_rates_refuted, C143_tokens_refuted.

### C144 Removing tasks removes exactly those asked for and their channels

* Model: `RemoveTask.v`: the loops over names and identifiers as calls of the graph object of `Builder.v`, on the text split by `Commons.v`
* Proof: effect of one removal (C13), composition of removals, induction on the list
* Theorems (`RemoveTaskProps.v`): `C144_removed`, `C144_read`, `C144_accepted`, `C144_atomic_refuted`
* Status: proved. For graphs whose identifiers are distinct (C10) and lists without an empty name. A failure half way leaves the tasks listed earlier removed: C144_atomic_refuted.

### C145 Clearing reentrancy changes the factors of exactly the tasks asked for

* Model: `RemoveTask.v`
* Proof: effect of one call, composition, induction on the list
* Theorems (`RemoveTaskProps.v`): `C145_cleared`, `C145_accepted`
* Status: proved. For graphs whose identifiers are distinct (C10) and lists without an empty name.

### C146 The LTE generator builds the layered graph asked for

* Model: `Lte.v`: the generator as calls of the graph object of `Builder.v`
* Proof: exact effect of each call, which never fails since names are distinct and identifiers fresh; induction on tasks, rows and layers
* Theorems (`LteProps.v`): `C146_generated`, `C146_asked`, `C146_usable`, `C146_numbers`
* Status: proved. The clamping of options that do not fit in an int is not modelled.

### C147 The search for knee points ends with exactly the knees

* Model: `Knees.v`: updateKneeSet and addEdgeKnees on the sets of `Storage.v`
* Proof: invariant of the loop (the queue holds minima of points, the meets of checked points are in the queue and the knees); the checked vectors are distinct and lie in a product of n^k values
* Theorems (`KneesProps.v`): `C147_inner`, `C147_edges`, `C147_update`, `C147_update_refuted`
* Status: proved. The claim records what the code does: C147_update_refuted shows that an update with two knee points is undefined behaviour. Overflow of token counts is not modelled.

### C148 Handling an infeasible point only raises the lower bounds

* Model: `MonoKnee.v`: handleInfeasiblePoint on the sets of `Storage.v` and `Knees.v`
* Proof: the loop over the edges computes a maximum; the count of critical buffers equals their number exactly when all are
* Theorems (`MonoKneeProps.v`): `C148_bounds`
* Status: proved. Stated for handlings that return; C149 says when they do not.

### C149 What the monotonic optimisation with knee sets can return

* Model: `MonoKnee.v`: the whole search, with any evaluation
* Proof: invariant: one infeasible point, bounds between it and one below, at most one knee, which is one below it; a second infeasible point or knee is undefined
* Theorems (`MonoKneeProps.v`): `C149_feasible_start_refuted`, `C149_returned`, `C149_two_free_refuted`, `C149_second_refuted`
* Status: proved. The claim records what the code does, which is not what is expected of an exploration. The evaluation is any pair of functions of the distribution. Overflow is not modelled.

### C150 A TDMA schedule respects dependencies, computing times, slots and distances

* Model: `Tdma.v`: heap as sorted list, isPktDone, slotlock and packet_profile as vectors, one turn of the loop
* Proof: invariant on the entries of the heap, the packets sent and the locks; cycles taken from the heap never decrease, so a lock is the last cycle used by a pair
* Theorems (`TdmaProps.v`): `C150_order`, `C150_exclusive`
* Status: proved. The model starts from the packets and slot lines that are read; overflow is not modelled. The distance is getDistance, for which see C52.

### C151 A packet starts to compute as soon as its dependencies have arrived

* Model: as C150
* Proof: when a packet is put back a dependency is still to come: its entry in the heap is not before the cycle just tried
* Theorems (`TdmaProps.v`): `C151_prompt`
* Status: proved. An example shows a packet that starts one cycle late.

### C152 When the TDMA schedule ends

* Model: as C150
* Proof: a packet of least rank among those left has a deadline as long as no packet leaves; entries below it are finitely many. Conversely a waiting packet stays in the heap
* Theorems (`TdmaProps.v`): `C152_ends`, `C152_unslotted`, `C152_deadlock`
* Status: proved. Ending is stated as the existence of enough fuel.

### C153 What the averages of a TDMA schedule are

* Model: `Tdma.v`: the last loop
* Proof: induction from the end of the table; the differences telescope
* Theorems (`TdmaProps.v`): `C153_report`, `C153_zero_refuted`
* Status: proved. The final division, in float, is not modelled.

### C154 Under TDMA slots every message is delivered once, in order, in a slot of its channel

* Model: `So4.v`: the loop as steps, n_buffer as a list, a history of firings, messages sent and received
* Proof: invariant by induction on the steps
* Theorems (`So4Props.v`): `C154_messages`, `C154_tokens`
* Status: proved. The slots and routes of the channels are parameters (generateConditions is not modelled); the construction of the schedule from the start times is not modelled either.

### C155 What the execution with TDMA slots fails to do

* Model: as C154
* Proof: a state in which nothing runs, nothing is on its way and nothing can start is kept by every step; the late message is a computation
* Theorems (`So4Props.v`): `C155_no_deadlock_reported`, `C155_dead_refuted`, `C155_late_refuted`
* Status: proved. Two theorems say what does not hold (refuted), one that the answer for deadlock is unreachable.

### C156 Under TDMA slots firings are complete, last their duration, and start as soon as they can

* Model: as C154
* Proof: invariant: the queue of a task holds the firings without messages, with the time left; tasks already tried in a round are not ready
* Theorems (`So4FiringsProps.v`): `C156_firings`, `C156_nonnegative`, `C156_eager`
* Status: proved. As C154. A task without input channel may start a firing in every round, and is excluded.

### C157 The slot of a channel is the one of its first rule

* Model: `So4Rules.v`: generateConditions with maps as lists in order of insertion
* Proof: induction on the rules: looking up a key in the map is looking for its first rule
* Theorems (`So4RulesProps.v`): `C157_text`, `C157_in_round`, `C157_title_refuted`, `C157_xml`, `C157_round_refuted`
* Status: proved. The parsing of the files is not modelled: the model starts from the fields of the lines, or the rules. An attribute missing in a rule, an empty route and a short line are undefined behaviour.

### C158 The throughput under TDMA slots is one that was measured, not the one of the graph

* Model: as C154
* Proof: invariant: the times of the visited states are the differences between the instants at which iterations end; sums telescope. Refutation: induction on the iterations of any schedule
* Theorems (`So4RateProps.v`): `C158_measured`, `C158_rate_refuted`
* Status: proved. C158_measured is what holds, C158_rate_refuted what does not. The quotient, in floating point, is not modelled.

### C159 The K-periodic linear program finds the smallest period, but returns its schedule wrongly for tasks with several phases

* Model: rows of the program as lists of coefficients over the events; the GLPK solver is an oracle
* Proof: each row says what the constraint of the event graph between the same events says (the rounding bounds x-1 and x-step agree on multiples of the step), then C27 and C28; starting times are shifted to be non-negative
* Theorems (`KPeriodicLpProps.v`): `C159_rows_are_schedules`, `C159_period_optimal`, `C159_single_phase_schedule`, `C159_start_order_refuted`, `C159_task_period_refuted`, `C159_schedule_valid_refuted`
* Status: proved. C159_rows_are_schedules, C159_period_optimal and C159_single_phase_schedule are what holds, C159_start_order_refuted, C159_task_period_refuted and C159_schedule_valid_refuted what does not. The solver is an oracle assumed exact for the program at hand; doubles are rationals.

### C160 The strictly periodic linear program finds the smallest period of evenly spaced executions

* Model: as C159, with the equality rows
* Proof: induction on the phases: the equality rows and the period of the cycle space all executions evenly
* Theorems (`KPeriodicLpProps.v`): `C160_rows_are_even_schedules`, `C160_period_optimal`, `C160_not_faster`
* Status: proved. Same solver oracle as C159.

### C161 Wiggers offsets push the phases of each task to the end of its cycle without overlap

* Model: curves of the channels, then the retiming loop from the last phase down
* Proof: invariant of the loop: the end of a phase lies between its earliest end and the start of the next phase; induction on the phases
* Theorems (`WiggersProps.v`): `C161_offsets`, `C161_latest`, `C161_no_room`, `C161_no_overlap`
* Status: proved. Times are rationals. The production line of a channel is specified as the code takes it (line_time in WiggersSpec.v); that it bounds the tokens produced is not claimed.

### C162 Sizing with fixed offsets is exact for burst, average and Wiggers offsets, but does not notice a task longer than its cycle

* Model: the command as generator, check and the program of C92
* Proof: each generator gives non-negative offsets that fit, then C92_fixed_offsets; counterexample by computation
* Theorems (`WiggersProps.v`): `C162_command`, `C162_offset_needed`, `C162_period_needed`, `C162_long_task_refuted`
* Status: proved. C162_command, C162_offset_needed and C162_period_needed are what holds, C162_long_task_refuted what does not. The MINMAX offsets are a parameter here; C163 gives them. The solver is an oracle, as in C92.

### C163 MINMAX offsets are the closest to the lines of the channels, but a channel from a task to itself stops the program

* Model: one linear program per task, with columns for the phases and two distances per channel; the solver is an oracle
* Proof: each row is one inequality of the specification, so points and objective correspond; earliest starts are a feasible point
* Theorems (`MinMaxProps.v`): `C163_program`, `C163_offsets`, `C163_no_answer`, `C163_command`, `C163_self_loop_refuted`
* Status: proved. C163_program, C163_offsets, C163_command and C163_no_answer are what holds, C163_self_loop_refuted what does not. The solver is an oracle: it is assumed exact, and numbers are rationals. The lines are those of the code (MinMaxSpec.v: out_late to in_early); that they bound the tokens of the channels is not claimed.

## Findings

Every `_refuted` theorem is a proved counterexample, on the model, to what the property
promises; each is a defect or an undocumented limit of the code:

* `operator<` of fractions rejects fractions the constructor accepts (C02); extended
  Euclid returns a wrong pair for negative coefficients (C05); `fibo` is 2^(n-1) (C06).
* Rejected additions leave identifiers half registered (C10, C15); channel totals wrap at
  32 bits (C14); the channel gcd cache is stale after a rate change or a reused
  identifier (C17); the identifier counter of a frozen graph still moves (C16).
* The repetition vector of a task without channel is not what the balance equations give
  (C21), is not minimal per component on disconnected graphs (C19) and the empty graph is
  inconsistent (C20); normalisation rejects a consistent graph with a lone task (C22).
* The cycle test misses channels from a task to itself (C24).
* `computeStartingTime` reports an infeasible period as success (C26).
* Constraints of re-entrant multi-phase tasks and of graphs with initial phases are
  unsound (C27, C30).
* Simulation: initial phases and uneven self-channels break token conservation (C36, C66),
  a capacity below the initial tokens is accepted (C37), a duration of LONG_MAX reads as a
  deadlock (C38), a single task without channels loops for ever and huge repetition
  factors are misjudged (C69), fractional durations of tasks on no cycle are truncated to
  int (C70).
* Storage: the feasible frontier keeps non-minimal points (C43), `isInBackCone` reads an
  uninitialised variable (C46, C58, C147), so that M_OPT returns at most the initial distribution less one token (C149), step and feedback computations drop initial phases
  (C47, C48), the minimum channel size formula is wrong with several phases (C56), a zero
  target gives an undefined result (C60).
* NoC: link identifiers overflow from 153 x 153 (C49), modulo mapping puts tasks on
  routers and routing is then undefined (C51), TDMA distance is wrong on rectangular
  meshes (C52).
* `GroupList` loses a value when two groups are joined (C54).
* Howard's solver gives up after 100 rounds and returns a wrong value (C71), reports a
  finite maximum for a graph without circuit and infinity for a single event.
* Strictly periodic scheduling returns a negative period for a live graph that has no strictly
  periodic schedule and period 0 for a lone task (C74); self constraints carry a task
  identifier where a channel identifier is read, so unrelated channels are reported critical
  (C73).
* 1-periodic scheduling returns a negative period for a live graph that has no 1-periodic
  schedule (C78).
* Merging can deadlock a live graph: the merged task interleaves its members as in the first
  round, even if the rest of the graph needs several executions of one member in a row (C83).
* Merging tasks with several phases can cut a phase pattern: rates of some phases are lost or
  repeated and the merged graph promises more throughput than the original has (C81).
* SDF3 files: the reentrancy factor is written as a one-token loop, so any factor above one
  comes back as one, and a real one-token unit self-loop disappears as a channel (C84).
* SDF3 files: a properties element without execution time, an empty rate and an empty rate item
  index an empty vector; two channels on one port leave the second without rates (C85, C86).
* SDF3 files (reading note): fractional times are printed with the default six significant
  digits, so longer ones do not read back; the theorem asks for times that do (C84).
* The deGroote algorithm accepts graphs with initial phases and ignores these, so it can print
  a positive throughput for a graph that deadlocks (C87).
* `periodic_memory_sizing_csdf` returns 0, which becomes a *valid* result of size 0, when its
  program has no solution and when it only generates it (C91).  Both sizing commands compare the
  period with the least one before giving it its default, so leaving PERIOD out always stops them (C91).
* `generateStrictlyPeriodicOffsets` does not compare the duration of a one-phase task with its
  period, so impossible periods get a valid result (C93).
* The exploration by bisection never ends when the best throughput is 0, and its queue grows for
  ever (C94).
* Symbolic execution never reports a deadlock: it loops for ever; and it loops for ever on some
  live cyclo-static graphs, because it moves the tokens of a whole cycle at each phase (C97).
* The packet trace cuts durations to integers (C99), orders a consumer after the last packet only,
  and with the default packet size loops for ever as soon as production rates differ (C100).

- `RandomGenerator::generate` checks that bounds are ordered but not that they are positive: zero tasks or channels reach `uniform_int_distribution(1, 0)`, undefined behaviour (C102_undefined_refuted).  A single task with self-loops forbidden, the default, fails an assertion (C102_lonely_task_rejected).
- The target of a channel is redrawn until it differs from the source, without bound (C102_redraw_unbounded_refuted).

- Back-pressure sizing subtracts the number of initial tokens from a time (backpressure.cpp 254), as if each channel carried one token per unit of time: on faster channels the consumer is started before its data, and the sizes are too small, even 0 (C104_rates_refuted).
- With several phases the retimed phases of a task may span more than its period; the sizes are then too small for any schedule: rates [1,1] to [2], durations [5,1] and [2], period 6, size 2, while 8 is the best period with that room (C104_phases_refuted).
- Sizes are reported for any positive period, even shorter than an execution (C104_period_refuted).

- Cycle enumeration: a channel from a task to itself is counted only when its task is the smallest of a longer cycle (C105_self_loops_refuted); the loop stops at the number of tasks, not at the largest identifier, so cycles are missed after the removal of tasks (C105_numbering_refuted); the process-wide list of cycles is never emptied (C105_second_run).

- Base monotonic optimisation (option B_M_OPT): on a graph with feedback channels the infeasible points are 0 on the user's channels, so that the knees never move and the option prunes nothing (C106_prunes_nothing).  The best distribution found is not handed over: when the initial distribution already reaches the target (C106_reached_refuted), or when the best one found is the smallest (C106_optimum_refuted), the checklist is empty and the exploration dereferences `begin()` of an empty map.

- Storage dependencies: the default search (without SYMB_EXEC_CORRECTED) removes a task's dependencies once searched and misses channels on cycles (C108_complete_refuted).  For a deadlock one whole cycle is enough (C109_deadlock), but for a settled period the missed channels matter: enlarging only channels that are not reported can raise the throughput (C110_default_refuted: 3 tasks, 1/8 to 1/6), so the exploration that follows the reported channels can miss Pareto points.

- Exploration by self-timed execution, default search: on a ring of three tasks (durations 2, 1, 2; C111_default_refuted) no channel at all is reported at the smallest buffer sizes (throughput 1/9), so the exploration stops there, although one more place reaches the target 1/7.  In random graphs a scratch simulator outside the model found also larger fronts with Pareto points lost and explorations that keep enlarging channels which do not help.

- **The search for storage distributions stops at equality with the target only**
  (`C60_skipped_target_refuted`).  `isSearchComplete` (buffer_sizing.cpp 393-411) compares the best
  throughput found with the target by `==`.  A user target strictly between two attainable throughputs is
  passed over; the search then ends only when no feedback channel is critical any more.  With K-Iter that
  happens (C117); an evaluation for which some channel stays critical whatever its room - a fast producer
  that is always blocked by its buffer in a self-timed execution - makes the search endless.

- K-Iter on tasks of reentrancy factor 0 (every task of an SDF3 file without self-loop): kperiodic.cpp 663 leaves out the constraint from the last to the first execution of the unfolded task, but the channel constraints keep only dominant pairs and rely on that order.  Once such a task is unfolded the circuits through it can vanish: on the two-task graph of C119_throughput_reached_refuted the announced throughput is twice the one any schedule can have.  Self-timed execution, on the contrary, never overlaps a task with itself, so both engines differ on graphs where K-Iter is right (C119_engines_agree_refuted).

- ModelNoCConflictFreeCommunication (modelCommunications.cpp 36-39 and 159-164): a channel between two tasks without a route that is not marked virtual, which is what every channel is before routing, is removed and rebuilt with production rate 1 whatever its rate was.  C120_no_route_refuted: a consistent live graph loses its repetition vector.  Multi-phase tasks on a routed channel end in an assertion (the rates are given as one total).

- Scheduling::is_valid_schedule (models/Scheduling.cpp 276-474), printed by the NoC flow as `Schedule Check`: among the tasks that start at time 0 only the last is charged for its first execution, since `task_history` starts at 0 (C123_two_starters_refuted: a consumer that starts at 0 on an empty channel is accepted); the overlap test at 463 is made only for tasks of factor 0 (C123_overlap_refuted); an execution that starts exactly when the previous one ends is charged with the rate of the previous phase (C123_phases_refuted: a valid schedule is refused); the vectors of 307, 314 and 358 have getMaxEdgeId entries and are indexed by task identifier, and 452 takes the first entry of a map that can be empty (C123_defined_refuted).

- NoCGraph (models/NoCGraph.h 75, 82): the link counts have V*V entries but the index of a link is V + x*V + y, so the links out of the last core fall past the end. findPathDijkstra from the last core is undefined on every mesh (C124_last_core_refuted) - the bufferless mapping tries every core as a source -, and findLowContentionPath, which reads the count before testing whether the vertex was visited, is undefined between any two cores (C125_mesh_refuted). An unreachable destination reads prev[-1] (C124_unreachable_refuted). clear() uses resize and so never resets existing counts (C127_clear_refuted). getPathLength takes sqrt(V/2) as the side of the mesh, wrong for rectangles (C126_rectangle_refuted). Neither search returns the least contended of the shortest paths (C124_least_contended_refuted, C125_least_contended_refuted). dijkstra_findPaths and setmap compute size()-1 and size()-2 on unsigned sizes: undefined for a route from a core to itself (C127_same_core_refuted).

- ExpansionGraph.cpp 229-236: the bounds of the pair (ai, aj) are f0 + shift and g0 + shift, with shift = (Zi*ai - Zj*aj)/gcdk; the sign is wrong (algorithm1, which only prints, solves for f0 - shift). With one execution per period the error is a difference of potentials, so periods are right and start times are not (C128_times_refuted); with more the graph can be infeasible at every period for a live graph (C128_deadlock_refuted).

- main.cpp 112-118: two generators, or -f with -g, print an error and go on, ending with 0; with a readable file the generator name is not checked (C130_unsupported_refuted). main.cpp 156-163: names of algorithms are checked one at a time, after the previous ones have run (C130_unknown_refuted).

- GraphMapper.h 104-127: a task is queued once per channel from the last of its sources, and placed that many times, each time on a new core (C131_parallel_refuted). GraphMapper.h 205, 277: the cost -1 of a core without neighbours is also the mark of no choice yet, so that a task without placed neighbours goes to the last core, from which the search of NoCGraph.cpp reads past its counts (C133_two_sources_refuted); so does trying the last core for a task with a channel back to a placed one (C133_cycle_refuted).

- BufferlessNoCMapAndRoute.cpp 146-147: the vector "visited" has one entry per task but is indexed by identifiers, which start at 1, so that the last task is read and written past its end on every graph (C135_out_of_range_refuted). 136: a channel to a visited task from which a cycle can be reached is removed even when it closes no cycle (C135_only_cycles_refuted). A task with a channel to itself and on no longer cycle keeps it, waits for itself and gets no core (C135_self_loop_refuted).

- SCCFinder.h: components of one task are skipped, so a task with a channel to itself and on no longer cycle counts as being on no cycle (C136_self_loop_refuted), which with the above leaves it without a core.

- BufferlessNoCMapAndRoute.cpp 350-366 and 400: the mapping of a task is read off the routes of its channels, so a task without channels is refused although the placement gave it a core (C137_alone_refuted). 236: "every other task is reachable from start" is false of a cycle next to a task without inputs, and of two separate cycles (C138_every_task_refuted). With no task at all, "top" is used without being set.

- EventGraph.cpp 69, 78: the parts are made through the table from events to vertices, so two vertices with the same event are confused (C139_same_event_refuted).

- BufferlessNoCScheduling.cpp 153-186: a crossing whose two links are already in two groups is put in no bag, so it is not scheduled with the crossings that share its links (C141_together_refuted).

- singleOutput.cpp 40-62: the new channels have rates 1 and no tokens whatever those they replace had, so a consistent graph may become inconsistent and a live one dead (C143_rates_refuted, C143_tokens_refuted); a task of several phases makes it fail half way (C142_phases_refuted).

- bug_explorer.cpp 52-56: when a later name is unknown, or listed twice, the tasks listed before it are already gone (C144_atomic_refuted).

- TDMAScheduler.cpp 175-266: the schedule does not end when a pair that is used is missing from the slot file or packets wait for each other (C152_unslotted, C152_deadlock). 268-301: an incomplete last iteration counts in the averages, and a hyperperiod of 0 is a division by zero (C153_zero_refuted).

- so4_noc.cpp 193-208: n_buffer is emptied from the front only, so a message that is due waits behind one that is not (C155_late_refuted). state.cpp 176-199 returns 1 when nothing runs, so the test for deadlock (so4_noc.cpp 261) never holds and a dead graph loops for ever (C155_no_deadlock_reported, C155_dead_refuted).

- so4_noc.cpp 76-86: the words of a title line are skipped and vals[2] is then read from an empty vector, so a file with a title or an empty line is undefined behaviour (C157_title_refuted). 34, 102: `slots+1` is right for text files, where slots is the last slot, but for XML files slots is the number declared: benchmarks/tdma2.xml, with slots 0 and 1 of 2, gets rounds of 3 (C157_round_refuted).
- algorithms/mapping/generateTDMA.cpp 22-24 writes through an uninitialised pointer for every channel, and never attaches the rules to the document. Not modelled: there is no defined behaviour to state.

- so4_noc.cpp 167-177: a state is taken for a repetition although messages are on their way or the round is at another slot, so the throughput can be more than any schedule reaches (C158_rate_refuted: 1/2 instead of at most 3/8).

- CSDF_KPeriodicScheduling_LP.cpp 267-273 lists the starts phase by phase, although the other analyses and the printers take entry n as execution n (C159_start_order_refuted), and 257 divides the hyper-period by Ni/K, forgetting the number of phases (C159_task_period_refuted): the schedule of a task of two phases overlaps itself (C159_schedule_valid_refuted). The commands print only the period, which is right.

- checkOffsets (periodic_fixed.cpp 37-51) only prints when offsets overlap or leave the cycle, its assertions are commented out, and no generator tests tasks of one phase: compute_fixed_offset_buffer_sizing reports sizes for a period at which the graph cannot run (C162_long_task_refuted).

- generateMinMaxOffsets names the rows of a channel by channel and phase only, so a channel from a task of several phases to itself adds the same row twice and addRow throws (C163_self_loop_refuted).

## Testing against wrong programs

`seeded/LOG.jsonl` has one line per edited model: the definition, the edit, the claim it
breaks, the theorems that stopped proving, and the theorems tightened because of it.

## Trusted base

* Coq 8.16.1's kernel (including `vm_compute`), and `coqc`'s elaboration of the statements.
* The reading of the code recorded in the comments of the model files and the abstractions
  listed above; the model is not extracted from or compared with a running binary.
* `Print Assumptions` prints `Closed under the global context` for every `Cnn_…` theorem:
  no axiom is used, neither ours nor the standard library's.  Files that load the standard
  library's ssreflect support make `coqchk` also list the seven fields of
  `Coq.ssr.ssrunder.Under_rel`, a module type instance of the standard library; no
  theorem depends on them.
* No functor, module type, `Declare Module`, `Axiom`, `Parameter`, `Admitted`, section-less
  `Variable`/`Hypothesis` or plugin is used.
