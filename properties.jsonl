{"id": "C01", "title": "Fraction arithmetic is exact and stays in lowest terms", "statement": "Building a Fraction from (n,d) with d>0, multiplying two Fractions and dividing by a non-zero Fraction (or integer) yields a value equal to the exact rational result, with positive denominator and numerator/denominator coprime.", "quantifier": "all integers n, d>0 and all Fractions with positive denominators", "why_tests_cant": "the input space is unbounded; a sign or gcd slip shows only for particular sign/size combinations", "anchors": ["src/libkiter/commons/commons.h:Fraction::Fraction,operator*=,operator/="]}
{"id": "C02", "title": "Fraction comparison is the exact rational order", "statement": "For Fractions with positive denominators, a<b returns true exactly when the rational a is smaller than the rational b; a==b exactly when equal (on lowest-terms values); a>b exactly when greater; comparison always terminates. The same holds for comparison against an integer.", "quantifier": "all pairs of Fractions with positive denominators of any magnitude", "why_tests_cant": "the comparison walks two continued fractions with a parity flip; depth grows with the operands so no finite test set covers the loop", "anchors": ["src/libkiter/commons/commons.h:Fraction::operator<,operator==,operator>"]}
{"id": "C03", "title": "modulo returns the canonical residue", "statement": "modulo(a,b) for b>0 is congruent to a modulo b and lies in [0,b), also for negative a.", "quantifier": "all integers a and all b>0", "why_tests_cant": "unbounded integers; C++ % truncates toward zero", "anchors": ["src/libkiter/commons/commons.h:modulo"]}
{"id": "C04", "title": "Rounding helpers return the nearest multiple on the promised side", "statement": "floor(v,c)/ceil(v,c) return the greatest multiple of c not above v / least multiple not below v; floord/ceild return the greatest multiple strictly below / least strictly above v (c>0), assuming the long double division is exact enough.", "quantifier": "all integers v and c>0", "why_tests_cant": "unbounded integers; boundary cases v multiple of c, negative v", "anchors": ["src/libkiter/commons/commons.h:floor,ceil,floord,ceild,flooru,ceilu"]}
{"id": "C05", "title": "Extended Euclid solves the Diophantine equation", "statement": "extended_euclide(a,b,c) returns (x,y) with a*x+b*y=c whenever gcd(a,b) divides c and a,b are not both zero, and refuses when it does not divide; it terminates on every input.", "quantifier": "all integers a,b,c", "why_tests_cant": "unbounded loop; invariants needed; sign of remainders", "anchors": ["src/libkiter/commons/commons.h:extended_euclide"]}
{"id": "C06", "title": "fibo returns Fibonacci numbers", "statement": "fibo(n) returns the n-th Fibonacci number.", "quantifier": "all n>=0", "why_tests_cant": "a test on the first values 0,1 passes; property must hold for all n (the code actually violates it)", "anchors": ["src/libkiter/commons/commons.cpp:fibo"]}
{"id": "C07", "title": "SDF3 rate lists expand run lengths faithfully", "statement": "splitSDF3List(s) returns, in order, each comma separated item, with n*x expanded to n copies of x; for a list without '*' or empty fields joining the result with commas gives back s.", "quantifier": "all strings", "why_tests_cant": "unbounded strings", "anchors": ["src/libkiter/commons/commons.cpp:splitSDF3List", "src/libkiter/commons/commons.h:split"]}
{"id": "C08", "title": "latexize escapes every underscore exactly once", "statement": "latexize(s) equals s with each '_' replaced by '\\\\_' and every other character unchanged, and the loop terminates.", "quantifier": "all strings", "why_tests_cant": "in-place replace loop with moving index; unbounded strings", "anchors": ["src/libkiter/commons/commons.cpp:latexize"]}
{"id": "C09", "title": "RGB hex formatting round-trips", "statement": "ConvertRGBtoHex(r,g,b) for components in 0..255 is six upper-case hex digits whose value is r*65536+g*256+b.", "quantifier": "all r,g,b in 0..255", "why_tests_cant": "16.7 million combinations of shifts and masks", "anchors": ["src/libkiter/commons/commons.h:ConvertRGBtoHex"]}
{"id": "C10", "title": "Vertex and edge identifiers stay unique and resolvable", "statement": "After any sequence of graph-building calls (some rejected), two different vertices never share an id and two different edges never share an id, edge ids are positive, and looking up an id that is in the graph returns the element that carries it.", "quantifier": "every finite history of addVertex/addEdge/remove/setId/setName/... calls from an empty graph", "why_tests_cant": "histories are unbounded and include removal, re-use and explicit ids", "anchors": ["src/libkiter/models/Dataflow.h:addVertex,addEdge,addUnsafeVertex,addEdgeUnsafe,setVertexId,setEdgeId,getVertexById,getEdgeById,removeVertex,removeEdge"]}
{"id": "C11", "title": "Names stay unique", "statement": "After any sequence of calls no two vertices share a non-empty name and no two edges share a non-empty name, and an element whose name was set is the one found by name.", "quantifier": "every finite history of graph-building calls", "why_tests_cant": "unbounded histories", "anchors": ["src/libkiter/models/Dataflow.h:setVertexName,setEdgeName,getVertexByName,getEdgeByName"]}
{"id": "C12", "title": "Automatically chosen identifiers are fresh", "statement": "addVertex() and addEdge() without an explicit id always succeed on a writable graph and choose an id used by no existing element, and getMaxVertexId/getMaxEdgeId is larger than every id in use.", "quantifier": "every reachable graph state", "why_tests_cant": "depends on the whole history of explicit ids", "anchors": ["src/libkiter/models/Dataflow.h:addVertex,addEdge,getMaxEdgeId,getMaxVertexId"]}
{"id": "C13", "title": "Removing a vertex leaves no dangling edge", "statement": "After removeVertex(v) exactly the edges incident to v are gone, every other vertex and edge keeps its id, name and rates, and each remaining edge still joins the same two vertices.", "quantifier": "every graph state and vertex (self-loops and parallel edges included)", "why_tests_cant": "unbounded graphs; descriptor renumbering in the vector-backed adjacency list", "anchors": ["src/libkiter/models/Dataflow.h:removeVertex,removeEdge"]}
{"id": "C14", "title": "Channel totals equal the sum of the phase rates", "statement": "After setEdgeInPhases/setEdgeOutPhases, getEdgeIn/getEdgeOut is the sum of the given per-phase rates.", "quantifier": "all rate vectors", "why_tests_cant": "accumulator width only matters for large sums (violated beyond 32 bits)", "anchors": ["src/libkiter/models/Dataflow.h:setEdgeInPhases,setEdgeOutPhases,getEdgeIn,getEdgeOut"]}
{"id": "C15", "title": "Phase counts stay coherent between tasks and channels", "statement": "After any history of accepted rate-setting calls, each channel whose rates were set has exactly as many producer (consumer) rates as its source (target) task has phases, and task durations have that many entries; contradicting calls are refused.", "quantifier": "every finite history of rate/duration setting calls", "why_tests_cant": "order of calls matters; unbounded histories", "anchors": ["src/libkiter/models/Dataflow.h:setEdgeInPhases,setEdgeOutPhases,setPhasesQuantity,setVertexDuration"]}
{"id": "C16", "title": "A frozen graph cannot be structurally modified", "statement": "Once the graph is read-only (as computeRepetitionVector makes it) every mutating call is refused and leaves the graph as it was; and on a writable graph every accepted mutation that can change rates or structure drops cached repetition vector and normalisation flags.", "quantifier": "every state and every mutating operation", "why_tests_cant": "must hold for each op at each state", "anchors": ["src/libkiter/models/Dataflow.h:ASSERT_WRITABLE,reset_computation,set_read_only", "src/libkiter/models/repetition_vector.cpp:computeRepetitionVector"]}
{"id": "C17", "title": "Cached channel gcd is the gcd of the current rates", "statement": "getFineGCD(c) always equals the gcd of all current production and consumption rates of c.", "quantifier": "every history of rate changes and queries", "why_tests_cant": "the cache is keyed by edge id and never invalidated; only some histories expose it (violated by the code)", "anchors": ["src/libkiter/models/Dataflow.h:getFineGCD,computeFineGCD"]}
{"id": "C18", "title": "Repetition vector satisfies the balance equations", "statement": "When computeRepetitionVector succeeds on a graph with non-negative rates, every N_t is positive, a multiple of the phase count of t for every task with a channel, and each channel produces as many tokens per iteration as it consumes.", "quantifier": "all CSDF graphs of any size and shape", "why_tests_cant": "recursive rational propagation over arbitrary graphs incl. cycles and parallel edges", "anchors": ["src/libkiter/models/repetition_vector.cpp:computeRepetitionVector,calcFractionsConnectedActors,calcRepetitionVector"]}
{"id": "C19", "title": "Repetition vector is minimal", "statement": "The computed iteration is the smallest: the numbers of full phase cycles N_t/phases(t) have gcd 1; on a connected graph every positive integer solution of the balance equations made of whole phase cycles is an integer multiple of the result.", "quantifier": "all consistent graphs; all solutions", "why_tests_cant": "quantifies over all solutions", "anchors": ["src/libkiter/models/repetition_vector.cpp:calcRepetitionVector"]}
{"id": "C20", "title": "Consistency check is exact", "statement": "computeRepetitionVector returns false exactly when the balance equations have no positive solution (rates positive), and it terminates on every graph.", "quantifier": "all CSDF graphs", "why_tests_cant": "inconsistency may be arbitrarily deep in the graph; recursion", "anchors": ["src/libkiter/models/repetition_vector.cpp:calcFractionsConnectedActors"]}
{"id": "C21", "title": "Repetition vector on tasks without channels", "statement": "N_t is a multiple of the number of phases of t for every task of a consistent graph, including isolated tasks.", "quantifier": "all graphs", "why_tests_cant": "violated by the code for isolated multi-phase tasks because their phase count never enters the rate period", "anchors": ["src/libkiter/models/repetition_vector.cpp:computeRepetitionVector"]}
{"id": "C22", "title": "Normalisation makes both sides of every channel equal to its task weight", "statement": "When normalize succeeds, for each channel alpha*totalIn = Z_source and alpha*totalOut = Z_target with integer positive Z, so per iteration all channels carry the same normalised amount.", "quantifier": "all connected consistent graphs", "why_tests_cant": "unbounded graphs and rates", "anchors": ["src/libkiter/algorithms/normalization.cpp:normalize,rationalNormalize,setNormalization"]}
{"id": "C23", "title": "SCC decomposition is exactly mutual reachability", "statement": "computeSCCKosaraju partitions the tasks; two tasks are in the same component exactly when each can reach the other along channels; no component is empty and the call terminates.", "quantifier": "all directed multigraphs", "why_tests_cant": "depends on global finishing order of a DFS over arbitrary graphs", "anchors": ["src/libkiter/algorithms/scc.cpp:computeSCCKosaraju,computeDFSStack,dfsTranspose"]}
{"id": "C24", "title": "Cycle test", "statement": "has_cycles returns true exactly when the graph has a directed cycle.", "quantifier": "all graphs", "why_tests_cant": "violated for graphs whose only cycles are self-loops; correct characterisation needs all graphs", "anchors": ["src/libkiter/analysis/cycle_detection.cpp:has_cycles,has_selfloops"]}
{"id": "C25", "title": "Computed start times satisfy every event constraint", "statement": "If the event graph has no cycle of positive total (d - omega*w), computeStartingTimeWithOmega gives every event a start time such that for each constraint start(target) >= start(source) + d - omega*w, the least start is 0 and none is negative.", "quantifier": "all event graphs, all omega", "why_tests_cant": "longest path relaxation on arbitrary weighted graphs; correctness depends on round bound", "anchors": ["src/libkiter/models/EventGraph.h:computeStartingTimeWithOmega"]}
{"id": "C26", "title": "Infeasible periods are reported", "statement": "computeStartingTimeWithOmega signals failure when no start times can satisfy the constraints.", "quantifier": "all event graphs, all omega", "why_tests_cant": "the code never checks a last relaxation; violated", "anchors": ["src/libkiter/models/EventGraph.h:computeStartingTimeWithOmega"]}
{"id": "C27", "title": "K-periodic constraints are sound", "statement": "If start times and a period satisfy all constraints generated for a channel, then in the infinite K-periodic schedule each consumption of the channel happens only after enough tokens have been produced: the channel never goes negative.", "quantifier": "all CSDF channels (phases, rates, initial tokens), all K vectors, all schedules, all executions in the infinite schedule", "why_tests_cant": "infinite executions; alpha_min/alpha_max boundary arithmetic decides which pairs matter", "anchors": ["src/libkiter/algorithms/throughput/kperiodic.cpp:generateKPeriodicConstraint"]}
{"id": "C28", "title": "K-periodic constraints are necessary", "statement": "Every K-periodic schedule in which the channel never goes negative satisfies every generated constraint, so no feasible K-periodic schedule is excluded.", "quantifier": "all CSDF channels, K vectors and feasible K-periodic schedules", "why_tests_cant": "quantifies over all schedules; over-constraining is invisible to tests that only check validity", "anchors": ["src/libkiter/algorithms/throughput/kperiodic.cpp:generateKPeriodicConstraint"]}
{"id": "C29", "title": "Optimised and reference constraint code agree", "statement": "The optimised computation of the constraint bounds by truncated remainders gives the same bounds as the NOT_OPTIMIZED one, and skipping early (STRONGLY_OPTIMIZED) drops no constraint that would be added.", "quantifier": "all integer operands, positive gcd", "why_tests_cant": "sign cases of C++ %; unbounded", "anchors": ["src/libkiter/algorithms/throughput/kperiodic.cpp:generateKPeriodicConstraint"]}
{"id": "C30", "title": "Task executions are serialised", "statement": "With a positive reentrancy factor, any start times satisfying the self-loop constraints of a task make each execution start no earlier than the end of the previous one, throughout the infinite K-periodic schedule.", "quantifier": "all phase counts, durations, K, periods and executions", "why_tests_cant": "infinite schedule; wrap-around between periods", "anchors": ["src/libkiter/algorithms/throughput/kperiodic.cpp:generateKperiodicSelfloop"]}
{"id": "C31", "title": "K-vector update keeps every K a divisor of the repetition factor", "statement": "updateVectorWithLocalNi never trips its own assertions, never decreases a K (each new K is a multiple of the old), and keeps K_t dividing N_t/phases(t); tasks off the critical circuit are untouched; the result does not depend on the iteration order of the critical edges.", "quantifier": "all graphs with a repetition vector, all K vectors dividing it, all critical edge sets in all orders", "why_tests_cant": "number-theoretic fact over unbounded naturals and arbitrary circuits", "anchors": ["src/libkiter/algorithms/throughput/kperiodic.cpp:updateVectorWithLocalNi"]}
{"id": "C32", "title": "K-Iter terminates", "statement": "The iterative K-periodic throughput computation stops after finitely many rounds whatever critical circuits the cycle-ratio solver reports.", "quantifier": "all graphs with repetition vector, all solver answers", "why_tests_cant": "quantifies over an unbounded adversarial sequence of circuits", "anchors": ["src/libkiter/algorithms/throughput/kperiodic.cpp:compute_Kperiodic_throughput,updateVectorWithLocalNi"]}
{"id": "C33", "title": "Refining K never loses throughput", "statement": "If the constraints for K are satisfiable with period omega then so are the constraints for any K' of which K is a componentwise divisor.", "quantifier": "all graphs, all K | K', all periods", "why_tests_cant": "relates two families of constraint systems of unbounded size", "anchors": ["src/libkiter/algorithms/throughput/kperiodic.cpp:generateKPeriodicEventGraph"]}
{"id": "C34", "title": "sameset compares critical circuits as sets", "statement": "sameset(g,a,b) is true exactly when a and b contain the same channels, regardless of insertion order.", "quantifier": "all pairs of channel sets", "why_tests_cant": "unbounded sets", "anchors": ["src/libkiter/algorithms/throughput/kperiodic.cpp:sameset"]}
{"id": "C35", "title": "Incremental event graph update equals regeneration", "statement": "After updateEventGraph the event graph contains exactly the constraints that generateKPeriodicEventGraph would produce from scratch for the updated K vector.", "quantifier": "all graphs, K vectors, critical circuits and channel orders", "why_tests_cant": "depends on which edges were deleted and re-added for each circuit shape", "anchors": ["src/libkiter/algorithms/throughput/kperiodic.cpp:updateEventGraph,generateKPeriodicEventGraph"]}
{"id": "C36", "title": "Self-timed execution conserves tokens", "statement": "At every moment of the simulation the tokens on a channel equal initial tokens plus tokens of completed productions minus tokens of started consumptions, and are never negative.", "quantifier": "every graph and every reachable simulation state", "why_tests_cant": "unbounded executions", "anchors": ["src/libkiter/algorithms/throughput/actor.cpp:isReadyForExec,execStart,execEnd", "src/libkiter/algorithms/throughput/state.cpp:State"]}
{"id": "C37", "title": "Bounded simulation respects buffer capacities", "statement": "With a storage distribution, on every reachable state tokens plus reserved space never exceed the channel capacity and free space is never negative.", "quantifier": "every graph, distribution and reachable state", "why_tests_cant": "unbounded executions", "anchors": ["src/libkiter/algorithms/throughput/actor.cpp:isReadyForExec,execStart,execEnd", "src/libkiter/algorithms/throughput/state.cpp:State::State"]}
{"id": "C38", "title": "Simulated time advances correctly", "statement": "advanceTime never moves time backward, never lets a running execution's remaining time become negative, ends at least one execution, and reports deadlock exactly when nothing is running.", "quantifier": "every reachable simulation state", "why_tests_cant": "unbounded executions", "anchors": ["src/libkiter/algorithms/throughput/state.cpp:State::advanceTime"]}
{"id": "C39", "title": "A recurrent state proves periodicity", "statement": "If the simulation revisits a state, everything from the first visit repeats forever with the same duration, so the reported throughput (iterations over elapsed time between visits) is the long-run rate.", "quantifier": "every graph and simulation run", "why_tests_cant": "statement about infinite runs", "anchors": ["src/libkiter/algorithms/throughput/symbolic_execution.cpp:computeComponentThroughput", "src/libkiter/algorithms/throughput/state.cpp:StateList::addState,computeThroughput"]}
{"id": "C40", "title": "A storage distribution's size is the sum of its channel quantities", "statement": "After any sequence of setChannelQuantity calls getDistributionSize equals the sum of all channel quantities (each multiplied by nothing else), and reading a channel returns the last value set.", "quantifier": "every finite history of calls", "why_tests_cant": "unbounded histories with incremental size update", "anchors": ["src/libkiter/algorithms/dse/buffer_sizing.cpp:StorageDistribution::setChannelQuantity"]}
{"id": "C41", "title": "Set of storage distributions is indexed by size without duplicates", "statement": "After any sequence of add/remove operations every stored distribution sits under its own size, none is stored twice, no empty bucket remains, and the next distribution handed out has the least size.", "quantifier": "every finite history of set operations", "why_tests_cant": "unbounded histories", "anchors": ["src/libkiter/algorithms/dse/buffer_sizing.cpp:StorageDistributionSet::addStorageDistribution,removeStorageDistribution,getNextDistribution"]}
{"id": "C42", "title": "Infeasible frontier is a maximal antichain covering all infeasible points", "statement": "After any sequence of addToUnsat calls, no stored point dominates another, and a point is reported infeasible by unsatContains exactly when it is componentwise below some point ever added.", "quantifier": "every finite sequence of points", "why_tests_cant": "unbounded sequences and dimensions", "anchors": ["src/libkiter/algorithms/dse/buffer_sizing.cpp:addToUnsat,unsatContains"]}
{"id": "C43", "title": "Feasible frontier contains only minimal points", "statement": "After any sequence of addToSat calls, satContains answers exactly the upward closure of the points added and no stored point dominates another.", "quantifier": "every finite sequence of points", "why_tests_cant": "the removal test is wrong only when a smaller point arrives later (minimality violated by the code; closure holds)", "anchors": ["src/libkiter/algorithms/dse/buffer_sizing.cpp:addToSat,satContains"]}
{"id": "C44", "title": "Knee points never hide a candidate", "statement": "After adding infeasible points, every distribution not below an infeasible point lies above some knee point, so the monotonic search never discards a feasible distribution.", "quantifier": "every sequence of infeasible points in any dimension", "why_tests_cant": "geometric coverage over all points", "anchors": ["src/libkiter/algorithms/dse/buffer_sizing.cpp:add,addToExtensions"]}
{"id": "C45", "title": "Minimal common distribution is the componentwise minimum", "statement": "makeMinimalSD(a,b) is the greatest distribution below both a and b, with the size of the sum.", "quantifier": "all pairs of distributions over the same channels", "why_tests_cant": "unbounded", "anchors": ["src/libkiter/algorithms/dse/buffer_sizing.cpp:makeMinimalSD"]}
{"id": "C46", "title": "Back-cone query is defined and exact", "statement": "isInBackCone(d) is true exactly when d is componentwise below-or-equal to, and different from, some member of the set.", "quantifier": "all sets and distributions", "why_tests_cant": "the result variable is read uninitialised on some inputs (undefined behaviour)", "anchors": ["src/libkiter/algorithms/dse/buffer_sizing.cpp:isInBackCone,isInForeCone"]}
{"id": "C47", "title": "Buffer step size divides every rate", "statement": "findMinimumStepSz gives for each channel the gcd of all its rates: the reachable token counts from the initial tokens move only in multiples of it.", "quantifier": "all channels and executions", "why_tests_cant": "unbounded", "anchors": ["src/libkiter/algorithms/dse/buffer_sizing.cpp:findMinimumStepSz"]}
{"id": "C48", "title": "Feedback channel models a bounded buffer", "statement": "Adding the reverse channel with swapped rates and capacity minus initial tokens makes an execution admissible exactly when it is admissible in the original graph and never exceeds the capacity.", "quantifier": "all firing sequences, rates and capacities", "why_tests_cant": "quantifies over all executions", "anchors": ["src/libkiter/algorithms/dse/dse.cpp"]}
{"id": "C49", "title": "Mesh NoC has unique identifiers and is symmetric", "statement": "NoC generation gives distinct node ids and distinct edge ids, every link exists in both directions, each core is linked to its own router only.", "quantifier": "all mesh dimensions", "why_tests_cant": "unbounded dimensions; id arithmetic", "anchors": ["src/libkiter/models/NoC.cpp:NoC::generate"]}
{"id": "C50", "title": "XY routing delivers along a shortest mesh path", "statement": "For tasks mapped on cores, the computed route is a connected path from the source core to the destination core, moving first in X then in Y, of length |dx|+|dy|+2.", "quantifier": "all mesh sizes and core pairs", "why_tests_cant": "unbounded mesh sizes", "anchors": ["src/libkiter/algorithms/mapping/xyRouting.cpp", "src/libkiter/models/NoC.cpp"]}
{"id": "C51", "title": "Modulo mapping places tasks on cores", "statement": "moduloMapping assigns each task to a core of the NoC.", "quantifier": "all graphs and NoC sizes", "why_tests_cant": "the code yields router ids (violated)", "anchors": ["src/libkiter/algorithms/mapping/moduloMapping.cpp"]}
{"id": "C52", "title": "TDMA distance is the mesh distance", "statement": "getDistance(src,dst,rows,cols) is the number of routers on a shortest path between two routers of a mesh with that many rows and columns.", "quantifier": "all meshes and node pairs", "why_tests_cant": "square meshes pass; violated on non-square ones", "anchors": ["src/libkiter/algorithms/scheduling/TDMAScheduler.cpp:getDistance"]}
{"id": "C53", "title": "GroupList maintains connected components", "statement": "After any sequence of add(l,r,v) calls, l and r are in the same group exactly when connected by added pairs.", "quantifier": "every finite sequence of calls", "why_tests_cant": "unbounded histories, relabelling", "anchors": ["src/libkiter/commons/GroupList.h:GroupList::add,getall"]}
{"id": "C54", "title": "GroupList keeps every value", "statement": "Each value ever added is present in the group of its pair.", "quantifier": "every finite sequence of calls", "why_tests_cant": "violated when a call joins two existing groups", "anchors": ["src/libkiter/commons/GroupList.h:GroupList::add,getall"]}
{"id": "C55", "title": "K-Iter reports the maximum throughput", "statement": "When the cycle-ratio solver answers exactly, the throughput reported by compute_Kperiodic_throughput is the maximum over all schedules: if positive, a valid K-periodic schedule of that throughput exists and no valid schedule, periodic or not, has a shorter average iteration time; if not positive, no valid schedule sustains any throughput.", "quantifier": "every consistent CSDF graph without initial phases and with positive reentrancy factors, every solver and set iteration order, all schedules of the infinite execution", "why_tests_cant": "ranges over all infinite schedules, including non-periodic ones, and over all graphs", "anchors": ["src/libkiter/algorithms/throughput/kperiodic.cpp:compute_Kperiodic_throughput,updateEventGraph,updateVectorWithLocalNi"]}
{"id": "C56", "title": "Minimum channel size is the least that keeps the channel running", "statement": "findMinimumChannelSz returns the least capacity, holding the initial tokens, with which producer and consumer of the channel can go on firing forever.", "quantifier": "all channels, rates, initial tokens and firing sequences", "why_tests_cant": "quantifies over all infinite executions; correct only for one rate on each side", "anchors": ["src/libkiter/algorithms/dse/buffer_sizing.cpp:findMinimumChannelSz"]}
{"id": "C57", "title": "The feasible set keeps exactly the minimal feasible points", "statement": "After any sequence of updateFeasibleSet calls the set holds exactly the minimal ones of the points ever given.", "quantifier": "every finite sequence of points over the same channels", "why_tests_cant": "unbounded histories and dimensions", "anchors": ["src/libkiter/algorithms/dse/buffer_sizing.cpp:StorageDistributionSet::updateFeasibleSet"]}
{"id": "C58", "title": "Updating the infeasible set is defined", "statement": "updateInfeasibleSet returns normally on every set and point.", "quantifier": "all sets and points", "why_tests_cant": "an uninitialised local is read when the first stored point is compared with itself: only some compilers and inputs show it", "anchors": ["src/libkiter/algorithms/dse/buffer_sizing.cpp:StorageDistributionSet::updateInfeasibleSet"]}
{"id": "C59", "title": "The exploration returns the Pareto frontier", "statement": "When the storage exploration answers, answers of larger size have strictly larger throughput, each was evaluated (or is the all-zero distribution of throughput zero), and every distribution reachable by steps from the initial one is matched by an answer at most as large and at least as fast, or that reaches the target.", "quantifier": "all graphs, step sizes, initial distributions and targets, and every evaluation whose critical feedback channels are the only ones that limit it", "why_tests_cant": "ranges over all distributions of an infinite grid", "anchors": ["src/libkiter/algorithms/dse/dse.cpp:compute_csdf_dse", "src/libkiter/algorithms/dse/buffer_sizing.cpp:minimizeStorageDistributions,isSearchComplete"]}
{"id": "C60", "title": "The exploration ends with a result", "statement": "The storage exploration ends, without undefined behaviour, whenever the target throughput can be reached and is not exceeded.", "quantifier": "all graphs, step sizes, initial distributions and targets", "why_tests_cant": "unbounded search; a zero target dereferences an empty set", "anchors": ["src/libkiter/algorithms/dse/dse.cpp:compute_csdf_dse", "src/libkiter/algorithms/dse/buffer_sizing.cpp:getNextDistribution,isSearchComplete"]}
{"id": "C61", "title": "Random mapping places every task on a core", "statement": "randomMapping assigns a core of the NoC whatever the random number drawn, and any core can be drawn.", "quantifier": "all mesh sizes and random numbers", "why_tests_cant": "unbounded sizes and random draws", "anchors": ["src/libkiter/algorithms/mapping/randomMapping.cpp"]}
{"id": "C62", "title": "Random routes are shortest paths and end", "statement": "Between two cores randomRouting has no undefined behaviour; if it ends the route is a chain of links of length |dx|+|dy|+2 from one core to the other, and it ends once each direction has been drawn often enough.", "quantifier": "all mesh sizes, core pairs and sequences of random draws", "why_tests_cant": "all sequences of random choices", "anchors": ["src/libkiter/algorithms/mapping/randomRouting.cpp", "src/libkiter/models/NoC.h"]}
{"id": "C63", "title": "The created mesh has a core for every task", "statement": "createNoC builds the smallest square mesh of side at least two with at least as many cores as tasks.", "quantifier": "all graphs", "why_tests_cant": "unbounded task counts", "anchors": ["src/libkiter/algorithms/mapping/createNoC.cpp"]}
{"id": "C64", "title": "The TDMA wait is the time to the next slot", "statement": "findEventCycle(cur, mine, total) is the least number of slots to wait at slot cur until slot mine of a wheel of total slots.", "quantifier": "all slots and wheel sizes", "why_tests_cant": "unbounded", "anchors": ["src/libkiter/algorithms/scheduling/TDMAScheduler.cpp:findEventCycle"]}
{"id": "C65", "title": "Self-timed execution is as soon as possible", "statement": "No schedule that respects the channels, the buffer capacities and the order of each task's executions, starting at time 0 or later, starts any execution earlier than the simulation does.", "quantifier": "all graphs, capacities, reachable simulation states and valid schedules", "why_tests_cant": "quantifies over all schedules", "anchors": ["src/libkiter/algorithms/throughput/symbolic_execution.cpp:computeComponentThroughput", "src/libkiter/algorithms/throughput/actor.cpp"]}
{"id": "C66", "title": "A deadlock reported by the simulation is real", "statement": "If computeComponentThroughput answers that the component deadlocks, the graph has no valid schedule with these capacities.", "quantifier": "all graphs and capacities", "why_tests_cant": "quantifies over all schedules", "anchors": ["src/libkiter/algorithms/throughput/symbolic_execution.cpp:computeComponentThroughput", "src/libkiter/algorithms/throughput/state.cpp:State::advanceTime"]}
{"id": "C67", "title": "The simulated throughput is achieved and maximal", "statement": "If computeComponentThroughput answers a throughput, a valid schedule respecting the capacities keeps that rate for ever and none keeps a better one.", "quantifier": "all connected graphs, capacities and schedules", "why_tests_cant": "quantifies over all infinite schedules", "anchors": ["src/libkiter/algorithms/throughput/symbolic_execution.cpp:computeComponentThroughput", "src/libkiter/algorithms/throughput/state.cpp:StateList::computeThroughput"]}
{"id": "C68", "title": "Symbolic execution and K-Iter agree", "statement": "On the same graph without capacities, the throughput reported by computeComponentThroughput equals the throughput reported by K-Iter, and a deadlock there is no positive throughput here.", "quantifier": "all connected graphs on which both end", "why_tests_cant": "two unbounded algorithms on all graphs", "anchors": ["src/libkiter/algorithms/throughput/symbolic_execution.cpp:computeComponentThroughput", "src/libkiter/algorithms/throughput/kperiodic.cpp:KPeriodicThroughput"]}
{"id": "C69", "title": "The simulation ends", "statement": "On a strongly connected graph, or a connected graph with buffer capacities, computeComponentThroughput ends with a deadlock or a throughput.", "quantifier": "all such graphs and capacities", "why_tests_cant": "termination on all inputs", "anchors": ["src/libkiter/algorithms/throughput/symbolic_execution.cpp:computeComponentThroughput"]}
{"id": "C70", "title": "The simulated throughput of any graph is achieved and maximal", "statement": "compute_asap_throughput, on any consistent graph, strongly connected or not, answers 0 only if no schedule of the whole graph exists, and otherwise a throughput that some schedule of the whole graph keeps for ever and none exceeds; it always answers, its answer does not depend on how long it runs, and it agrees with K-Iter.", "quantifier": "all graphs, all decompositions into strongly connected components, all infinite schedules of the whole graph", "why_tests_cant": "composes unbounded executions of an unbounded number of components", "anchors": ["src/libkiter/algorithms/throughput/symbolic_execution.cpp:compute_asap_throughput", "src/libkiter/algorithms/throughput/symbolic_execution.cpp:generateSCCs", "src/libkiter/models/Dataflow.h:getVertexTotalDuration"]}
{"id": "C71", "title": "The cycle ratio solver returns the best ratio over all circuits", "statement": "minimum_cycle_ratio and maximum_cycle_ratio always answer on a graph whose arcs have positive times; the critical cycle they return is a circuit with the ratio they return; and when they stop because nothing improves no circuit has a better ratio (up to 100 times the tolerance per arc; exactly, and attained, with exact comparisons).", "quantifier": "all finite graphs with two weights per arc, all tolerances, all starting bounds, all circuits", "why_tests_cant": "the number of circuits is exponential and policy iteration is unbounded in the graph", "anchors": ["src/libkiter/commons/howard_cycle_ratio.hpp:mcr_howard", "src/libkiter/models/EventGraph.h:MinCycleRatio", "src/libkiter/models/EventGraph.h:MaxCycleRatio"]}
{"id": "C72", "title": "K-Iter running on its own cycle ratio solver is optimal", "statement": "When K-Iter stops on an event graph its solver settled on, the throughput it reports is kept for ever by some valid schedule and exceeded by none; the solver answers on every event graph K-Iter builds.", "quantifier": "all consistent graphs with positive durations and at least two events, all infinite valid schedules", "why_tests_cant": "composes two unbounded iterations and quantifies over infinite schedules", "anchors": ["src/libkiter/algorithms/throughput/kperiodic.cpp:KSchedule", "src/libkiter/algorithms/throughput/kperiodic.cpp:compute_Kperiodic_throughput", "src/libkiter/commons/howard_cycle_ratio.hpp:mcr_howard"]}
{"id": "C73", "title": "The strictly periodic constraints are exactly those of a strictly periodic schedule", "statement": "Start times (one per task) and a period meet the constraints of the strictly periodic event graph if and only if the schedule that starts each task at that time and then at a fixed interval never takes a missing token and never overlaps two executions of a task; such a schedule exists iff no circuit exceeds the period; the schedule handed out is one when there is one.", "quantifier": "all consistent CSDF graphs without initial phases, all periods, all start times, all instants", "why_tests_cant": "the schedule is infinite and the constraints summarise all pairs of executions of all channels", "anchors": ["src/libkiter/algorithms/throughput/csdf_strictly_periodic.cpp:generate_csdf_strictly_periodic_event_graph", "src/libkiter/algorithms/scheduling/CSDF_SPeriodicScheduling.cpp:CSDF_SPeriodicScheduling"]}
{"id": "C74", "title": "The strictly periodic throughput is that of the best strictly periodic schedule", "statement": "compute_SPeriodic_throughput answers on every consistent graph with positive durations; when its solver settles the value is the throughput of the best evenly spaced valid schedule, and is not positive iff there is none; the schedule of CSDF_SPeriodicScheduling then has the best period and is valid.", "quantifier": "all consistent CSDF graphs with positive durations, all evenly spaced infinite schedules", "why_tests_cant": "quantifies over all real-time schedules of all graphs", "anchors": ["src/libkiter/algorithms/throughput/csdf_strictly_periodic.cpp:compute_SPeriodic_throughput", "src/libkiter/algorithms/scheduling/CSDF_SPeriodicScheduling.cpp:CSDF_SPeriodicScheduling"]}
{"id": "C75", "title": "The approximation with the longest phase is safe", "statement": "The constraints of the approximated strictly periodic throughput are those of the graph whose phases all last as long as the longest phase of their task; a schedule that meets them is valid for the graph itself, and the approximate throughput never exceeds the exact one.", "quantifier": "all consistent CSDF graphs, all periods, all start times", "why_tests_cant": "relates two infinite families of schedules", "anchors": ["src/libkiter/algorithms/throughput/csdf_strictly_periodic.cpp:compute_ASPeriodic_throughput", "src/libkiter/algorithms/throughput/csdf_strictly_periodic.cpp:generate_csdf_strictly_periodic_event_graph"]}
{"id": "C76", "title": "Strictly periodic scheduling never beats K-Iter", "statement": "Whenever a valid evenly spaced schedule of period omega exists, the throughput K-Iter reports is positive and at least 1/omega.", "quantifier": "all consistent graphs without self-overlap, all evenly spaced schedules, all runs of K-Iter", "why_tests_cant": "compares the result of an unbounded iteration with every schedule of a family", "anchors": ["src/libkiter/algorithms/throughput/csdf_strictly_periodic.cpp:compute_SPeriodic_throughput", "src/libkiter/algorithms/throughput/kperiodic.cpp:compute_Kperiodic_throughput"]}
{"id": "C77", "title": "The K-periodic schedule handed out is valid and the best there is", "statement": "For every graph that has some schedule keeping some pace, CSDF_KPeriodicScheduling returns a schedule; read as an infinite timetable it never takes a missing token and never overlaps two executions of a task, it keeps the reported period, and no valid schedule, periodic or not, has a smaller one.", "quantifier": "all consistent CSDF graphs without initial phases or self-overlap, all infinite valid schedules", "why_tests_cant": "the schedule is infinite and is compared with every other infinite schedule", "anchors": ["src/libkiter/algorithms/scheduling/CSDF_KPeriodicScheduling.cpp:CSDF_KPeriodicScheduling", "src/libkiter/algorithms/throughput/kperiodic.cpp:period2Scheduling"]}
{"id": "C78", "title": "1-periodic scheduling is valid and the best of its kind", "statement": "When a valid 1-periodic schedule exists, CSDF_1PeriodicScheduling returns one with the least period; for any periodicity vector the throughput printed is that of the best schedule that repeats with that vector, and is not positive iff there is none.", "quantifier": "all consistent CSDF graphs without initial phases or self-overlap, all periodicity vectors, all periodic schedules", "why_tests_cant": "ranges over all infinite periodic schedules of all graphs", "anchors": ["src/libkiter/algorithms/scheduling/CSDF_KPeriodicScheduling.cpp:CSDF_1PeriodicScheduling", "src/libkiter/algorithms/scheduling/CSDF_KPeriodicScheduling.cpp:CSDF_1PeriodicThroughput"]}
{"id": "C79", "title": "N-periodic throughput is the maximum and equals that of K-Iter", "statement": "The throughput obtained with the repetition vector as periodicity vector is the maximum over all valid schedules of the graph, periodic or not, and equals the value K-Iter stops with.", "quantifier": "all consistent CSDF graphs without initial phases or self-overlap, all infinite valid schedules, all runs of K-Iter", "why_tests_cant": "relates two different iterations and the set of all schedules", "anchors": ["src/libkiter/algorithms/scheduling/CSDF_KPeriodicScheduling.cpp:CSDF_NPeriodicThroughput", "src/libkiter/algorithms/throughput/kperiodic.cpp:compute_Kperiodic_throughput"]}
{"id": "C80", "title": "Every schedule of a merged graph is a schedule of the original", "statement": "After the Merge transformation replaced a set of tasks by one, every valid infinite schedule of the new graph, read back execution by execution (each execution of the merged task is one execution of one original task, each exactly once, with the same start and duration), is a valid schedule of the original graph: it never takes a missing token there and never overlaps two executions of a task. Assumes that the counts per round, after division by their gcd, are whole numbers of phase patterns (always so for SDF tasks).", "quantifier": "all consistent CSDF graphs, all valid schedules used for the merge, all sets of tasks, all infinite valid schedules of the result", "why_tests_cant": "quantifies over all infinite schedules of the produced graph", "anchors": ["src/libkiter/algorithms/transformation/merging.cpp:mergeCSDFFromSchedule"]}
{"id": "C81", "title": "A merged graph is well formed, consistent, and never promises more throughput", "statement": "The merged graph has matching phase counts and rate lists, positive total rates and a repetition vector that is a multiple of the old one on the tasks that were not merged; its best throughput, counted in the same iterations, is at most that of the original graph. Assumes whole phase patterns as in C80.", "quantifier": "all consistent CSDF graphs, all valid schedules used for the merge, all sets of tasks, all schedules of both graphs", "why_tests_cant": "compares the best throughput over all infinite schedules of two graphs", "anchors": ["src/libkiter/algorithms/transformation/merging.cpp:mergeCSDFFromSchedule"]}
{"id": "C82", "title": "Merging terminates and succeeds", "statement": "The walk along the schedule that looks for the execution order of the merged tasks ends, and the transformation produces a graph, for every periodic valid schedule, in particular the one that it computes for itself on any graph that has a schedule.", "quantifier": "all consistent CSDF graphs, all sets of known distinct tasks without initial phases and with positive durations, all periodic valid schedules", "why_tests_cant": "termination of a search that no bound limits", "anchors": ["src/libkiter/algorithms/transformation/merging.cpp:mergeCSDFFromSchedule", "src/libkiter/algorithms/transformation/merging.cpp:mergeCSDFFromKperiodicSchedule", "src/libkiter/algorithms/transformation/merging.cpp:merge_tasks"]}
{"id": "C83", "title": "Merging keeps a live graph live", "statement": "A schedule of the original graph in which the merged tasks never overlap remains a schedule of the merged graph.", "quantifier": "all consistent CSDF graphs, all periodic valid schedules in which the merged tasks do not overlap", "why_tests_cant": "validity of an infinite schedule, for every graph", "anchors": ["src/libkiter/algorithms/transformation/merging.cpp:mergeCSDFFromSchedule"]}
{"id": "C84", "title": "Writing a graph to an SDF3 file and reading it back preserves it", "statement": "For a graph built by accepted calls, with all rates and durations set and all tasks and channels named, the writer produces a document, and the reader accepts that document and gives the same tasks in the same order (name, phases, durations, initial phases) and the same channels (name, ends, rates, initial rates, tokens, token size). The only differences: a self-loop channel with one token and only unit rates becomes reentrancy factor 1 of its task, any non-zero factor becomes 1, and identifiers are renumbered from 1.", "quantifier": "all histories of accepted calls giving a complete named graph, all rate and duration lists, all printable times, any printing of fractional times that reads back", "why_tests_cant": "round trip over all graphs", "anchors": ["src/libkiter/printers/SDF3Wrapper.cpp:generateSDF3XML", "src/libkiter/printers/SDF3Wrapper.cpp:parseSDF3XML", "src/libkiter/printers/SDF3Wrapper.cpp:wrapSDF3Dataflow"]}
{"id": "C85", "title": "Whatever SDF3 document is accepted, the graph is sound and says what the document says", "statement": "If the reader accepts a document, the graph it returns could have been built by accepted calls of the graph interface, each rate and duration vector has one entry per phase of its task, the tasks are the actor elements in order with distinct non-empty names, the channels are the channel elements in order (name, ends, tokens, token size) except those recognised as reentrancy loops, and a task has reentrancy 1 exactly when a channel was recognised as its loop; a channel is so recognised only if it joins a task to itself, has one token and both its ports carry only ones.", "quantifier": "all XML trees", "why_tests_cant": "quantifies over every document", "anchors": ["src/libkiter/printers/SDF3Wrapper.cpp:wrapSDF3Dataflow", "src/libkiter/printers/SDF3Wrapper.cpp:checkReentrancy", "src/libkiter/printers/SDF3Wrapper.cpp:readSDF3VertexTimings", "src/libkiter/printers/SDF3Wrapper.cpp:readSDF3VertexPorts"]}
{"id": "C86", "title": "The rate notation is expanded as documented", "statement": "A rate attribute \"i1,...,in;p1,...,pm\" (or without the initial part), where each item is v or k*v, gives exactly the initial and periodic rates it denotes, k*v standing for k times v.", "quantifier": "all item lists, all numbers of any number of digits", "why_tests_cant": "a parser correct for every text of the grammar", "anchors": ["src/libkiter/printers/SDF3Wrapper.cpp:StringRate2Vectors", "src/libkiter/printers/SDF3Wrapper.cpp:stringlist2tokenlist", "src/libkiter/commons/commons.h:split"]}
{"id": "C87", "title": "The expansion-based (deGroote) throughput is the true maximal throughput", "statement": "For a consistent SDF graph without initial phases whose tasks do not overlap themselves, the value computed by expanding the graph into one event per execution is the throughput of the best valid schedule, periodic or not, and equals the value of K-Iter; a period is accepted by the expanded constraints exactly when some valid schedule repeats an iteration with it; when a circuit of the expansion holds no token no schedule keeps any pace, and on every graph that has a schedule the solver answers.", "quantifier": "all such graphs, all schedules, all periods", "why_tests_cant": "optimality over all schedules, two algorithms agreeing on all graphs", "anchors": ["src/libkiter/algorithms/throughput/degroote.cpp:generate_LCG", "src/libkiter/algorithms/throughput/degroote.cpp:compute_deGroote_throughput", "src/libkiter/models/EventGraph.h:MaxCycleRatio"]}
{"id": "C88", "title": "Cleaning the expanded graph does not change the throughput", "statement": "The cleaning loop of the deGroote variant always ends, only removes arcs, keeps every circuit, leaves no event with arcs on one side only, and the throughput computed after it is still the maximal throughput.", "quantifier": "all event graphs, all SDF graphs as above", "why_tests_cant": "termination and invariance over all graphs", "anchors": ["src/libkiter/algorithms/throughput/degroote.cpp:clean_LCG", "src/libkiter/algorithms/throughput/degroote.cpp:compute_deGrooteClean_throughput", "src/libkiter/models/EventGraph.h:FullConnectionned"]}
{"id": "C89", "title": "Buffer sizes found for a period are enough for that period", "statement": "For a consistent graph without initial phases whose tasks do not overlap themselves, and any positive period, whenever the solver returns a point of the linear program (relaxed or integer), the total size reported is the storage taken by channel capacities with which a valid schedule of this period exists and no channel ever holds more than its capacity.", "quantifier": "all such graphs, periods and solver answers", "why_tests_cant": "all graphs, all instants of an infinite schedule", "anchors": ["src/libkiter/algorithms/buffersizing/periodic.cpp:periodic_memory_sizing_csdf"]}
{"id": "C90", "title": "The integer program finds the smallest storage over all 1-periodic schedules", "statement": "With an optimal solution of the integer program the reported total is the least storage over all capacities that allow some valid 1-periodic schedule of the period; rounding the relaxed program never reports less; and the program has a solution exactly when the graph has a valid 1-periodic schedule of this period.", "quantifier": "all such graphs, periods, schedules and capacities", "why_tests_cant": "optimality over all schedules and capacities", "anchors": ["src/libkiter/algorithms/buffersizing/periodic.cpp:periodic_memory_sizing_csdf"]}
{"id": "C91", "title": "A sizing result marked valid is a size that works; the command picks a period by itself", "statement": "When no schedule of the requested period exists the sizing answers with an invalid result, and the command run without PERIOD uses the least period.  (Refuted: an infeasible program, and one that is only generated, is reported as a valid result of size 0, and the command without PERIOD always stops with an assertion.)", "quantifier": "all graphs and periods", "why_tests_cant": "all infeasible inputs", "anchors": ["src/libkiter/algorithms/buffersizing/periodic.cpp:compute_1periodic_memory", "src/libkiter/algorithms/buffersizing/periodic.cpp:periodic_memory_sizing_csdf"]}
{"id": "C92", "title": "Sizing with fixed start offsets is sound, minimal for these offsets, and reports impossibility", "statement": "Given start offsets with which no task overlaps itself, the result is valid exactly when a valid schedule following these offsets exists within some capacities; its sizes, one per channel, are enough for such a schedule, their sum is the reported total, and with the integer program no smaller storage is.  The burst and the average offsets never make a task overlap itself when its work fits its period.", "quantifier": "all such graphs, offsets, periods and solver answers", "why_tests_cant": "all graphs, all schedules following the offsets", "anchors": ["src/libkiter/algorithms/buffersizing/periodic_fixed.cpp:compute_periodic_fixed_memory", "src/libkiter/algorithms/buffersizing/periodic_fixed.cpp:generateBurstOffsets", "src/libkiter/algorithms/buffersizing/periodic_fixed.cpp:generateAverageOffsets"]}
{"id": "C93", "title": "Strictly periodic buffer sizing is exact", "statement": "The strictly periodic sizing answers with a valid result exactly when evenly spaced executions of this period are possible within some capacities; its sizes are enough for one, and smallest with the integer program.  (Holds when one-phase tasks fit their own period; refuted without this, as the offset generator does not test them.)", "quantifier": "all such graphs, periods and solver answers", "why_tests_cant": "all graphs, all evenly spaced schedules", "anchors": ["src/libkiter/algorithms/buffersizing/periodic_fixed.cpp:generateStrictlyPeriodicOffsets", "src/libkiter/algorithms/buffersizing/periodic_fixed.cpp:speriodic_memory_sizing_csdf"]}
{"id": "C94", "title": "The exploration of throughputs by bisection ends", "statement": "For every positive best throughput and every sizing function that answers for all periods not below the least one, the exploration ends after at most 32767 ranges.  (Refuted for a best throughput of 0, for example two tasks waiting for each other: it then never ends.)", "quantifier": "all sizing functions, all throughputs", "why_tests_cant": "termination for all inputs", "anchors": ["src/libkiter/algorithms/dse/periodic.cpp:compute_csdf_dse_from_function"]}
{"id": "C95", "title": "The points printed by the bisection are real, not dominated, and cover every throughput", "statement": "Every printed point is a period not below the least one together with the size found for it; of two points the larger one is strictly faster; and, when a longer period never needs a larger size, every throughput between one 5000th of the best one and the best one is matched by a printed point that is not larger and less than one 5000th of the best throughput slower.", "quantifier": "all sizing functions, all throughputs, all frequencies", "why_tests_cant": "coverage of a continuum of throughputs", "anchors": ["src/libkiter/algorithms/dse/periodic.cpp:compute_csdf_dse_from_function"]}
{"id": "C96", "title": "The periodic exploration prints the least storage of every throughput it shows, and misses none by more than its granularity", "statement": "For a consistent graph as in C90 with positive durations, with the integer program: every printed point is a period and exactly the least storage with which the graph runs 1-periodically at that period, and whatever capacities allow whatever throughput, some printed point needs no more storage and is less than one 5000th of the best throughput slower.", "quantifier": "all such graphs, capacities, schedules and throughputs", "why_tests_cant": "all schedules and capacities, a continuum of throughputs", "anchors": ["src/libkiter/algorithms/dse/periodic.cpp:compute_csdf_dse_periodic", "src/libkiter/algorithms/dse/periodic.cpp:compute_csdf_dse_from_function", "src/libkiter/algorithms/buffersizing/periodic.cpp:periodic_memory_sizing_csdf"]}
{"id": "C97", "title": "Symbolic execution answers exactly on the live graphs", "statement": "Whenever the symbolic execution of a consistent graph ends, it answers true and some order of executions completes a whole iteration without taking a token that is not there; on a graph whose tasks have a single phase it ends exactly when such an order exists.  (A graph that is not live is never reported: the transformation runs for ever.  Refuted for graphs with phases: it runs for ever on some live graphs.)", "quantifier": "all consistent graphs without initial phases, all numbers of passes", "why_tests_cant": "all graphs, termination", "anchors": ["src/libkiter/algorithms/symbolic_execution.cpp:symbolic_execution"]}
{"id": "C98", "title": "The program order contains each task once and respects the channels without enough initial tokens", "statement": "The order computed by the symbolic execution of the software NoC flow lists each task exactly once, and a channel with fewer initial tokens than one reading has its source before its target; a live graph of single-phase tasks always has such an order.", "quantifier": "all consistent graphs without initial phases", "why_tests_cant": "all graphs, all orders", "anchors": ["src/libkiter/algorithms/software_noc.cpp:symbolic_execution"]}
{"id": "C99", "title": "The packet trace is a numbered acyclic trace with one line per execution and per packet", "statement": "In every trace printed by the symbolic execution with packets, line k has number k and depends only on earlier lines, and two executions of a task are ordered by the dependencies.  On a live graph of single-phase tasks, when the packet size divides every production rate, the trace is printed and has one line per execution and one per packet, for any number of iterations.  (Refuted for durations: a fractional duration is printed without its fraction.)", "quantifier": "all such graphs, packet sizes and iterations", "why_tests_cant": "all graphs and iterations, all pairs of lines", "anchors": ["src/libkiter/algorithms/symbolic_execution.cpp:symbolic_execution_with_packets", "src/libkiter/algorithms/symbolic_execution.cpp:print_packet_line"]}
{"id": "C100", "title": "In the packet trace an execution waits for the packets it consumes", "statement": "A trace is printed only if the packet size divides every production rate (without a packet size, the first production decides), and when each task executes once, an execution waits for every packet sent to its task before it.  (Refuted in general: a task that consumes the tokens of two executions only waits for the second.  Refuted for the default size: announced as unlimited, it never ends when production rates differ.)", "quantifier": "all such graphs, packet sizes and pairs of lines", "why_tests_cant": "all graphs, all pairs of lines", "anchors": ["src/libkiter/algorithms/symbolic_execution.cpp:symbolic_execution_with_packets"]}
{"id": "C101", "title": "Throughput analyses agree on which graphs deadlock", "statement": "For a consistent graph with positive durations, the following are the same: some order of executions completes one iteration; some valid schedule exists; some valid schedule runs for ever at a bounded period; K-Iter reports a positive throughput.  The simulation reports a deadlock only when none of these holds and a throughput only when they do; on graphs of single-phase tasks, symbolic execution ends exactly when K-Iter reports a positive throughput.", "quantifier": "all consistent graphs without initial phases with positive durations, all schedules", "why_tests_cant": "all graphs, all schedules, existence of an infinite schedule", "anchors": ["src/libkiter/algorithms/throughput/kperiodic.cpp:KPeriodic_throughput", "src/libkiter/algorithms/throughput/symbolic_execution.cpp", "src/libkiter/algorithms/symbolic_execution.cpp:symbolic_execution"]}
{"id": "C102", "title": "Random graphs respect the configuration and are consistent", "statement": "Whatever the random draws, a graph drawn by the random generator has numbers of tasks and channels, phases, durations and total rates within the configured bounds, no self-loop when these are forbidden, identifiers 1, 2, ..., and is consistent.  Every configuration with at least one task and one channel, and two tasks when self-loops are forbidden, gives a graph unless the draws name the same task for ever.  The assertions on the configuration also let through zero tasks or channels, which is undefined behaviour.", "quantifier": "all configurations, all streams of random draws", "why_tests_cant": "one seed shows one stream of draws", "anchors": ["src/libkiter/generators/RandomGenerator.cpp:generate", "src/libkiter/generators/RandomGenerator.h:RandomGeneratorConfiguration"]}
{"id": "C103", "title": "The initial marking of random graphs ends and makes them live", "statement": "Starting from any consistent graph without tokens enough, the loop that adds tokens to the first critical channel until the throughput is positive ends; the graph it leaves differs in initial tokens only, holds in each channel at most a bound that depends on the repetition vector, and is live.  A live graph is left as it is; otherwise the last tokens added were needed.  Hence the generator returns, and returns live graphs.", "quantifier": "all consistent graphs without initial phases and with sequential tasks, all exact cycle ratio solvers, all orders of the set of critical channels", "why_tests_cant": "termination of a loop over all graphs", "anchors": ["src/libkiter/generators/RandomGenerator.cpp:set_initial_marking", "src/libkiter/generators/RandomGenerator.cpp:generate"]}
{"id": "C104", "title": "Back-pressure buffer sizes let the graph run at the requested period", "statement": "The sizes reported by the back-pressure sizing are enough: with room in each channel for the reported number of tokens besides the initial ones, the graph has a schedule at the requested period.  This holds of synchronous graphs whose executions fit in their share of the period and whose channels with initial tokens carry at most one token per unit of time.  It fails with several phases per task, with faster channels that hold initial tokens, and for periods shorter than an execution, for which sizes are reported all the same.", "quantifier": "all graphs, all positive periods, all answers of the linear solver that satisfy the program", "why_tests_cant": "the claim is about all schedules, all graphs and all answers of an external solver", "anchors": ["src/libkiter/algorithms/buffersizing/backpressure.cpp:compute_backpressure_memory_sizing"]}
{"id": "C105", "title": "Cycle enumeration lists every elementary cycle exactly once", "statement": "The command that enumerates the elementary cycles of a graph terminates and lists, each exactly once and as the sequence of its tasks from the smallest, all closed routes that visit no task twice (parallel channels giving distinct routes), and nothing else.  This holds of graphs whose tasks are numbered from 1 to their number and that have no channel from a task to itself.  A channel from a task to itself is listed only when its task is the smallest of a longer cycle; cycles are missed after the removal of tasks; a second run in the same process lists everything again.", "quantifier": "all graphs, all starting contents of the process-wide list", "why_tests_cant": "the number of cycles is exponential in the graph and the blocking discipline of the search is only right by an invariant over all search states", "anchors": ["src/libkiter/algorithms/analysis/cycle_detection.cpp:find_simple_cycles, find_simple_cycles_scc, unblock, generate_subgraph, generate_scc, find_smallest_index"]}
{"id": "C106", "title": "Monotonic optimisation loses no small distribution", "statement": "The option that prepares the throughput / storage exploration by a monotonic search ends, and the distributions it hands to the exploration are, for a throughput that grows with storage and critical channels that alone can help, below every distribution reaching the target that is smaller than the best one found.  On a graph with feedback channels it hands over the initial distribution alone, so that it prunes nothing.  The best distribution found is not handed over: when it is the smallest, or when the initial distribution already reaches the target, the list is empty and the exploration dereferences an empty set.", "quantifier": "all graphs, initial distributions, targets, monotone evaluations and lengths of search", "why_tests_cant": "the search visits sets of knees whose evolution depends on every earlier evaluation; the property compares with all distributions", "anchors": ["src/libkiter/algorithms/dse/base_monotonic_optimisation.cpp:select, base_monotonic_optimised_symbexec_throughput_dse", "src/libkiter/algorithms/dse/dse.cpp:B_M_OPT"]}
{"id": "C107", "title": "Storage dependencies, strongly connected search", "statement": "Whatever dependencies between tasks were recorded, the search for storage dependencies made with SYMB_EXEC_CORRECTED ends and returns exactly the channels that lie on a cycle of dependencies, each once.", "quantifier": "all graphs and all sets of dependencies between their tasks", "why_tests_cant": "the cycles of a dependency graph are unboundedly many; a test compares with a few hand-made ones", "anchors": ["src/libkiter/algorithms/dse/abstract_dep_graph.cpp:computeStorageDependenciesSCC, computeDFSStack, dfsTranspose, findStorageDepsFromSCC"]}
{"id": "C108", "title": "Storage dependencies, default search", "statement": "The search for storage dependencies made by default ends, returns only channels that lie on a cycle of dependencies, and returns all the channels of at least one cycle when there is one.  It does not return every channel that lies on a cycle.", "quantifier": "all graphs and all sets of dependencies between their tasks", "why_tests_cant": "the search deletes dependencies while it goes, so that what it returns depends on the order of the tasks", "anchors": ["src/libkiter/algorithms/dse/abstract_dep_graph.cpp:computeStorageDependencies, computeCycles"]}
{"id": "C109", "title": "Deadlock blames the right channels", "statement": "When the self-timed execution with given buffer sizes deadlocks, the critical channels it reports are to blame: no buffer sizes that leave all of these as they are admit an endless schedule, however large the other buffers.", "quantifier": "all graphs with positive durations, all buffer sizes, both search modes", "why_tests_cant": "it quantifies over all other buffer sizes and all schedules", "anchors": ["src/libkiter/algorithms/throughput/symbolic_execution.cpp:computeComponentThroughputCycles, computeDeadlockStorageDeps", "src/libkiter/algorithms/dse/abstract_dep_graph.cpp"]}
{"id": "C110", "title": "A slow period blames the right channels", "statement": "When the self-timed execution with given buffer sizes settles on a throughput, the critical channels it reports with SYMB_EXEC_CORRECTED are to blame: with buffer sizes that leave all of these as they are, however large the others, no schedule has a higher throughput and the execution does not report one.  Without that option it reports too few channels, and enlarging other ones may raise the throughput.", "quantifier": "all connected graphs with positive durations, all buffer sizes", "why_tests_cant": "it quantifies over all other buffer sizes and all schedules", "anchors": ["src/libkiter/algorithms/throughput/symbolic_execution.cpp:computeComponentThroughputCycles, computePeriodicStorageDeps", "src/libkiter/algorithms/throughput/actor.cpp:computeCausalDeps", "src/libkiter/algorithms/dse/abstract_dep_graph.cpp"]}
{"id": "C111", "title": "Exploration by self-timed execution finds the true trade-off", "statement": "The exploration of buffer sizes by self-timed execution with SYMB_EXEC_CORRECTED gives the trade-off between storage and throughput of the graph itself: every evaluation answers; the throughput of each answer is that of the best schedule within its buffer sizes; larger answers are strictly faster; and no schedule within any buffer sizes explored from the initial ones beats the answers that are no larger, short of the target.  By default it may stop below the target although larger buffers reach it.", "quantifier": "all connected graphs with positive durations, initial buffer sizes, steps and targets", "why_tests_cant": "it quantifies over all buffer sizes and all schedules within them", "anchors": ["src/libkiter/algorithms/dse/dse.cpp:explore", "src/libkiter/algorithms/throughput/symbolic_execution.cpp:computeComponentThroughputCycles, computePeriodicStorageDeps", "src/libkiter/algorithms/dse/abstract_dep_graph.cpp"]}
{"id": "C112", "title": "Finite buffers lose no throughput", "statement": "Whatever schedule a graph has with unbounded channels, there is a buffer size such that, with that size or more for every channel, the graph has a schedule that keeps the same pace.", "quantifier": "all graphs with a repetition vector, all schedules and their paces", "why_tests_cant": "it quantifies over all schedules, whose channels may grow for ever, and all larger buffer sizes", "anchors": ["src/libkiter/algorithms/dse/dse.cpp:explore", "src/libkiter/models/Dataflow.h"]}
{"id": "C113", "title": "The exploration to the throughput of the graph is complete", "statement": "With the target set by default, the throughput of the graph with unbounded channels, the exploration by self-timed execution with SYMB_EXEC_CORRECTED ends; one of its answers has that throughput; each answer has exactly the throughput its buffer sizes allow; and no schedule within any buffer sizes explored from the initial ones beats the answers that are no larger.", "quantifier": "all connected graphs with positive durations, all initial buffer sizes and steps", "why_tests_cant": "termination is not testable, and the claim quantifies over all buffer sizes and all schedules within them", "anchors": ["src/libkiter/algorithms/dse/dse.cpp:explore", "src/libkiter/algorithms/throughput/symbolic_execution.cpp:compute_asap_throughput, computeComponentThroughputCycles", "src/libkiter/algorithms/dse/abstract_dep_graph.cpp"]}
{"id": "C114", "title": "The critical channels K-Iter reports are to blame", "statement": "When K-Iter answers a throughput with a set of critical channels, no change to the other channels - more initial tokens, or their removal - makes any schedule faster than that throughput, as long as the critical channels hold no more tokens than they did. When the throughput is not positive, the graph stays without a schedule.", "quantifier": "all graphs, all graphs that differ from them outside the critical channels, all schedules of those", "why_tests_cant": "it quantifies over all modifications of the graph and over all schedules of the result", "anchors": ["src/libkiter/algorithms/dse/kperiodic.cpp:compute_Kperiodic_throughput_and_cycles", "src/libkiter/algorithms/throughput/kperiodic.cpp:compute_Kperiodic_throughput, updateEventGraph, sameset"]}
{"id": "C115", "title": "The exploration by K-Iter finds the true trade-off", "statement": "When the exploration of buffer sizes evaluated by K-Iter answers, larger answers have strictly more throughput; each answer of positive throughput has a schedule at that throughput within its buffer sizes and none faster; each answer of throughput zero has no schedule (or is the all-zero distribution); and no schedule within any buffer sizes explored from the initial ones is faster than an answer no larger, unless the target is reached with less.", "quantifier": "all graphs, all initial buffer sizes and steps, all targets, all schedules within all buffer sizes", "why_tests_cant": "it quantifies over infinitely many buffer sizes and over all schedules within them", "anchors": ["src/libkiter/algorithms/dse/dse.cpp:explore", "src/libkiter/algorithms/dse/kperiodic.cpp:compute_Kperiodic_throughput_and_cycles", "src/libkiter/algorithms/dse/buffer_sizing.cpp"]}
{"id": "C116", "title": "The exploration by K-Iter to the throughput of the graph is complete", "statement": "With the target set by default, the throughput K-Iter answers for the graph with unbounded channels, the exploration evaluated by K-Iter ends, one of its answers has that throughput, and its answers are the true trade-off.", "quantifier": "all graphs of positive throughput, all initial buffer sizes and steps", "why_tests_cant": "termination is not testable, and the claim quantifies over all buffer sizes and all schedules within them", "anchors": ["src/libkiter/algorithms/dse/dse.cpp:explore", "src/libkiter/algorithms/dse/kperiodic.cpp:compute_Kperiodic_throughput_and_cycles", "src/libkiter/algorithms/dse/buffer_sizing.cpp"]}
{"id": "C117", "title": "The exploration by K-Iter ends whatever the target", "statement": "The exploration of buffer sizes evaluated by K-Iter ends for every positive target throughput the user gives, whether or not some buffer sizes have exactly that throughput, and its answers are the true trade-off up to the target.", "quantifier": "all graphs, all initial buffer sizes and steps, all positive targets", "why_tests_cant": "termination is not testable, and the claim quantifies over all buffer sizes and all schedules within them", "anchors": ["src/libkiter/algorithms/dse/dse.cpp:explore", "src/libkiter/algorithms/dse/kperiodic.cpp:compute_Kperiodic_throughput_and_cycles", "src/libkiter/algorithms/dse/buffer_sizing.cpp:isSearchComplete"]}
{"id": "C118", "title": "The two exploration modes agree", "statement": "From the same initial buffer sizes and steps, with the target set by default, the exploration of buffer sizes evaluated by self-timed execution (SYMB_EXEC_CORRECTED) and the one evaluated by K-Iter find the same trade-off: each answer of positive throughput of one has an answer of the same total size and the same throughput in the other.", "quantifier": "all graphs both modes accept, all initial buffer sizes and steps", "why_tests_cant": "two unrelated analyses have to agree on every graph and every buffer size", "anchors": ["src/libkiter/algorithms/dse/dse.cpp:explore", "src/libkiter/algorithms/dse/kperiodic.cpp:compute_Kperiodic_throughput_and_cycles", "src/libkiter/algorithms/throughput/symbolic_execution.cpp:compute_asap_throughput_and_cycles"]}
{"id": "C119", "title": "The throughput announced by K-Iter is reached when tasks may overlap themselves", "statement": "When some tasks have reentrancy factor 0, so that they may start again before they have finished (the default of tasks read from SDF3 files), the throughput that K-Iter announces is the throughput of some schedule in which no channel goes negative and only the tasks of positive factor are serialised, and the other throughput engine announces the same one.", "quantifier": "all consistent graphs, all reentrancy factors", "why_tests_cant": "overlap only matters for graphs whose tasks are unfolded by the iteration; the failure is a constraint that is missing on some graphs only", "anchors": ["src/libkiter/algorithms/throughput/kperiodic.cpp:generateKperiodicSelfloop", "src/libkiter/algorithms/throughput/kperiodic.cpp:compute_Kperiodic_throughput", "src/libkiter/printers/SDF3Wrapper.cpp:wrapSDF3Dataflow", "src/libkiter/algorithms/throughput/symbolic_execution.cpp:compute_asap_throughput"]}
{"id": "C120", "title": "Modelling the network communications keeps the repetition vector", "statement": "ModelNoCConflictFreeCommunication replaces every routed channel by a chain of tasks, one per link of its route and one per router in between. The tasks of the application come first, unchanged; every link of every route has its task, in order; the new graph is well formed, and a repetition vector of the application extends to one of the new graph, and only those. Single-phase graphs whose channels are routed are always accepted.", "quantifier": "all single-phase graphs, all routes, all channel types", "why_tests_cant": "the routes, the rates and the channel identifiers interact (new channels get identifiers while the old ones are being removed), so a few mapped graphs say nothing about the others", "anchors": ["src/libkiter/algorithms/mapping/modelCommunications.cpp:ModelNoCConflictFreeCommunication", "src/libkiter/algorithms/mapping/modelCommunications.cpp:addPathNode"]}
{"id": "C121", "title": "Modelling the network communications only delays tokens", "statement": "Every valid schedule of the graph with modelled communications is, on the application tasks, a valid schedule of the application in which each token reaches its consumer at least one time unit per crossed link after it was produced. Hence K-Iter never announces a higher throughput for the new graph than for the application.", "quantifier": "all graphs, all routes, all schedules, all exact solvers", "why_tests_cant": "the claim ranges over all schedules, most of which no execution visits", "anchors": ["src/libkiter/algorithms/mapping/modelCommunications.cpp:ModelNoCConflictFreeCommunication", "src/libkiter/algorithms/mapping/modelCommunications.cpp:addPathNode"]}
{"id": "C122", "title": "Modelling the network communications neither adds nor hides a deadlock", "statement": "The graph with modelled communications can execute an iteration exactly when the application can.", "quantifier": "all graphs, all routes, all orders of execution", "why_tests_cant": "deadlock depends on every order of execution of graphs of any size", "anchors": ["src/libkiter/algorithms/mapping/modelCommunications.cpp:ModelNoCConflictFreeCommunication", "src/libkiter/algorithms/mapping/modelCommunications.cpp:addPathNode"]}
{"id": "C123", "title": "The schedule check accepts the valid schedules and only those", "statement": "is_valid_schedule executes a schedule (some starts given one by one, then starts that repeat with a period) and says whether some channel goes negative. For single-phase tasks that take time it accepts every valid schedule; if moreover only one task starts at time 0, no task overlaps itself and all tasks make their executions of an iteration in the same time, it always answers, and it answers yes exactly when the whole infinite schedule is valid.", "quantifier": "all single-phase graphs with at least two tasks, all repetition counts, all descriptions of schedules, all orders of the task map", "why_tests_cant": "the check runs a finite prefix, whose length depends on the schedule; that the prefix decides the infinite schedule is a statement about all of them", "anchors": ["src/libkiter/models/Scheduling.cpp: Scheduling::is_valid_schedule (276-474)", "src/libkiter/models/Scheduling.h: is_valid_schedule, task_schedule_t", "src/libkiter/algorithms/throughput/so4_noc.cpp: the printed Schedule Check (333)"]}
{"id": "C124", "title": "The path found between two cores has fewest links", "statement": "findPathDijkstra returns, whenever the destination can be reached, a path of existing links from one core to the other such that no path has fewer links and no path with as few links arrives through a less used link. On every mesh the tool generates, with the counts it keeps, this holds from every core but the last.", "quantifier": "all networks, all counts of link uses, all pairs of cores; all mesh sizes", "why_tests_cant": "the search has a loop per vertex and a loop per neighbour; only a proof covers all networks and all counts", "anchors": ["src/libkiter/models/NoCGraph.cpp: NoCGraph::findPathDijkstra (215-275)", "src/libkiter/models/NoCGraph.h: getMapIndex, clear", "src/libkiter/algorithms/mapping/bufferless_utils/GraphMapper.h: dijkstra_findPaths"]}
{"id": "C125", "title": "The search that avoids loaded links respects the hardware limit", "statement": "findLowContentionPath returns a path with fewest links among the paths whose links all are used at most four times, and the empty path exactly when there is none.", "quantifier": "all networks, all counts of link uses, all pairs of cores", "why_tests_cant": "same search with a filter on the links, over all counts", "anchors": ["src/libkiter/models/NoCGraph.cpp: NoCGraph::findLowContentionPath (284-360)", "src/libkiter/models/NoCGraph.h: getMapIndex, clear"]}
{"id": "C126", "title": "All shortest paths are listed and the least contended is returned", "statement": "generateAllShortestPaths stores for two cores exactly the paths without repeated vertex of at most the computed length, each once; on a square mesh these are exactly the paths with fewest links. getPath returns one of them whose most used link is least used.", "quantifier": "all networks, all counts, all pairs of cores; all square meshes", "why_tests_cant": "the number of paths grows exponentially with the mesh", "anchors": ["src/libkiter/models/NoCGraph.cpp: generateAllShortestPaths, printAllPathsUtil, findLeastCostPath, findPathCost (35-211)", "src/libkiter/models/NoCGraph.h: getPath, getPathLength (48-97)"]}
{"id": "C127", "title": "Recording a route counts exactly the links between its routers", "statement": "Routing between two cores yields the contention of the path found and the identifiers of its links in order, from which the links can be read back; the count of every link between two routers of the path goes up by one and no other count changes.", "quantifier": "all networks, all counts, all pairs of distinct cores; all mesh sizes", "why_tests_cant": "the counts are a vector indexed by pairs of vertices: that no other entry is touched is a statement about all of them", "anchors": ["src/libkiter/algorithms/mapping/bufferless_utils/GraphMapper.h: setmap, dijkstra_findPaths (157-184)", "src/libkiter/models/NoCGraph.h: getMapIndex, getMapIndexPair, clear (75-83)"]}
{"id": "C128", "title": "The expansion graph describes exactly the valid periodic schedules", "statement": "ExpansionGraph::generate builds, for a consistent single-phase graph and any number of executions per period for each task, an event graph that start times satisfy at a given period exactly when the schedule they describe starts the executions of each task in order and never takes from a channel tokens that are not there.", "quantifier": "all consistent single-phase graphs, all numbers of executions per period, all periods, all start times", "why_tests_cant": "validity ranges over infinitely many executions, and the constraints over all pairs of executions of a period", "anchors": ["src/libkiter/algorithms/experiments/ExpansionGraph.cpp: generate, generate_E1_Edges, generate_E2_Edge, generate_E3_Edges", "src/libkiter/algorithms/experiments/expansion_experiment.cpp: generate_expansion", "src/libkiter/models/Dataflow.h: getNormMop, normalizeUnknowValue"]}
{"id": "C129", "title": "Parameters on the command line reach the algorithms they were given for", "statement": "Each algorithm run receives the -p parameters placed between its -a and the -a or -g before it and, for names not among those, the ones placed after the last -a or -g of the line; for a name given twice the last value counts, and the name ends at the first equal sign. A generator receives only those placed between its -g and the -a or -g before it.", "quantifier": "all command lines, all names and values, all registered algorithms and generators", "why_tests_cant": "any number of options in any order", "anchors": ["src/kiter/main.cpp: main (48-177)", "src/libkiter/commons/KiterRegistry.h: KiterRegistry::add, KiterRegistry::get"]}
{"id": "C130", "title": "The command line runs the algorithms asked for, in order, on one graph", "statement": "Without -h the algorithms run are the ones asked for, in order; each works on the graph the previous one left, the first on the graph of the last -f or, without a readable file, of the last -g. The program ends with 0 exactly when all have run, and with 1 at the first unknown name or without a graph; with -h it runs nothing. A name stands for the first function registered under it.", "quantifier": "all command lines, all files, all registered algorithms and generators", "why_tests_cant": "any number of options in any order, any functions", "anchors": ["src/kiter/main.cpp: main (48-177)", "src/libkiter/commons/KiterRegistry.h: KiterRegistry::add, KiterRegistry::get"]}
{"id": "C131", "title": "The placement gives every task a core of its own", "statement": "Placing the tasks of an application on the cores of a network ends; when it succeeds every task is on a core of the network, no two tasks share a core, and a core is taken for each task and no more.", "quantifier": "all networks, all graphs, all orders in which equally urgent tasks leave the queue", "why_tests_cant": "any size of network and graph, any order", "anchors": ["src/libkiter/algorithms/mapping/bufferless_utils/GraphMapper.h: GraphMapper::taskAndNoCMapping, dijkstra_mapping, dijkstra_findPaths", "src/libkiter/algorithms/mapping/BufferlessNoCMapAndRoute.cpp: graphProcessing"]}
{"id": "C132", "title": "The placement routes every channel between the cores of its tasks", "statement": "When the placement succeeds, every channel between two different placed tasks has a route recorded under its source and target, which follows links of the network from the core of the source to the core of the target with as few links as possible; no route is recorded for anything else.", "quantifier": "all networks, all graphs, all orders in which equally urgent tasks leave the queue", "why_tests_cant": "any size of network and graph, any order", "anchors": ["src/libkiter/algorithms/mapping/bufferless_utils/GraphMapper.h: GraphMapper::taskAndNoCMapping, dijkstra_mapping, dijkstra_findPaths", "src/libkiter/algorithms/mapping/BufferlessNoCMapAndRoute.cpp: graphProcessing"]}
{"id": "C133", "title": "Each task is placed where its channels cost least", "statement": "The first task goes to the first core. Each later task goes to the free core where its channels with the tasks already placed cost least: the use of the most used link plus the average length of the paths. Placing it is always possible while a core is free.", "quantifier": "all networks, all graphs, all states of a placement under way", "why_tests_cant": "any size of network and graph, any earlier placement", "anchors": ["src/libkiter/algorithms/mapping/bufferless_utils/GraphMapper.h: GraphMapper::taskAndNoCMapping, dijkstra_mapping, dijkstra_findPaths", "src/libkiter/algorithms/mapping/BufferlessNoCMapAndRoute.cpp: graphProcessing"]}
{"id": "C134", "title": "The order of the tasks is that of an execution of the application", "statement": "The order in which the mapping considers the tasks lists each task once, in the order of the first executions in a sequence that executes one whole iteration with every execution finding its tokens; the order is found exactly when such a sequence exists, and the search never ends when there is none.", "quantifier": "all SDF graphs, rates, initial tokens and repetition vectors", "why_tests_cant": "any graph and any number of executions", "anchors": ["src/libkiter/algorithms/mapping/BufferlessNoCMapAndRoute.cpp: generate_task_order, removeCycleEdges, DFSUtil_PgmOrder, graphProcessing"]}
{"id": "C135", "title": "Before the placement the cycles of the application are cut", "statement": "The mapping removes the channels that close cycles, and only such channels, and adds a first task: the graph left has no cycle, contains every task, and every task comes after the first one, so that the placement that follows reaches every task.", "quantifier": "all graphs, all orders of the tasks, all markings of the tasks on cycles", "why_tests_cant": "any graph and any order", "anchors": ["src/libkiter/algorithms/mapping/BufferlessNoCMapAndRoute.cpp: generate_task_order, removeCycleEdges, DFSUtil_PgmOrder, graphProcessing"]}
{"id": "C136", "title": "The cycles of the application that a task leads to are all found, once each", "statement": "For every task the search for cycles gives the lengths, in increasing order, of the cycles that can be reached from the task, one for each set of tasks that forms a cycle, and none exactly when no cycle can be reached; the search ends on every graph.", "quantifier": "all directed graphs, all tasks", "why_tests_cant": "any graph; the number of cycles is exponential in its size", "anchors": ["src/libkiter/algorithms/mapping/bufferless_utils/SCCFinder.h: SCCFinder::printSCCs", "src/libkiter/algorithms/mapping/BufferlessNoCMapAndRoute.cpp: generate_task_order, removeCycleEdges, DFSUtil_PgmOrder, graphProcessing"]}
{"id": "C137", "title": "The mapping gives every task a core of its own and every channel a route between the cores of its ends", "statement": "After the mapping for the bufferless network, on a network that has a core for every task, every task is mapped on a core of its own and every channel has a route, with fewest links, from the core of its producer to the core of its consumer; no check on the way fails.", "quantifier": "all SDF graphs that can execute an iteration, all mesh sizes, all orders of the queue", "why_tests_cant": "any graph and any mesh", "anchors": ["src/libkiter/algorithms/mapping/BufferlessNoCMapAndRoute.cpp: BufferlessNoCMapAndRoute, generateEdgesMap, updateNetworkOnChipModel, graphProcessing"]}
{"id": "C138", "title": "The first task that the mapping adds comes before every task", "statement": "The graph in which the mapping searches for cycles has one more task, from which every other task can be reached.", "quantifier": "all graphs", "why_tests_cant": "any graph", "anchors": ["src/libkiter/algorithms/mapping/BufferlessNoCMapAndRoute.cpp: generate_task_order, removeCycleEdges, DFSUtil_PgmOrder, graphProcessing"]}
{"id": "C139", "title": "Splitting an event graph gives its strongly connected parts", "statement": "Splitting an event graph into strongly connected parts returns graphs that share out its events: two events are in the same graph exactly when each can be reached from the other, and a graph has exactly the constraints between its events, with their weights and durations. The number set on an event is that of its part.", "quantifier": "all event graphs with distinct events, all orders of events and constraints", "why_tests_cant": "any graph", "anchors": ["src/libkiter/models/EventGraph.cpp: StrongConnect, StrongConnection", "src/libkiter/models/EventGraph.h: addEvent, addEventConstraint, getConstraint, setSCC"]}
{"id": "C140", "title": "Splitting an event graph keeps every circuit", "statement": "The circuits of an event graph are exactly those of the graphs into which it is split, so a period is long enough for the graph exactly when it is for each of them.", "quantifier": "all event graphs with distinct events, all circuits, all periods", "why_tests_cant": "any graph and circuits of any length", "anchors": ["src/libkiter/models/EventGraph.cpp: StrongConnect, StrongConnection"]}
{"id": "C141", "title": "Transfers that share a link of a router are put together", "statement": "Before a schedule without buffers is made, the tasks that stand for crossings of a router are gathered in bags: a bag holds crossings of one router linked by common links, no task is in two bags, and two crossings of a router with a link in common are in the same bag.", "quantifier": "all graphs, networks and mappings", "why_tests_cant": "any number of crossings and chains of common links of any length", "anchors": ["src/libkiter/algorithms/scheduling/BufferlessNoCScheduling.cpp: build_router_xbar_usage, get_overlaps", "src/libkiter/commons/GroupList.h"]}
{"id": "C142", "title": "Joining the outputs of a task leaves it one output that feeds the same tasks", "statement": "Joining the outputs of a task leaves it with one output; new tasks with one input and two outputs, all fed from it, copy what it sends to the tasks it fed before, each as many times as before. The other tasks and channels are unchanged. It ends for every graph, and succeeds on graphs of single-phase tasks whose names do not clash.", "quantifier": "all histories of calls that build the graph, all tasks, any number of outputs", "why_tests_cant": "any number of outputs and any graph", "anchors": ["src/libkiter/algorithms/transformation/singleOutput.cpp: singleOutput", "src/libkiter/models/Dataflow.h: addVertex, addEdge, removeEdge, setEdgeInPhases, setEdgeOutPhases"]}
{"id": "C143", "title": "Joining the outputs of a task keeps how often the tasks fire", "statement": "The numbers of firings that balance the graph are the same after the outputs of a task are joined, the new tasks firing as often as the task; the initial tokens are kept.", "quantifier": "all histories of calls that build the graph, all numbers of firings", "why_tests_cant": "any graph and any rates", "anchors": ["src/libkiter/algorithms/transformation/singleOutput.cpp: singleOutput"]}
{"id": "C144", "title": "Removing tasks removes exactly those asked for and their channels", "statement": "Asked to remove tasks by name or by identifier, the tool removes exactly these tasks and the channels that touch them; the other tasks, and the channels between them, are kept as they were. It does nothing undefined, and on a graph that may be changed it succeeds exactly when every name and identifier is that of a task and no task is listed twice.", "quantifier": "all histories of calls that build the graph, all texts given as names and identifiers", "why_tests_cant": "any graph and any list", "anchors": ["src/libkiter/algorithms/transformation/bug_explorer.cpp: remove_task", "src/libkiter/models/Dataflow.h: removeVertex, getVertexByName, getVertexById"]}
{"id": "C145", "title": "Clearing reentrancy changes the factors of exactly the tasks asked for", "statement": "Asked to clear the reentrancy of tasks, the tool sets the factor of exactly the named tasks (else of the numbered ones, else of all) to zero and changes nothing else of any task or channel. It does nothing undefined, and on a graph that may be changed it succeeds exactly when every name (or identifier) is that of a task.", "quantifier": "all histories of calls that build the graph, all texts given as names and identifiers", "why_tests_cant": "any graph and any list", "anchors": ["src/libkiter/algorithms/transformation/remove_reentrancy.cpp: remove_reentrancy", "src/libkiter/models/Dataflow.h: setReentrancyFactor"]}
{"id": "C146", "title": "The LTE generator builds the layered graph asked for", "statement": "Whatever numbers are asked for (a negative one counts as none), the generator of LTE graphs builds four layers with these numbers of tasks, each task with one phase, the duration of its layer and reentrancy factor 1, and exactly one channel from each task of a layer to each task of the next, with the rates of the layer and no tokens. Names and identifiers are distinct, the graph is well formed, it is balanced when every task fires once, and it has no circuit.", "quantifier": "all values of the four options, given or not", "why_tests_cant": "any numbers of tasks", "anchors": ["src/libkiter/generators/LTEGeneator.cpp: generate_lte_sdf", "src/libkiter/generators/LTEGenerator.h: phase_info", "src/libkiter/models/Dataflow.h: addVertex, addEdge, setVertexName, setEdgeName"]}
{"id": "C147", "title": "The search for knee points ends with exactly the knees", "statement": "Whatever infeasible points are stored, the search for inner knee points ends, within n^k + 1 passes for n points over k channels, and adds exactly the componentwise minima of at least two different infeasible points. The edge knees added are exactly the distributions with the largest quantities but for the lower bound of one buffer, that are not themselves infeasible or feasible points. The update then keeps exactly that when it is a single point; as soon as there are two, the removal of the dominated ones reads an uninitialised variable.", "quantifier": "all histories of the three sets, all lower bounds, all choices of buffers", "why_tests_cant": "any numbers of points and channels", "anchors": ["src/libkiter/algorithms/dse/buffer_sizing.cpp: StorageDistributionSet::updateKneeSet, addEdgeKnees, makeMinimalSD, removeNonMaximum"]}
{"id": "C148", "title": "Handling an infeasible point only raises the lower bounds", "statement": "When an infeasible point is handled, no lower bound of a buffer is ever decreased; a bound is raised exactly to the quantity the point gives to a critical buffer, and only when some buffer is not critical. All other bounds are unchanged.", "quantifier": "all points, critical sets, lower bounds and sets of points", "why_tests_cant": "any number of channels", "anchors": ["src/libkiter/algorithms/dse/buffer_sizing.cpp: handleInfeasiblePoint"]}
{"id": "C149", "title": "What the monotonic optimisation with knee sets can return", "statement": "Whatever the throughputs and critical channels found, when the option M_OPT returns a set, it holds a single distribution: the initial one with one token less on one buffer. It is undefined behaviour when the initial distribution meets the target, when two buffers are not critical at first or all of at least two are, and when the first enlarged distribution misses the target as well.", "quantifier": "all evaluations, targets, initial distributions and numbers of channels, with or without symbolic execution", "why_tests_cant": "every course of the search", "anchors": ["src/libkiter/algorithms/dse/monotonic_optimisation.cpp: monotonic_optimised_Kperiodic_throughput_dse, selectNewSD", "src/libkiter/algorithms/dse/buffer_sizing.cpp: handleInfeasiblePoint, updateInfeasibleSet, updateKneeSet"]}
{"id": "C150", "title": "A TDMA schedule respects dependencies, computing times, slots and distances", "statement": "In the table printed by the TDMA schedule of a list of packets: a packet starts to compute only when all the packets it depends on have arrived, its computation takes its duration, and it is then sent; a local packet arrives at once, another one leaves in a cycle of the slot of its (source, destination) pair and arrives after the distance between its routers. Two packets of the same pair never leave in the same cycle, and a packet that is computed lets a slot of its pair pass only when another packet of the pair uses it.", "quantifier": "all meshes, numbers of slots, slot files and lists of packets, with any dependencies, for which every pair that is used has a slot", "why_tests_cant": "any number of packets contending for the slots", "anchors": ["src/libkiter/algorithms/scheduling/TDMAScheduler.cpp: write_tdma_schedule", "src/libkiter/algorithms/scheduling/TDMAScheduler.h: isDepsDone, operator<"]}
{"id": "C151", "title": "A packet starts to compute as soon as its dependencies have arrived", "statement": "In a TDMA schedule a packet starts to compute at cycle 0 or in the cycle in which the last packet it depends on arrives, when packets depend on packets of smaller identifier only; otherwise at most one cycle later. The message error2 is never printed.", "quantifier": "all inputs for which every pair that is used has a slot", "why_tests_cant": "every order in which the packets leave the heap", "anchors": ["src/libkiter/algorithms/scheduling/TDMAScheduler.cpp: write_tdma_schedule"]}
{"id": "C152", "title": "When the TDMA schedule ends", "statement": "The TDMA schedule ends, with a line for every packet, whenever the dependencies of the packets have no cycle and every pair that is used has a slot below the number of slots. It never ends when some packets wait for each other, or when the pair of some packet has no slot.", "quantifier": "all meshes, slot files and lists of packets", "why_tests_cant": "termination for every input", "anchors": ["src/libkiter/algorithms/scheduling/TDMAScheduler.cpp: write_tdma_schedule"]}
{"id": "C153", "title": "What the averages of a TDMA schedule are", "statement": "The throughput accumulated by the TDMA report is the arrival of the last packet of the last complete iteration, the execution time is the sum over the complete iterations of the time between the arrivals of their first and last packets, and both are divided by the number of iterations begun, an incomplete one included. With a hyperperiod of 0 the report is undefined.", "quantifier": "all tables and hyperperiods", "why_tests_cant": "any number of packets", "anchors": ["src/libkiter/algorithms/scheduling/TDMAScheduler.cpp: write_tdma_schedule"]}
{"id": "C154", "title": "Under TDMA slots every message is delivered once, in order, in a slot of its channel", "statement": "In the execution with TDMA slots, at every step, the messages sent are the messages received followed by those on their way, in order; no message is received before it is due, and when the messages have been delivered the first one left is not due. The message of a phase on a channel carries the tokens the phase produces; on a virtual channel it is due at once, on another one it waits less than a round for the slot of the channel and then takes the length of its route. The tokens of a channel are always its preload, plus the tokens received, minus the tokens taken by the firings of its consumer.", "quantifier": "all graphs whose rate vectors have one entry per phase, numbers of slots, slots and routes, and all steps of the execution", "why_tests_cant": "any number of firings and messages in flight", "anchors": ["src/libkiter/algorithms/throughput/so4_noc.cpp: computeComponentSo4Schedule", "src/libkiter/algorithms/throughput/actor.cpp: execEndWithMod", "src/libkiter/algorithms/throughput/state.cpp: advanceTimeWithMod"]}
{"id": "C155", "title": "What the execution with TDMA slots fails to do", "statement": "The execution with TDMA slots never reports a deadlock: on a graph none of whose tasks can fire at the start it never returns. A message that is due can stay undelivered behind one that is not.", "quantifier": "all graphs and slots; a graph for the late message", "why_tests_cant": "non termination for every number of steps", "anchors": ["src/libkiter/algorithms/throughput/so4_noc.cpp: computeComponentSo4Schedule", "src/libkiter/algorithms/throughput/state.cpp: advanceTimeWithMod"]}
{"id": "C156", "title": "Under TDMA slots firings are complete, last their duration, and start as soon as they can", "statement": "In the execution with TDMA slots the firings of a task follow each other without overlapping; each firing except one that still goes on has sent exactly one message on each output channel of the task, at its start plus the duration of its phase, in the order of the firings. Tokens are never negative. When time advances every task is executing a firing or lacks tokens, on some channel, for its next one.", "quantifier": "all graphs in which every task has an input channel and a duration for each phase, all slots and all steps of the execution", "why_tests_cant": "any number of firings in any interleaving", "anchors": ["src/libkiter/algorithms/throughput/so4_noc.cpp: computeComponentSo4Schedule", "src/libkiter/algorithms/throughput/actor.cpp: execEndWithMod, isReadyForExec, execStart", "src/libkiter/algorithms/throughput/state.cpp: advanceTimeWithMod"]}
{"id": "C157", "title": "The slot of a channel is the one of its first rule", "statement": "The slots read from a text file of lines source, destination, slot give each channel that is not virtual the slot of the first line for the cores of its two tasks, and 0 without such a line; the round has one slot more than the last one named, so every slot is in the round when none is negative. From an XML file a channel has the slot of the first rule for the first link of its route, and 0 without a rule, but the round has one slot more than the file declares. A text file with a title line or an empty line is never read: the code accesses values the line does not have.", "quantifier": "all files and graphs with distinct channels", "why_tests_cant": "any number of lines, rules and channels", "anchors": ["src/libkiter/algorithms/throughput/so4_noc.cpp: generateConditions"]}
{"id": "C158", "title": "The throughput under TDMA slots is one that was measured, not the one of the graph", "statement": "When the execution with TDMA slots answers, the throughput is n iterations over the time that n successive iterations of the reference task took in that execution. It is not always a throughput the graph can keep: states are compared without the messages on their way and without the position in the round, and a ring of two tasks gets a period of 2 although no schedule respecting the slots has three iterations in fewer than 8 instants.", "quantifier": "all graphs, slots, routes and reference tasks with an output channel; a ring for the refutation, all its schedules in whole instants", "why_tests_cant": "any number of steps before the repetition; all schedules", "anchors": ["src/libkiter/algorithms/throughput/so4_noc.cpp: computeComponentSo4Schedule", "src/libkiter/algorithms/throughput/state.cpp: operator==, computeThroughput"]}
{"id": "C159", "title": "The K-periodic linear program finds the smallest period, but returns its schedule wrongly for tasks with several phases", "statement": "CSDF_KPeriodicScheduling_LP: starting times satisfy the program exactly when they are those of a valid K-periodic schedule, so with an exact solver the period returned is the smallest of all valid K-periodic schedules, and no schedule is returned only when there is none. When each task has one phase the schedule returned is valid. With several phases it is not: the starts are listed phase by phase instead of in the order of the executions, and the period recorded for a task is that of its cycle divided by its number of phases.", "quantifier": "all well-formed graphs without initial phases and re-entrant tasks, all periodicity vectors, all exact solvers", "why_tests_cant": "all graphs, periodicity vectors and schedules, of which there are infinitely many", "anchors": ["src/libkiter/algorithms/scheduling/CSDF_KPeriodicScheduling_LP.cpp: add_precedences_constraints, add_reentrancy_constraints, collect_lp_results, CSDF_KPeriodicScheduling_LP"]}
{"id": "C160", "title": "The strictly periodic linear program finds the smallest period of evenly spaced executions", "statement": "CSDF_RealPeriodicScheduling_LP: starting times satisfy the program exactly when they are those of a valid schedule in which the executions of each task start at even distances. With an exact solver the period returned is the smallest of all such schedules, nothing is returned only when there is none, and the period is never below that of the 1-periodic program.", "quantifier": "all well-formed graphs without initial phases and re-entrant tasks, all exact solvers", "why_tests_cant": "all graphs and schedules, of which there are infinitely many", "anchors": ["src/libkiter/algorithms/scheduling/CSDF_KPeriodicScheduling_LP.cpp: CSDF_RealPeriodicScheduling_LP"]}
{"id": "C161", "title": "Wiggers offsets push the phases of each task to the end of its cycle without overlap", "statement": "generateWiggersOffsets: offsets are found exactly when every task of several phases can run them within its share of the period, and the program stops otherwise. There is one offset per phase, no phase is placed before it could start at the earliest, each phase ends before the next one starts, and the last one ends with the cycle. Each other phase ends as late as the start of the next phase and the production lines of its output channels allow, but never before its earliest end. A task of one phase gets the offset 0. When the work of every task fits its share of the period, tasks started with these offsets never overlap themselves.", "quantifier": "all well-formed graphs without initial phases, all repetition vectors of whole cycles, all positive periods", "why_tests_cant": "all graphs and periods, of which there are infinitely many", "anchors": ["src/libkiter/algorithms/buffersizing/periodic_fixed.cpp: generateWiggersOffsets"]}
{"id": "C162", "title": "Sizing with fixed offsets is exact for burst, average and Wiggers offsets, but does not notice a task longer than its cycle", "statement": "compute_fixed_offset_buffer_sizing: with OFFSET=BURST, AVERAGE or WIGGERS, when the work of every task fits its share of the period, the check of the offsets passes, sizes are reported exactly when the graph can run with these offsets, the reported sizes are enough, and with the integer program they are the smallest. Without OFFSET or without a positive PERIOD there is no answer. A task of one phase that is longer than its cycle is not noticed: sizes are reported although no schedule exists.", "quantifier": "all well-formed graphs without initial phases, all positive periods, all exact solvers", "why_tests_cant": "all graphs, periods and schedules, of which there are infinitely many", "anchors": ["src/libkiter/algorithms/buffersizing/periodic_fixed.cpp: compute_fixed_offset_buffer_sizing, checkOffsets"]}
{"id": "C163", "title": "MINMAX offsets are the closest to the lines of the channels, but a channel from a task to itself stops the program", "statement": "generateMinMaxOffsets: for a task of several phases without a channel to itself, the linear program has exactly the offsets without overlap as solutions, and minimises the summed distance of the phases from the lines of its channels. With an exact solver, when every such task can run its phases within its share of the period, offsets are found and no other offsets are closer; a task of one phase gets 0. The sizing with OFFSET=MINMAX is then exact for these offsets. A task that cannot run its phases in time leaves the command without an answer, and so does a channel from a task of several phases to itself, although the graph can run.", "quantifier": "all well-formed graphs without initial phases, all repetition vectors of whole cycles, all positive periods, all exact solvers", "why_tests_cant": "all graphs, periods and offsets, of which there are infinitely many", "anchors": ["src/libkiter/algorithms/buffersizing/periodic_fixed.cpp: generateMinMaxOffsets, compute_fixed_offset_buffer_sizing", "src/libkiter/lp/glpsol.h: addRow"]}
