{"id": "C01", "title": "The random generator emits the Mersenne Twister stream", "statement": "For every seed, the n-th 32-bit value returned by eoRng::rand() after construction/reseeding is the n-th tempered word of the MT19937-style linear recurrence x[k+624] = x[k+397] xor (mix(x[k],x[k+1])>>1) xor (0x9908B0DF if the low bit selected by the implementation is set) started from the 624 multiplicative-generator seed words; the in-place block regeneration never reads a word it has already overwritten with the wrong generation, and never touches memory outside the 625-word state array.", "quantifier": "every 32-bit seed and every number n of draws (unbounded)", "why_tests_cant": "a test compares finitely many values for finitely many seeds; block boundaries recur for ever", "anchors": ["eo/src/utils/eoRNG.h: eoRng::initialize, eoRng::restart, eoRng::rand"]}
{"id": "C02", "title": "Saving and restoring the generator resumes the same stream", "statement": "Writing a generator with printOn and reading it back with readFrom into any other generator object makes the second one produce, from then on, exactly the same sequence of rand() values the first one would have produced, whatever the number of draws before the save.", "quantifier": "every seed, every number of draws before the save, every number of draws after it, every prior content of the destination generator", "why_tests_cant": "needs all save points, including those at a block boundary", "anchors": ["eo/src/utils/eoRNG.h: eoRng::printOn, eoRng::readFrom, eoRng::rand"]}
{"id": "C03", "title": "Bounded draws stay in their range", "statement": "For every underlying 32-bit draw, random(m) is an integer in [0,m) for every m>0, uniform() is in [0,1), uniform(a,b) is in [a,b], and flip(p) is never true for p<=0 and always true for p>=1 (exact arithmetic; the IEEE statement is proved separately for random(m) with m a 32-bit integer).", "quantifier": "every 32-bit draw and every bound", "why_tests_cant": "2^32 draws times 2^32 bounds; the boundary draw 2^32-1 is practically never hit by a test", "anchors": ["eo/src/utils/eoRNG.h: eoRng::random, eoRng::uniform, eoRng::flip"]}
{"id": "C04", "title": "Truncation keeps the best individuals", "statement": "eoTruncate, and eoLinearTruncate, applied to a population and a target size either throw (target larger than the population) or leave exactly that many individuals, each an original individual kept at most as many times as it occurred, such that no discarded individual is better than a kept one. This holds for every sorting algorithm meeting the std::sort contract, however ties are broken.", "quantifier": "every population, every target size, every fitness order, every outcome of the unstable sort", "why_tests_cant": "ties and unstable sorts give implementation-dependent results; tests see one", "anchors": ["eo/src/eoReduce.h: eoTruncate, eoLinearTruncate", "eo/src/eoPop.h: eoPop::sort"]}
{"id": "C05", "title": "Every reduction operator returns exactly the requested number of original individuals", "statement": "eoRandomReduce, eoEPReduce, eoDetTournamentTruncate and eoStochTournamentTruncate either throw without changing anything (target larger than population) or return exactly the requested number of individuals, which form a sub-multiset of the input, whatever random numbers are drawn; deterministic tournament truncation never removes the unique best individual when the tournament has at least two distinct members drawn.", "quantifier": "every population, target size and random draw sequence", "why_tests_cant": "random draws: all sequences must be covered", "anchors": ["eo/src/eoReduce.h"]}
{"id": "C06", "title": "Reduce-and-split loses nobody", "statement": "The eoReduceSplit operators partition the population: the survivors plus the eliminated individuals written to the second population are exactly the original individuals, and the number eliminated is what eoHowMany computes for the original size.", "quantifier": "every population, every requested count up to the population size, every random draw sequence", "why_tests_cant": "universally quantified over draws and populations", "anchors": ["eo/src/eoReduceSplit.h"]}
{"id": "C07", "title": "(mu+lambda) and (mu,lambda) replacement", "statement": "After eoPlusReplacement the parents population has its original size mu and consists of mu best members of parents union offspring (nobody outside is better than somebody inside). After eoCommaReplacement it has size mu and consists of mu best offspring, or an exception is thrown if there are fewer than mu offspring. Consequently plus-replacement never loses the best individual.", "quantifier": "every parents/offspring pair, every tie-breaking of the sort", "why_tests_cant": "all populations and tie-breakings", "anchors": ["eo/src/eoMergeReduce.h: eoMergeReduce, eoPlusReplacement, eoCommaReplacement", "eo/src/eoMerge.h: eoPlus"]}
{"id": "C08", "title": "Steady-state replacement keeps the size and all offspring", "statement": "eoSSGAWorseReplacement, eoSSGADetTournamentReplacement and eoSSGAStochTournamentReplacement throw when there are more offspring than parents; otherwise the new population has exactly the old size, contains every offspring, and the rest are former parents; with the 'worse' variant no replaced parent is better than a surviving one, so the best parent survives whenever there are fewer offspring than parents.", "quantifier": "every parents/offspring pair and every random draw sequence", "why_tests_cant": "all draws and populations", "anchors": ["eo/src/eoReduceMerge.h"]}
{"id": "C09", "title": "Weak elitism never loses the best fitness", "statement": "eoWeakElitistReplacement wrapped around any replacement that yields a non-empty population guarantees that the best fitness after replacement is at least the best fitness of the old parents; over any number of generations the best fitness of the population never decreases.", "quantifier": "every inner replacement, every population history of any length", "why_tests_cant": "arbitrary inner replacement and unbounded number of generations", "anchors": ["eo/src/eoReplacement.h: eoWeakElitistReplacement"]}
{"id": "C10", "title": "What eoElitism really merges", "statement": "The documentation says eoElitism copies the how_many best individuals of the first population into the second. The property is that exactly the elite is copied. (Expected to be refuted: the code copies the whole population.)", "quantifier": "every pair of populations and every elite size", "why_tests_cant": "the defect needs elite size strictly between 0 and the population size; stated for all sizes", "anchors": ["eo/src/eoMerge.h: eoElitism", "eo/src/eoPop.h: eoPop::nth_element(int, std::vector<const EOT*>&)"]}
{"id": "C11", "title": "Requested counts", "statement": "eoHowMany called on a population size yields: the absolute count if positive, size minus |count| if negative (throwing when that would be negative), and ceil(rate*size) otherwise, so the result never exceeds the size in relative modes and eoSelectMany/eoSelectNumber/eoSelectPerc produce exactly that many individuals, every one a copy of a source individual.", "quantifier": "every count/rate and every population size", "why_tests_cant": "arithmetic over all unsigned/int values", "anchors": ["eo/src/utils/eoHowMany.h", "eo/src/eoSelectMany.h", "eo/src/eoSelectNumber.h", "eo/src/eoSelectPerc.h"]}
{"id": "C12", "title": "Tournament selection returns the extreme of the drawn contestants", "statement": "deterministic_tournament of size T over a non-empty population returns an individual that was drawn and that no drawn individual beats; the inverse tournament returns a drawn individual that beats none; the stochastic tournaments return one of the two drawn individuals. All indices used lie inside the population.", "quantifier": "every population, tournament size and draw sequence", "why_tests_cant": "all draw sequences", "anchors": ["eo/src/utils/selectors.h: deterministic_tournament, inverse_deterministic_tournament, stochastic_tournament, inverse_stochastic_tournament"]}
{"id": "C13", "title": "Roulette wheel and stochastic universal sampling are proportional", "statement": "With exact arithmetic and non-negative fitnesses of positive total, roulette_wheel returns index i exactly for draws u with prefix(i) < u*total <= prefix(i+1) (or i=0 at u=0), hence never runs off the end; stochastic universal selection, when no sampling point falls exactly on a slot boundary, picks every individual floor(e) or ceil(e) times where e is its expected share (the boundary case is in C90).", "quantifier": "every fitness vector of positive total and every draw in [0,1)", "why_tests_cant": "continuum of draws, arbitrary population sizes", "anchors": ["eo/src/utils/selectors.h: roulette_wheel", "eo/src/eoStochasticUniversalSelect.h", "eo/src/eoProportionalSelect.h"]}
{"id": "C14", "title": "Sequential selection gives every individual exactly one turn per pass", "statement": "Between two consecutive setups, any block of n consecutive calls (n = population size) of eoSequentialSelect/eoEliteSequentialSelect starting at a setup returns every individual exactly once; in ordered mode the sequence is by decreasing fitness; eoEliteSequentialSelect returns a best individual first.", "quantifier": "every population, every number of calls, every shuffle outcome", "why_tests_cant": "unbounded call sequences and all shuffles", "anchors": ["eo/src/eoSequentialSelect.h"]}
{"id": "C15", "title": "Ranking preserves the fitness order and the average pressure", "statement": "eoRanking assigns worths that depend only on rank, are strictly increasing with the rank for pressure in (1,2] and exponent 1, are non-negative and sum to the number of individuals; eoRankingCached computes the same worths as eoRanking. (The documented range of the worths is in C90.)", "quantifier": "every population of 2 to 65536 individuals, pressure and sort outcome", "why_tests_cant": "all sizes and real parameters", "anchors": ["eo/src/eoRanking.h", "eo/src/eoRankingCached.h"]}
{"id": "C16", "title": "Bit mutations report exactly whether they changed something, and how much they change", "statement": "eoOneBitFlip flips exactly one bit, eoDetSingleBitFlip flips exactly k distinct bits, eoBitInversion reverses one segment and is its own inverse, eoBitMutation flips exactly the bits whose draw succeeded and returns true iff something changed; eoDetBitFlip flips at most k bits.", "quantifier": "every bit string, every k, every draw sequence", "why_tests_cant": "all strings and draws", "anchors": ["eo/src/ga/eoBitOp.h"]}
{"id": "C17", "title": "eoBitNext / eoBitPrev count in binary", "statement": "Reading the chromosome as an n-bit number with the first bit most significant (as the code does), eoBitNext adds one modulo 2^n and eoBitPrev subtracts one modulo 2^n, so they are mutually inverse and 2^n applications of either are the identity.", "quantifier": "every bit string of every length", "why_tests_cant": "2^n strings", "anchors": ["eo/src/ga/eoBitOp.h: eoBitNext, eoBitPrev"]}
{"id": "C18", "title": "Bit crossovers conserve alleles locus by locus", "statement": "eo1PtBitXover, eoNPtsBitXover and eoUBitXover on two chromosomes of the same length leave, at every locus, the same two bits among the two children as among the two parents; lengths are unchanged; the crossover reports 'no change' only when nothing changed.", "quantifier": "every pair of equal-length strings and every draw sequence", "why_tests_cant": "all pairs and draws", "anchors": ["eo/src/ga/eoBitOp.h: eo1PtBitXover, eoUBitXover, eoNPtsBitXover"]}
{"id": "C19", "title": "Permutation mutations preserve permutations", "statement": "eoSwapMutation, eoShiftMutation and eoTwoOptMutation map any sequence to a rearrangement of itself, for any draws; two-opt is exactly the reversal of the chosen segment and shift is exactly the rotation of the chosen segment.", "quantifier": "every sequence and draw sequence", "why_tests_cant": "n! permutations times draws", "anchors": ["eo/src/eoSwapMutation.h", "eo/src/eoShiftMutation.h", "eo/src/eoTwoOptMutation.h"]}
{"id": "C20", "title": "Order crossover yields permutations", "statement": "eoOrderXover on two permutations of the same set of consecutive integers yields two permutations of that set, for all cut points and both scan directions; the child keeps the first parent's genes in the cut segment as the code intends and the others appear in the cyclic order of the second parent.", "quantifier": "every pair of permutations of fewer than 2^30 consecutive integers, every cut point pair, both directions, on platforms where plain char is signed", "why_tests_cant": "(n!)^2 pairs", "anchors": ["eo/src/eoOrderXover.h"]}
{"id": "C21", "title": "Partially mapped crossover yields permutations and terminates", "statement": "eoPartiallyMappedXover on two permutations of 0..n-1 yields two permutations of it, its mapping loops terminate, and the cut segment is exchanged verbatim.", "quantifier": "every pair of permutations and every cut point pair", "why_tests_cant": "(n!)^2 pairs; termination is not testable", "anchors": ["eo/src/eoPartiallyMappedXover.h"]}
{"id": "C22", "title": "Breeding produces exactly the requested offspring and invalidates exactly the changed ones", "statement": "eoGeneralBreeder and eoSGAGenOp-based breeding, when they return, return exactly the requested number of offspring whatever combination of sequential/proportional operator containers is used, and they return whenever every operator tree application produces somebody; an offspring carries a valid fitness only if no operator reported a change on it since it was copied from an evaluated parent, so a valid fitness is always that of the individual's current genotype.", "quantifier": "every operator tree, every draw sequence, every parent population", "why_tests_cant": "recursive operator trees, unbounded", "anchors": ["eo/src/eoGeneralBreeder.h", "eo/src/eoPopulator.h", "eo/src/eoGenOp.h", "eo/src/eoOpContainer.h", "eo/src/eoInvalidateOps.h"]}
{"id": "C23", "title": "A whole eoEasyEA run keeps its population well formed", "statement": "For every number of generations: after eoEasyEA returns normally, the population has the size it started with, every individual is evaluated, and each fitness is the evaluation of its own genotype; a replacement that changes the size makes the run throw.", "quantifier": "every breeder that respects the invalidation discipline, every replacement drawing from parents and offspring, every continuator, every history length", "why_tests_cant": "unbounded number of generations and arbitrary components", "anchors": ["eo/src/eoEasyEA.h", "eo/src/eoPopEvalFunc.h", "eo/src/eoReplacement.h"]}
{"id": "C24", "title": "Stopping criteria stop exactly when documented", "statement": "eoGenContinue(n) answers true to exactly its first n-1 calls after (re)setting and false at the n-th; eoSteadyFitContinue stops at the first generation at which min generations have passed and the best fitness has not improved for the given number of generations; eoCombinedContinue stops exactly when some component consulted says stop, consulting components in order up to the first that stops; eoFitContinue stops exactly when the best reaches the target.", "quantifier": "every call history and every fitness history of a criterion built by its ordinary constructor", "why_tests_cant": "unbounded histories", "anchors": ["eo/src/eoGenContinue.h", "eo/src/eoSteadyFitContinue.h", "eo/src/eoCombinedContinue.h", "eo/src/eoFitContinue.h", "eo/src/eoEvalContinue.h"]}
{"id": "C25", "title": "Evaluation accounting", "statement": "eoEvalFuncCounter calls the wrapped evaluation exactly once for each individual presented invalid and never for a valid one, and its counter equals the number of real evaluations; eoEvalCounterThrowException throws exactly on the evaluation reaching the threshold; eoEvalKeepBest holds a best individual among all individuals evaluated so far.", "quantifier": "every sequence of individuals presented", "why_tests_cant": "unbounded call histories", "anchors": ["eo/src/eoEvalFuncCounter.h", "eo/src/eoEvalCounterThrowException.h", "eo/src/eoEvalKeepBest.h"]}
{"id": "C26", "title": "Bounds repair lands inside the bounds", "statement": "In exact arithmetic, for integer and real intervals, foldsInBounds maps every value to a value inside the interval, leaves inside values unchanged, and is a reflection (periodic with twice the range) within the code's own 1e9 guard; truncate is the nearest point of the interval; the half-bounded variants likewise, the latter for any monotone rounding. (Folding with rounded doubles is in C91.)", "quantifier": "every value and every interval of positive length", "why_tests_cant": "all values including those many periods away", "anchors": ["eo/src/utils/eoRealBounds.h: eoRealInterval::foldsInBounds, truncate", "eo/src/utils/eoIntBounds.h"]}
{"id": "C27", "title": "Dual fitness comparison is a strict weak order with feasibility first", "statement": "eoDualFitness ordering is a strict weak ordering in which every feasible fitness is better than every infeasible one, and within a feasibility class it agrees with the underlying order; maximising and minimising scalar fitness orders are converses of each other.", "quantifier": "all fitness values", "why_tests_cant": "order axioms quantify over all triples", "anchors": ["eo/src/eoDualFitness.h", "eo/src/eoScalarFitness.h"]}
{"id": "C28", "title": "Linear parallel scheduling hands every individual to exactly one worker", "statement": "smp linear scheduling over n>=1 workers splits the population into n packages such that every individual is in exactly one of them and their sizes differ by at most one; whatever the interleaving of the workers, the population ends as its image by the functor.", "quantifier": "every population size and every number of workers", "why_tests_cant": "arithmetic for all sizes", "anchors": ["smp/src/scheduler.cpp: LinearPolicy"]}
{"id": "C29", "title": "Progressive parallel scheduling processes every individual exactly once under every interleaving", "statement": "With the reads of a package taken as atomic: for every interleaving of the dispatcher and the worker threads, with n>=1 workers, no individual is processed twice, none is dropped, and when all threads have finished every individual has been processed exactly once; no reachable state is stuck before that point. (The missing lock is in C92.)", "quantifier": "every population, every number of workers >=1, every interleaving", "why_tests_cant": "all schedules", "anchors": ["smp/src/scheduler.cpp: ProgressivePolicy, applyProgressivePolicy"]}
{"id": "C30", "title": "Migration topologies", "statement": "Complete: every other island is a neighbour; Ring: i sends to i+1 mod n; Star: every non-centre sends to the centre; Hypercubic: neighbours are exactly the islands whose indices differ in one bit, and every pair is mutual; Mesh: 4-neighbour grid adjacency when the internal shape computation succeeds (and the prime-count case reads out of bounds). Isolating a node removes it from every neighbour list and nothing else.", "quantifier": "every number of islands (at least two for a ring; composite for a mesh) and every index", "why_tests_cant": "all n", "anchors": ["smp/src/topology/complete.cpp", "smp/src/topology/ring.cpp", "smp/src/topology/star.cpp", "smp/src/topology/hypercubic.cpp", "smp/src/topology/mesh.cpp", "smp/src/topology/topology.cpp"]}
{"id": "C31", "title": "Static job assignment is balanced", "statement": "StaticAssignmentAlgorithm over w>=1 workers and r>=1 runs gives every worker r/w or r/w+1 runs, totalling r, never hands a job to a busy worker, and over every execution gives worker i exactly its share of jobs.", "quantifier": "every non-empty list of distinct positive ranks, number of runs and get/confirm history; the reserved storage taken as usable (see C92)", "why_tests_cant": "unbounded histories", "anchors": ["eo/src/mpi/eoMpiAssignmentAlgorithm.cpp: StaticAssignmentAlgorithm"]}
{"id": "C32", "title": "Distributed apply computes map under every message ordering", "statement": "With at least one worker, for every order in which worker responses arrive, the master/worker protocol of ParallelApply applies the function exactly once to every element, writes each result at its own position, never has two outstanding assignments for one worker, and ends with every worker released.", "quantifier": "every table, packet size >=1, number of workers >=1 of distinct positive ranks (for the static assignment: as many runs as packets), every response interleaving", "why_tests_cant": "all schedules", "anchors": ["eo/src/mpi/eoMpi.h: Job::master, Job::worker, FinallyBlock", "eo/src/mpi/eoParallelApply.h", "eo/src/mpi/eoMpiAssignmentAlgorithm.cpp"]}
{"id": "C33", "title": "JSON printing then parsing is the identity", "statement": "For every JSON value built from objects, arrays and strings whose quotes are properly escaped (no unescaped quote, no dangling backslash), parsing the printed text gives back the same value, and so does any other layout of blanks between the tokens; the condition on the strings is exact: a string that does not meet it is not read back.", "quantifier": "every value of any depth and size", "why_tests_cant": "infinitely many nested values", "anchors": ["eo/src/serial/Parser.cpp", "eo/src/serial/SerialString.cpp", "eo/src/serial/SerialArray.cpp", "eo/src/serial/SerialObject.cpp"]}
{"id": "C34", "title": "Neighborhood iterators enumerate each neighbor exactly once", "statement": "One exploration (init, then next while cont) of moOrderNeighborhood visits indices 0..n-1 in order; moRndWithoutReplNeighborhood visits each index exactly once for every draw sequence and after any number of earlier, possibly interrupted explorations; moSwapNeighborhood/moTwoOptExNeighborhood visit every pair i<j exactly once.", "quantifier": "every neighborhood size, every draw sequence, every prior history", "why_tests_cant": "all draws and histories", "anchors": ["mo/src/neighborhood/moOrderNeighborhood.h", "mo/src/neighborhood/moRndWithoutReplNeighborhood.h", "mo/src/problems/permutation/moSwapNeighborhood.h", "mo/src/problems/permutation/moTwoOptExNeighborhood.h"]}
{"id": "C35", "title": "Indexed permutation moves: bijective indexing and exact undo", "statement": "moIndexedSwapNeighbor maps keys 0..n(n-1)/2-1 bijectively to pairs i<j and set() is the inverse of index(); moShiftNeighbor maps keys 0..n(n-1)-1 onto the insertion moves, and two keys give the same effect exactly when they are the two forms of one adjacent exchange; for every neighbor type, moveBack after move restores the solution, and move is a permutation of the solution.", "quantifier": "every solution length (below 32769 for the indexed swap, whose key is computed on 32 bits) and key", "why_tests_cant": "all n and keys", "anchors": ["mo/src/problems/permutation/moIndexedSwapNeighbor.h", "mo/src/problems/permutation/moShiftNeighbor.h", "mo/src/problems/permutation/moSwapNeighbor.h", "mo/src/problems/permutation/moTwoOptExNeighbor.h", "mo/src/problems/bitString/moBitNeighbor.h"]}
{"id": "C36", "title": "Hill climbing ends in a local optimum and never worsens", "statement": "A moSimpleHC / moFirstImprHC run that stops by itself (not by the external continuator) ends in a solution none of whose neighbors is strictly better; every accepted move strictly improves the fitness; the final fitness is the true evaluation of the final solution if the neighbor evaluation is correct; on a finite search space the search terminates.", "quantifier": "every landscape, neighborhood and start", "why_tests_cant": "all landscapes", "anchors": ["mo/src/algo/moLocalSearch.h", "mo/src/explorer/moSimpleHCexplorer.h", "mo/src/explorer/moFirstImprHCexplorer.h"]}
{"id": "C37", "title": "Tabu lists forbid exactly as long as documented", "statement": "moIndexedVectorTabuList: after add, a move is tabu for exactly howlong-1 further update rounds unless re-added; other moves are unaffected. moNeighborVectorTabuList and moSolVectorTabuList: the list holds the last maxSize added entries, each for howlong iterations (or until evicted when howlong=0).", "quantifier": "every history of init/add/update/check operations that starts with init, lists of positive size, indices below the size", "why_tests_cant": "unbounded histories", "anchors": ["mo/src/memory/moIndexedVectorTabuList.h", "mo/src/memory/moNeighborVectorTabuList.h", "mo/src/memory/moSolVectorTabuList.h"]}
{"id": "C38", "title": "Tabu search returns the best solution it visited", "statement": "At termination the solution returned by tabu search is a visited one with fitness at least that of every visited solution including the start, and every move taken is the best among the non-tabu or aspirated neighbors.", "quantifier": "every landscape, tabu list, aspiration and run length; for the best-visited clause, intensifications and diversifications that do not replace the solution (others are in C93)", "why_tests_cant": "unbounded runs", "anchors": ["mo/src/explorer/moTSexplorer.h", "mo/src/algo/moLocalSearch.h"]}
{"id": "C39", "title": "Incremental evaluation equals full evaluation", "statement": "For OneMax, OneMax with several bits, UBQP, UBQP with several bits, QAP, Royal Road and NK landscapes the incremental neighbor evaluation returns exactly the full evaluation of the moved solution whenever the solution's stored fitness is its full evaluation; the full evaluation of each of these problems and of MaxSAT is its textbook value, and random MaxSAT instances are well formed. (Incremental MaxSAT is in C94.)", "quantifier": "every instance (NK: K < N; Royal Road: bits of whole blocks), every solution, every move (of distinct bits)", "why_tests_cant": "all instances and solutions", "anchors": ["mo/src/problems/eval", "problems/eval"]}
{"id": "C40", "title": "Doubly incremental UBQP deltas stay exact over any search trajectory", "statement": "After any sequence of explorations and applied/rejected moves, the delta table of moUBQPdoubleIncrEvaluation equals, at every bit, the exact fitness change of flipping it in the current solution.", "quantifier": "every instance and every trajectory after construction or init", "why_tests_cant": "unbounded trajectories", "anchors": ["mo/src/problems/eval/moUBQPdoubleIncrEvaluation.h"]}
{"id": "C41", "title": "Bit-subset neighborhoods enumerate all subsets", "statement": "moBitsWithoutReplNeighborhood builds exactly the list of all bit subsets of size exactly k (or 1..k), each once, the number announced by numberOfNeighbors, and moBitsWithReplNeighborhood with an exact distance draws subsets of that many distinct positions.", "quantifier": "every length and radius whose number of subsets does not wrap round on 32 bits", "why_tests_cant": "all n,k", "anchors": ["mo/src/problems/bitString/moBitsNeighborhood.h", "mo/src/problems/bitString/moBitsWithoutReplNeighborhood.h", "mo/src/problems/bitString/moBitsWithReplNeighborhood.h"]}
{"id": "C42", "title": "Pareto comparison is a strict partial order", "statement": "With zero tolerance moeoParetoObjectiveVectorComparator is irreflexive, asymmetric and transitive and agrees with the textbook definition for any mix of minimised/maximised objectives; with the built-in positive tolerance it stays irreflexive and asymmetric but is neither transitive nor, in three dimensions, acyclic.", "quantifier": "all objective vectors of any dimension", "why_tests_cant": "axioms over all triples", "anchors": ["moeo/src/comparator/moeoParetoObjectiveVectorComparator.h", "moeo/src/core/moeoObjectiveVectorTraits.h"]}
{"id": "C43", "title": "The archive is always a non-dominated set and the Pareto front of everything seen", "statement": "After any sequence of updates, no member of an unbounded archive dominates another or has an equal objective vector; every solution ever offered is dominated by or equal to some member (for a transitive comparator); every member was offered; update reports whether the offered solution entered.", "quantifier": "every history of insertions of any length", "why_tests_cant": "unbounded histories", "anchors": ["moeo/src/archive/moeoArchive.h", "moeo/src/archive/moeoUnboundedArchive.h"]}
{"id": "C44", "title": "Non-dominated sorting computes domination depth", "statement": "The fast non-dominated sort assigns each individual its peeling depth: front 1 is the set of non-dominated individuals, front k+1 the non-dominated ones after removing fronts 1..k; ranks are strictly ordered along domination.", "quantifier": "every non-empty population and every strict partial order comparator; for two objectives, both in the same direction and equal vectors as the option says (others are in C95)", "why_tests_cant": "all populations", "anchors": ["moeo/src/fitness/moeoDominanceDepthFitnessAssignment.h"]}
{"id": "C45", "title": "Dominance matrix, count and rank", "statement": "The dominance matrix holds exactly the domination relation of the population, count(i) is the number of individuals i dominates and rank(i) the number dominating i; the sums of counts and ranks over the population are equal.", "quantifier": "every population, on the first call of the object", "why_tests_cant": "all populations", "anchors": ["moeo/src/utils/moeoDominanceMatrix.h", "moeo/src/fitness/moeoDominanceCountFitnessAssignment.h", "moeo/src/fitness/moeoDominanceRankFitnessAssignment.h"]}
{"id": "C46", "title": "Elitist multi-objective replacement", "statement": "moeoElitistReplacement returns exactly the parent count, all from parents union offspring, and no discarded individual is better (fitness, then diversity) than a kept one; moeoEnvironmentalReplacement likewise removes a worst individual at each step.", "quantifier": "every populations, fitness/diversity assignment and tie-breaking", "why_tests_cant": "all populations and sort outcomes", "anchors": ["moeo/src/replacement/moeoElitistReplacement.h", "moeo/src/replacement/moeoEnvironmentalReplacement.h"]}
{"id": "C47", "title": "The hypervolume metric computes the dominated volume", "statement": "For every finite set of points with non-negative (integer-scaled) coordinates in at least two dimensions, the recursive hypervolume routine returns the measure of the union of the boxes [0,p].", "quantifier": "every front inside the reference point, every dimension >= 2; normalised metrics: objectives that are not constant and positive maxima", "why_tests_cant": "all fronts in all dimensions", "anchors": ["moeo/src/metric/moeoHyperVolumeMetric.h: calc_hypervolume, filter_nondominated_set, reduce_nondominated_set, surface_unchanged_to"]}
{"id": "C48", "title": "Additive epsilon indicator", "statement": "moeoAdditiveEpsilonBinaryMetric returns the smallest translation epsilon such that the first vector translated by epsilon weakly dominates the second, and it is non-positive iff the first already weakly dominates the second.", "quantifier": "all pairs of objective vectors", "why_tests_cant": "all pairs", "anchors": ["moeo/src/metric/moeoAdditiveEpsilonBinaryMetric.h"]}
{"id": "C49", "title": "Bounded archives", "statement": "moeoImprOnlyBoundedArchive never exceeds its maximum size and stays mutually non-dominated; moeoFitDivBoundedArchive never exceeds its maximum size.", "quantifier": "every insertion history", "why_tests_cant": "unbounded histories", "anchors": ["moeo/src/archive/moeoImprOnlyBoundedArchive.h", "moeo/src/archive/moeoFitDivBoundedArchive.h"]}
{"id": "C50", "title": "NK landscape link generation", "statement": "Random and consecutive link tables give each bit exactly K+1 distinct in-range links, the first of which is the bit itself, and the shared drawing table is restored after each choice.", "quantifier": "every N, K < N and draw sequence", "why_tests_cant": "all draws", "anchors": ["problems/eval/nkLandscapesEval.h: choose, consecutiveLinks"]}
{"id": "C51", "title": "Partition swap moves keep the partition", "statement": "From a partition of 0..n-1 into selected and rejected, every move of moBinaryPartitionSwapNeighborhood keeps a partition with the same selected size, moveBack undoes move, and the exploration visits every (rejected,selected) pair exactly once.", "quantifier": "every partition with non-empty sides", "why_tests_cant": "all partitions", "anchors": ["mo/src/problems/partition"]}
{"id": "C52", "title": "Variable neighborhood search returns the best solution found", "statement": "moVNSexplorer's final solution is at least as good as the start and as every local optimum produced; the forward/backward/random selections cycle through every neighborhood once per round.", "quantifier": "every local search and shake operators, any run length, a new explorer", "why_tests_cant": "unbounded runs", "anchors": ["mo/src/explorer/moVNSexplorer.h", "mo/src/neighborhood/moForwardVectorVNSelection.h", "mo/src/neighborhood/moBackwardVectorVNSelection.h", "mo/src/neighborhood/moRndVectorVNSelection.h"]}
{"id": "C53", "title": "UBQP matrix normalisation preserves the objective", "statement": "Putting the instance matrix in lower triangular form preserves x^T Q x for every 0/1 vector, and the evaluator returns that value.", "quantifier": "every matrix and solution", "why_tests_cant": "all matrices", "anchors": ["problems/eval/ubqpEval.h"]}
{"id": "C54", "title": "Fitness validity protocol", "statement": "An individual's fitness can be read iff it is valid; copying, invalidating, setting and stream round-tripping keep validity and value consistent; comparisons agree with the fitness order.", "quantifier": "every sequence of operations on an individual, streams that hold an individual", "why_tests_cant": "unbounded operation sequences", "anchors": ["eo/src/EO.h"]}
{"id": "C55", "title": "Best and worst element queries", "statement": "eoPop::best_element (worse_element) returns a member that no other member beats (that beats no other), the first such in population order as max_element does; nth_element_fitness(k) is the k-th best fitness.", "quantifier": "every non-empty population", "why_tests_cant": "all populations", "anchors": ["eo/src/eoPop.h: best_element, worse_element, nth_element_fitness"]}
{"id": "C56", "title": "Reduce-merge-reduce replacement", "statement": "eoReduceMergeReduce, for any three reduction operators that meet their contract, leaves the parent population at its original size; with strong elitism the requested number of best parents is in the result and everybody in the result comes from parents union offspring. (Weak elitism is in C90.)", "quantifier": "every parents/offspring pair, every elite size, every reduction operators and draws", "why_tests_cant": "arbitrary operators and populations", "anchors": ["eo/src/eoReduceMergeReduce.h"]}
{"id": "C57", "title": "Survive-and-die replacement", "statement": "eoDeterministicSaDReplacement keeps the population size, only keeps parents or offspring, and keeps the requested number of best parents and of best offspring unconditionally.", "quantifier": "every parents/offspring pair, every reduction operator, all counts", "why_tests_cant": "arbitrary operators and populations", "anchors": ["eo/src/eoSurviveAndDie.h"]}
{"id": "C58", "title": "MGG and G3 steady-state replacements", "statement": "eoMGGReplacement keeps the population size, nobody is duplicated or invented, and the best offspring enters the parents. eoG3Replacement removes the k worst parents and puts back k best of offspring plus removed parents.", "quantifier": "every parents/offspring pair, all draws, all elimination counts", "why_tests_cant": "all draws and populations", "anchors": ["eo/src/eoMGGReplacement.h", "eo/src/eoG3Replacement.h"]}
{"id": "C59", "title": "Elite selection returns a best individual", "statement": "eoEliteSelect, documented to always return the best individual, does so (expected to be refuted: it sorts pointers to the individuals but returns the first individual of the unsorted population).", "quantifier": "every population", "why_tests_cant": "all populations", "anchors": ["eo/src/eoSequentialSelect.h: eoEliteSelect"]}
{"id": "C60", "title": "Deterministic selection keeps the best in priority", "statement": "eoDetSelect, documented to select the best individuals from best to worst, never leaves out an individual that is better than a selected one (expected to be refuted: the source is not sorted).", "quantifier": "every population and requested count", "why_tests_cant": "all populations", "anchors": ["eo/src/eoDetSelect.h"]}
{"id": "C61", "title": "Initialisers", "statement": "eoInitPermutation yields a permutation of start..start+size-1 whatever the shuffle does; eoInitFixedLength yields exactly the requested number of freshly generated atoms; eoInitVariableLength yields between min and max-1 atoms, every length being possible; all of them leave the individual invalid. An eoPop built with an initialiser has the requested size and eoPop::append keeps the individuals already present in place, adds fresh ones up to the requested size and throws when asked to shrink.", "quantifier": "every size, start, shuffle, generator and draw sequence", "why_tests_cant": "all sizes and generator outcomes", "anchors": ["eo/src/eoInit.h", "eo/src/eoPop.h: eoPop, append"]}
{"id": "C62", "title": "Sequential operators act on the whole group", "statement": "Inside a breeder, an eoSequentialOp whose rates always fire applies each of its mutations, in order, to every individual produced by its first operator (both children of a crossover), and to nobody else. (Proportional containers inside a sequence are in C90.)", "quantifier": "every list of operators, group size, prefix already produced and random outcome", "why_tests_cant": "arbitrary operator lists and group sizes", "anchors": ["eo/src/eoOpContainer.h: eoSequentialOp, eoProportionalOp", "eo/src/eoPopulator.h"]}
{"id": "C63", "title": "One-to-one breeder", "statement": "eoOneToOneBreeder produces the requested number of offspring; each is either a parent or the evaluated result of applying the operator to that parent, the latter only when it is at least as good or the replacement probability fires against keeping the better one; with probability one no offspring is worse than its parent.", "quantifier": "every population, single-parent operator, evaluator, selection and random outcome", "why_tests_cant": "arbitrary operators and outcomes", "anchors": ["eo/src/eoOneToOneBreeder.h"]}
{"id": "C64", "title": "Individuals and populations survive a text round trip", "statement": "Printing an eoVector, eoBit or eoPop and reading it back, from a stream that may continue with other text and into an object that may hold anything, restores the same genes in the same order and the same readable fitness (or the same invalidity), and leaves the following text in the stream. (Empty bit strings and eoDualFitness are in C96.)", "quantifier": "every vector, non-empty bit string or population of these, every fitness type whose text reads back, every target object and following text", "why_tests_cant": "all populations and stream contents", "anchors": ["eo/src/EO.h: printOn, readFrom", "eo/src/eoVector.h: printOn, readFrom", "eo/src/ga/eoBit.h: printOn, readFrom", "eo/src/eoPop.h: printOn, readFrom", "eo/src/eoDualFitness.h: operator<<, operator>>"]}
{"id": "C65", "title": "State registration", "statement": "Every object registered in an eoState gets a distinct name and the sections keep the registration order. (Loading is in C96.)", "quantifier": "every sequence of registrations, every file content, every set of registered objects", "why_tests_cant": "arbitrary registrations and files", "anchors": ["eo/src/utils/eoState.cpp", "eo/src/utils/eoState.h"]}
{"id": "C66", "title": "Fitness arithmetic and assembled fitnesses", "statement": "Adding, subtracting or dividing dual fitnesses combines the values, gives a feasible result exactly when all the operands are feasible and leaves the operands unchanged. Non-empty assembled fitnesses are ordered by their first term (a strict weak order) and describing a term of the table changes that description only. (Scalar operands, averages, empty assembled fitnesses and new terms are in C97.)", "quantifier": "all fitnesses, all lists of terms, all tables of descriptions", "why_tests_cant": "order axioms and sums over arbitrary lists", "anchors": ["eo/src/eoDualFitness.h: operator+=, operator+, eoDualPopSplit", "eo/src/eoScalarFitnessAssembled.h: push_back, setDescription, operator<", "eo/src/utils/eoStat.h: eoAverageStat"]}
{"id": "C67", "title": "The other comparators of objective vectors match their definitions", "statement": "Weak comparison means nowhere worse; strict comparison means better by at least the tolerance in every objective; epsilon comparison is weak comparison after dividing by epsilon; g-dominance prefers vectors on one side of the reference point and otherwise is Pareto domination, and stays a strict order; dual vectors prefer feasibility; the lexicographic comparator compares the first differing objective.", "quantifier": "all vectors of any number of objectives, directions, tolerances (positive for the strict comparator)", "why_tests_cant": "infinitely many vectors", "anchors": ["moeo/src/comparator/moeoWeakObjectiveVectorComparator.h", "moeo/src/comparator/moeoStrictObjectiveVectorComparator.h", "moeo/src/comparator/moeoEpsilonObjectiveVectorComparator.h", "moeo/src/comparator/moeoGDominanceObjectiveVectorComparator.h", "moeo/src/comparator/moeoObjectiveObjectiveVectorComparator.h", "moeo/src/core/moeoDualRealObjectiveVector.h"]}
{"id": "C68", "title": "Multi-objective selectors return what they promise", "statement": "The multi-objective deterministic tournament returns a best of the individuals drawn, the stochastic one the better of two when the flip succeeds and the other otherwise; archive selection returns between min and max members of a non-empty archive (all of it when it fits); unvisited selection returns exactly the unvisited positions; the roulette wheel over the true total returns the individual whose slot contains the number drawn. (moeoRouletteSelect itself is in C95.)", "quantifier": "all populations, archives, comparators that are strict weak orders, random draws, sizes", "why_tests_cant": "infinitely many populations and draws", "anchors": ["moeo/src/selection/moeoSelectors.h", "moeo/src/selection/moeoDetTournamentSelect.h", "moeo/src/selection/moeoRouletteSelect.h", "moeo/src/selection/moeoDetArchiveSelect.h", "moeo/src/selection/moeoNumberUnvisitedSelect.h", "moeo/src/selection/moeoExhaustiveUnvisitedSelect.h"]}
{"id": "C69", "title": "Random-best and neutral hill climbing and random walks keep their promises", "statement": "moRandomBestHC climbs like moSimpleHC whatever its draws, can move to any of the best neighbors, and ends in a local optimum when it stops by itself; moNeutralHC moves only to best neighbors of at least the same fitness and takes at most nbStep moves; moRandomWalk moves from neighbor to neighbor with exact fitnesses; moRandomNeutralWalk never changes the fitness and takes at most nbStep moves.", "quantifier": "every landscape, neighborhood, start and sequence of random draws", "why_tests_cant": "all landscapes and random draws", "anchors": ["mo/src/explorer/moRandomBestHCexplorer.h", "mo/src/explorer/moNeutralHCexplorer.h", "mo/src/explorer/moRandomWalkExplorer.h", "mo/src/explorer/moRandomNeutralWalkExplorer.h"]}
{"id": "C70", "title": "Iterated local search follows its acceptance criterion", "statement": "Each turn of moLocalSearch with moILSexplorer applies the local search once, to the start itself at the first turn and to the perturbed current solution later; the result replaces the current solution exactly when the acceptance criterion says so. With moBetterAcceptCrit the solution is at every time the best of the start and of all local optima produced so far; with moAlwaysAcceptCrit the visited solutions are exactly the local optima produced. Only the continuator ends the search.", "quantifier": "every perturbation (with any memory), local search, continuator, start, random draws and number of turns", "why_tests_cant": "runs are unbounded and the operators arbitrary", "anchors": ["mo/src/explorer/moILSexplorer.h", "mo/src/acceptCrit/moAlwaysAcceptCrit.h", "mo/src/acceptCrit/moBetterAcceptCrit.h", "mo/src/algo/moLocalSearch.h"]}
{"id": "C71", "title": "Simulated annealing accepts by the Metropolis rule", "statement": "Every turn of moSAexplorer proposes one neighbor; a strictly better neighbor is always accepted, any other is accepted iff the uniform draw is below exp(-|difference|/temperature), where the temperature is that of the schedule after the answers so far; the stored fitness of every visited solution is its own evaluation; equal neighbors are always accepted; acceptance is monotone in temperature and in the loss. With the simple schedule every run ends.", "quantifier": "every neighborhood, exact evaluation, cooling schedule, continuator, start and sequence of draws", "why_tests_cant": "runs depend on unbounded sequences of random draws", "anchors": ["mo/src/explorer/moSAexplorer.h", "mo/src/coolingSchedule/moCoolingSchedule.h", "eo/src/utils/eoRNG.h"]}
{"id": "C72", "title": "Cooling schedules follow their closed form and stop", "statement": "moSimpleCoolingSchedule gives temperature init * alpha^(n div (span+1)) after n updates, continues exactly while it is above the final temperature, and stops if 0 <= alpha < 1 and the final temperature is positive. moDynSpanCoolingSchedule multiplies by alpha at the end of each span of tries or accepted moves, and stops exactly when more than nbSpanMax consecutive spans had no accepted move, so never while every span has one, whatever the temperature.", "quantifier": "every parameter setting and every history of accepted and refused moves", "why_tests_cant": "the history is unbounded and its interleaving arbitrary", "anchors": ["mo/src/coolingSchedule/moSimpleCoolingSchedule.h", "mo/src/coolingSchedule/moDynSpanCoolingSchedule.h"]}
{"id": "C73", "title": "Metropolis-Hastings search accepts by the fitness ratio", "statement": "With positive fitness, each turn of moMetropolisHastingExplorer proposes a neighbor, accepts a strictly better one, and otherwise accepts iff the uniform draw is below the ratio of the smaller to the larger fitness; it makes max(1, nbStep) turns unless the continuator stops it; fitnesses stay exact.", "quantifier": "every neighborhood, exact evaluation with positive values, continuator, start, nbStep and sequence of draws", "why_tests_cant": "runs depend on unbounded sequences of random draws", "anchors": ["mo/src/explorer/moMetropolisHastingExplorer.h"]}
{"id": "C74", "title": "Stopping criteria of local searches answer by their definition on every sequence of solutions", "statement": "After init, an iteration criterion lets a search make exactly max(1, maxIter) iterations unless the search stops by itself; a fitness criterion goes on exactly while the current fitness is worse than the target; an evaluation budget goes on exactly while fewer than the given number of evaluations were made since init (or in all, when not restarted); a no-improvement criterion goes on exactly while fewer than maxNoImprove solutions were shown or one of the last maxNoImprove beat the reference (so, given the best-so-far statistic of its own checkpoint, which is updated first, it only counts iterations); a combination goes on exactly while each of its criteria, shown every solution, would on its own.", "quantifier": "all sequences of solutions, bounds, starting states of the criteria, explorers and searches", "why_tests_cant": "the answers depend on the whole history of the search; tests follow one short history", "anchors": ["mo/src/continuator/moIterContinuator.h: moIterContinuator", "mo/src/continuator/moFitContinuator.h", "mo/src/continuator/moBestNoImproveContinuator.h", "mo/src/continuator/moCombinedContinuator.h", "mo/src/continuator/moEvalsContinuator.h", "mo/src/continuator/moNeighborEvalContinuator.h", "mo/src/continuator/moFullEvalContinuator.h", "mo/src/algo/moLocalSearch.h"]}
{"id": "C75", "title": "A local-search checkpoint calls its parts in order, once each, every iteration", "statement": "A checkpoint initialises its statistics, updaters and continuators once; at each iteration it computes the statistics that are due on the current solution (with one statistic or interval 1: every interval iterations; the exact rule is given in general), then calls each updater, monitor and continuator once in order, asks every continuator even after one has answered no, and goes on exactly when all agree; at the end each part but the continuators gets its last call once. The best-so-far statistic holds the first best solution shown.", "quantifier": "all numbers of parts, positive intervals, continuator behaviours (functions of everything called before) and sequences of solutions", "why_tests_cant": "which statistics are computed when depends on the number of iterations and of statistics", "anchors": ["mo/src/continuator/moCheckpoint.h: init, operator(), lastCall", "mo/src/continuator/moBestSoFarStat.h", "mo/src/algo/moLocalSearch.h: operator()"]}
{"id": "C76", "title": "An evolutionary checkpoint calls its parts once per generation and makes the last calls exactly once", "statement": "At each generation a checkpoint calls each sorted statistic on the sorted population, each statistic on the population, each updater, each monitor and each continuator once, in this order; it goes on exactly while all continuators agree, and at the generation where one does not, and only then, gives each part its last call. A counted saver writes the files numbered by the multiples of its interval, and the final one on the last call if asked to.", "quantifier": "all numbers of parts, continuator behaviours, sequences of populations, positive intervals and numbers of generations", "why_tests_cant": "a history property over unboundedly many generations", "anchors": ["eo/src/utils/eoCheckPoint.h: operator()", "eo/src/utils/eoUpdater.cpp: eoCountedStateSaver", "mo/src/utils/moCounterMonitorSaver.h"]}
{"id": "C77", "title": "A parse tree is numbered, iterated, assigned, saved and loaded consistently", "statement": "tree[i] is the i-th subtree in reverse polish order for every i below size(), with its true size and depth; iteration meets every node once in that order; assigning a subtree of another tree to tree[i] replaces that subtree only and keeps every size and depth right up to the root; saving then loading a tree (through a stream, a sequence, or back_inserter on a cleared tree) gives the same tree; any sequence the constructor accepts gives a well-formed tree; selection by cumulative size takes each subtree for as many values as it has nodes.", "quantifier": "all node types whose default node has arity 0, all well-formed trees, all positions, all complete sequences (assignments within one tree and new trees are in C98)", "why_tests_cant": "trees of any shape and depth; the kept sizes must be right at every node after any assignment", "anchors": ["eo/src/gp/parse_tree.h: subtree, operator[], operator=, init, push_back, ebegin, operator++, select_cumulative", "eo/src/gp/eoParseTree.h: printOn, readFrom"]}
{"id": "C78", "title": "Tree variation operators exchange or replace exactly one subtree and respect the maximum size", "statement": "Subtree crossover exchanges one subtree of each parent, any pair being possible; branch, expansion and collapse mutations replace one subtree (any, a terminal, a non-terminal) by a subtree (any, a non-terminal, a terminal) of a new tree; point mutation changes one node into one of the set with the same arity; hoist makes the tree one of its subtrees; the results are well formed with true sizes and depths, and, cut down by repeatedly keeping the first argument, of at most the maximum size.", "quantifier": "all parents, maximum sizes, initialisers that give well-formed trees, node sets with a node of every arity in the tree, and draws", "why_tests_cant": "every pair of positions in trees of every shape", "anchors": ["eo/src/gp/eoParseTreeOp.h", "eo/src/gp/eoParseTree.h: pruneTree"]}
{"id": "C79", "title": "The depth initialiser makes trees of the depth and shape asked, and cycles through ramped depths", "statement": "From a set with terminals the initialiser always ends with a well-formed tree of nodes of the set, at most as deep as asked, with every leaf at exactly that depth in full mode; in ramped half-and-half mode, among 2(max-1) successive trees each depth from 2 to max is used once to grow and once in full.", "quantifier": "all node sets sorted by arity with terminals, depths from 1, modes and draws", "why_tests_cant": "random recursive construction; any number of draws", "anchors": ["eo/src/gp/eoParseTreeDepthInit.h: generate, operator()"]}
{"id": "C80", "title": "A particle swarm remembers the best of each particle, of each neighborhood and of the whole run", "statement": "After any run of the asynchronous or synchronous swarm on a linear topology, every particle has been evaluated once per turn and once before; its remembered best is the first of the best positions evaluated for it, with the fitness of that position; the neighborhoods are consecutive blocks of the requested size (the last taking the rest); the best particle of a neighborhood is a copy of a member at a position evaluated for it and no position ever evaluated for a member is better; best(k) is the best of the neighborhood of k; globalBest() is an evaluated position that nothing evaluated beats; a neighborhood size not below the swarm size is refused with an exception.", "quantifier": "all fitness orders, evaluations, velocities, flights, velocity initialisers, swarm sizes, neighborhood sizes from 1, numbers of turns", "why_tests_cant": "the memory must be right after every history of moves of every particle", "anchors": ["eo/src/eoEasyPSO.h", "eo/src/eoSyncEasyPSO.h", "eo/src/eoLinearTopology.h", "eo/src/eoSocialNeighborhood.h", "eo/src/eoInitializer.h", "eo/src/eoParticleBestInit.h", "eo/src/PO.h", "eo/src/eoVectorParticle.h"]}
{"id": "C81", "title": "Standard velocities and flights compute their formula and stay inside their bounds", "statement": "The standard, constricted and extended velocities give, component by component, the documented combination of the old velocity, the attraction to the particle's own best, to its neighborhood's best and (extended) to the global best, brought back between the bounds that exist; the standard flight adds the velocity and brings the position back between its bounds, so every position evaluated after the first generation is inside the bounds; swarms with these functors always run to the end.", "quantifier": "all dimensions, coefficients, random numbers, consistent bounds (none, one or both for each coordinate), swarms and numbers of turns", "why_tests_cant": "every coordinate of every particle at every turn", "anchors": ["eo/src/eoStandardVelocity.h: operator()", "eo/src/eoConstrictedVelocity.h: operator()", "eo/src/eoExtendedVelocity.h: operator()", "eo/src/eoStandardFlight.h: operator()"]}
{"id": "C82", "title": "A ring topology sets up each neighborhood and its best", "statement": "After setup of a ring topology the neighborhood of particle i is the given number of particles around it and its best is the best of these. (Updates are in C99.)", "quantifier": "all neighborhood sizes from 1 to the number of particles, all swarms", "why_tests_cant": "all sizes and histories; the loop bound is an unsigned wrap-around that runs only for sizes nobody tests", "anchors": ["eo/src/eoRingTopology.h: setup, updateNeighborhood", "eo/src/eoLinearTopology.h: setup"]}
{"id": "C83", "title": "Islands only integrate what linked islands sent, once, and the model always terminates", "statement": "Whatever the interleaving of the island threads, the asynchronous deliveries and the scheduling thread: a population an island integrates was sent by an island linked to it in the topology and contains its migrants, re-evaluated, or nothing; an island integrates a message at most once; only its own algorithm and these integrations change an island's population; a message taken from the queue is sent to every linked island unless one of the two islands was seen stopped, and only stopped islands are seen so; at the end all the island threads have returned, no message is pending anywhere and what was integrated is exactly what was delivered; and from every point of every execution the model can go on to its end (no deadlock).", "quantifier": "all schedules, numbers of islands, topologies (graphs), algorithms, migration contents, integration policies and evaluations", "why_tests_cant": "a property of all interleavings of threads and futures", "anchors": ["smp/src/islandModel.cpp: operator(), send, update, initModel", "smp/src/island.cpp: operator(), send, receive, update"]}
{"id": "C84", "title": "Migrants sent by an island reach its neighbours", "statement": "The migrants an island sends are integrated by each neighbour that is still running when they are routed, and those sent before the islands stop are integrated by the last integration.", "quantifier": "all schedules, numbers of islands and topologies", "why_tests_cant": "depends on the interleaving of stops, sends and routing", "anchors": ["smp/src/islandModel.cpp: send 150-176, operator() 105-118"]}
{"id": "C85", "title": "Crossovers of real vectors stay on their segment or box and inside the bounds", "statement": "The children of the segment crossover are f*x+(1-f)*y and (1-f)*x+f*y with the same factor f in [-alpha, 1+alpha] for every coordinate; those of the hypercube crossover lie, coordinate by coordinate, between the parents or at most alpha times their distance beyond; the uniform crossover keeps or exchanges each pair; SBX keeps the sum of each pair and multiplies its difference by beta before bringing the values back into the bounds. If the parents are inside the bounds so are the children. The returned flag says whether the parents differ (hypercube) or whether some pair was changed (uniform). With enough random numbers the operators always return; a negative alpha is refused.", "quantifier": "all vectors, the second at least as long as the first, bounds of the four kinds (not reduced to a point for SBX), parameters and random numbers in [0,1); exact arithmetic", "why_tests_cant": "ranges over all vectors, bounds and draws", "anchors": ["eo/src/es/eoRealOp.h: eoSegmentCrossover, eoHypercubeCrossover, eoRealUXover", "eo/src/es/eoSBXcross.h: eoSBXCrossover"]}
{"id": "C86", "title": "Mutations of real vectors stay within their range and inside the bounds", "statement": "A uniform mutation moves each coordinate by at most its epsilon and never out of its bounds; the deterministic uniform mutation changes at most the announced number of coordinates; the normal mutations keep a vector that is inside its bounds inside them, and without bounds move each coordinate by sigma times a normal number or not at all. The size is kept, an answer of no change means the vector is unchanged, and a vector whose size is not that of the bounds is refused.", "quantifier": "all vectors, bounds, epsilons, sigmas, probabilities and random numbers; exact arithmetic; the epsilons and sigmas held by the operator", "why_tests_cant": "ranges over all vectors, bounds and draws", "anchors": ["eo/src/es/eoRealOp.h: eoUniformMutation, eoDetUniformMutation", "eo/src/es/eoNormalMutation.h: eoNormalVecMutation, eoNormalMutation"]}
{"id": "C87", "title": "Evolution-strategy operators keep deviations positive, angles in [-pi, pi] and variables in bounds", "statement": "After a self-adaptive mutation every deviation is its old value multiplied by the exponential of the documented combination of normal numbers, or the minimum 1e-40 if that is smaller; angles are in [-pi, pi]; variables are inside their bounds and the sizes are kept; without bounds each variable moves by its new deviation times a normal number, and the rotations of the correlated mutation keep the length of the step. Initial individuals have variables in bounds, the announced deviations and n(n-1)/2 angles in [-pi, pi). The standard crossover makes each variable from one parent and each strategy parameter between the two parents; the global crossover does so with two individuals of the population for each component and invalidates the fitness.", "quantifier": "all individuals, bounds, rates and random numbers; exact arithmetic, functions exp, sin, cos arbitrary except sin^2+cos^2=1", "why_tests_cant": "ranges over all individuals, bounds and draws", "anchors": ["eo/src/es/eoEsMutate.h", "eo/src/es/eoEsChromInit.h", "eo/src/es/eoEsStandardXover.h", "eo/src/es/eoEsGlobalXover.h", "eo/src/es/eoRealAtomXover.h"]}
{"id": "C88", "title": "The one-fifth success rule", "statement": "After each call the individual has the fitness of its genes and is inside its bounds. At each update the step size is divided by the factor if the successful mutations are more than the threshold fraction of the mutations of the last window generations, and multiplied by it otherwise (also when there was no mutation). A factor of 1 or more is refused.", "quantifier": "all histories of calls and updates, windows of at least one generation, thresholds, factors, evaluations and random numbers", "why_tests_cant": "a property of every history of calls and updates", "anchors": ["eo/src/es/eoNormalMutation.h: eoOneFifthMutation"]}
{"id": "C89", "title": "Documented checks and scalings of the real operators", "statement": "The uniform crossover throws when the sizes differ; the constructors scale epsilon and sigma to the range of each coordinate; the deterministic mutation without bounds moves coordinates by at most epsilon; the normal mutation without bounds works with any sigma; the correlated mutation rotates all pairs of variables and uses all the angles.", "quantifier": "all vectors, bounds and parameters", "why_tests_cant": "documented for all inputs", "anchors": ["eo/src/es/eoRealOp.h: eoRealUXover 490-491, eoUniformMutation 74-76, eoDetUniformMutation 176-178, 191-197", "eo/src/es/eoNormalMutation.h: 61, 77-79", "eo/src/es/eoEsMutate.h: 188-205"]}
{"id": "C90", "title": "Documented promises of operators, selection and replacement that fail", "statement": "(1) Stochastic universal sampling picks every individual floor(e) or ceil(e) times, e its expected share, for every draw. (2) eoRanking gives worths over the documented range. (3) eoDetBitFlip flips exactly k bits. (4) eoUniformBitMutation can flip any number of bits from 0 to all. (5) A breeder always ends. (6) Weak elitism keeps the best parent. (7) A proportional container inside a sequence acts on every individual of the group. (8) eoOneToOneBreeder works with any operator container.", "quantifier": "all populations, parameters and draws", "why_tests_cant": "documented for all inputs; a test samples a few", "anchors": ["eo/src/eoStochasticUniversalSelect.h", "eo/src/eoRanking.h", "eo/src/ga/eoBitOp.h", "eo/src/eoOpContainer.h", "eo/src/eoReduceMergeReduce.h", "eo/src/eoOneToOneBreeder.h"]}
{"id": "C91", "title": "Folding into bounds with doubles stays inside the bounds", "statement": "eoRealInterval::foldsInBounds computed in binary64 gives a value inside the interval.", "quantifier": "all doubles and intervals", "why_tests_cant": "rounding errors show only for particular values", "anchors": ["eo/src/utils/eoRealBounds.h: eoRealInterval::foldsInBounds"]}
{"id": "C92", "title": "Parallel code without undefined accesses", "statement": "The progressive scheduler has no data race, and the static assignment never accesses an element beyond the size of its vectors.", "quantifier": "all schedules, numbers of workers and runs", "why_tests_cant": "races and reads of reserved storage rarely show in a run", "anchors": ["smp/src/scheduler.cpp", "smp/src/scheduler.h", "eo/src/mpi/eoMpiAssignmentAlgorithm.cpp: StaticAssignmentAlgorithm::init"]}
{"id": "C93", "title": "Documented promises of local-search components that fail", "statement": "(1) The keys 0..(n-1)^2-1 of shift moves (as used in the tutorials) give every insertion once. (2) Random bit subsets with a non-exact distance are drawn with sizes 1..k. (3) A printed partition can be read back. (4) Variable neighborhood search ends with one heuristic, restarts at the first heuristic after an improvement, and can be run twice. (5) With several statistics a checkpoint computes each every interval iterations. (6) Tabu search returns the best solution visited with any diversification.", "quantifier": "all lengths, keys, heuristics, histories", "why_tests_cant": "documented for all inputs; a test samples a few", "anchors": ["mo/src/neighborhood", "mo/src/problems/permutation/moShiftNeighbor.h", "mo/src/problems/bitString/moBitsWithReplNeighborhood.h", "mo/src/problems/partition/moBinaryPartition.h", "mo/src/explorer/moVNSexplorer.h", "mo/src/continuator/moCheckpoint.h", "mo/src/explorer/moTSexplorer.h"]}
{"id": "C94", "title": "Incremental MaxSAT evaluation and Royal Road tails", "statement": "The incremental MaxSAT evaluation equals the full evaluation for every instance, random or read from a file, and incremental Royal Road evaluation is defined for every bit.", "quantifier": "all instances, solutions and moves", "why_tests_cant": "clauses with particular literals only", "anchors": ["mo/src/problems/eval/moMaxSATincrEval.h", "problems/eval/maxSATeval.h", "mo/src/problems/eval/moRoyalRoadIncrEval.h"]}
{"id": "C95", "title": "Documented promises of multi-objective components that fail", "statement": "(1) Two-objective sorting is right for any directions and repeated vectors. (2) Updating the depth assignment after a deletion recomputes it. (3) A dominance matrix can be used again for another population. (4) The fitness-diversity bounded archive keeps the best. (5) moeoRouletteSelect selects in proportion to fitness.", "quantifier": "all populations and histories", "why_tests_cant": "documented for all inputs; a test samples a few", "anchors": ["moeo/src/fitness/moeoDominanceDepthFitnessAssignment.h", "moeo/src/utils/moeoDominanceMatrix.h", "moeo/src/archive/moeoFitDivBoundedArchive.h", "moeo/src/selection/moeoRouletteSelect.h"]}
{"id": "C96", "title": "Documented promises of persistence that fail", "statement": "Reading an individual from an exhausted stream leaves it invalid; empty bit strings and individuals with an eoDualFitness survive a text round trip; loading a saved state restores the registered objects.", "quantifier": "all streams, individuals and states", "why_tests_cant": "documented for all inputs; a test samples a few", "anchors": ["eo/src/EO.h: readFrom", "eo/src/ga/eoBit.h: readFrom", "eo/src/eoDualFitness.h", "eo/src/utils/eoState.cpp: load"]}
{"id": "C97", "title": "Documented promises of fitness types that fail", "statement": "Operations with scalars leave their operands unchanged, averages keep feasibility, assembled fitnesses are ordered by a strict weak order, and appending a term describes it.", "quantifier": "all fitnesses and tables", "why_tests_cant": "documented for all inputs; a test samples a few", "anchors": ["eo/src/eoDualFitness.h", "eo/src/eoScalarFitnessAssembled.h", "eo/src/utils/eoStat.h: eoAverageStat"]}
{"id": "C98", "title": "Assignments within a parse tree and new trees", "statement": "Assigning a subtree of a tree to another position of the same tree (the documented tree[2] = tree[0]) keeps sizes and depths right; a new tree can be filled by back_inserter.", "quantifier": "all trees and positions", "why_tests_cant": "documented for all inputs; a test samples a few", "anchors": ["eo/src/gp/parse_tree.h: subtree::operator=, parse_tree::push_back"]}
{"id": "C99", "title": "Topologies kept up to date", "statement": "After every update of a particle the best of each neighborhood of a ring topology is the best of its particles, and setting up a topology for a new population makes its neighborhoods those of this population.", "quantifier": "all neighborhood sizes, swarms and updates", "why_tests_cant": "documented for all inputs; a test samples a few", "anchors": ["eo/src/pso/eoRingTopology.h: updateNeighborhood, setup", "eo/src/pso/eoLinearTopology.h: setup"]}
{"id": "C100", "title": "Command-line values of parameters", "statement": "For any list of ordinary command-line arguments (words without white space, not starting a comment or a \\section, not a lone dash, no response file) and any parameters declared afterwards in any order, with any prefix, every declared parameter holds: the value given by the last argument of its short form (-cvalue or -c=value) if there is one; else the value given by the last argument of its long form (--name=value or --name) ; else its default. valueOf(name) and isItThere(name) say the same, and valueOf throws for an unknown name. An argument that contains white space is treated as the several arguments it is cut into.", "quantifier": "all argument lists, all parameter declarations (names, short names, sections, types, defaults), all prefixes", "why_tests_cant": "the argument list, the parameters and the order of both are unbounded; tests run a few command lines", "anchors": ["eo/src/utils/eoParser.cpp: eoParser::eoParser, readFrom, getValue, doRegisterParam, processParam, getParam", "eo/src/utils/eoParser.h: createParam, isItThere, valueOf", "eo/src/utils/eoParam.h: eoValueParam::setValue"]}
{"id": "C101", "title": "Response files, comments and sections", "statement": "A response file (@file) acts exactly as if the arguments written in it, without its comments (from a word starting with # to the end of the line) and without the \\section blocks of other classes, stood before the command line's own arguments. So what the command line does not give comes from the file, and what it gives wins over the file, unless the command line uses only the long form while the file uses the short form. A file that cannot be opened makes the constructor throw.", "quantifier": "all file texts made of arguments, comments, sections and white space, all command lines, all parameters", "why_tests_cant": "file layouts are unbounded texts", "anchors": ["eo/src/utils/eoParser.cpp: eoParser::eoParser, readFrom"]}
{"id": "C102", "title": "When the parser asks for help", "statement": "After any declarations, userNeedsHelp() is true exactly when the arguments switch on --help/-h, or a required parameter is given by no argument, or (unless --stopOnUnknownParam=0) some argument is an option whose long or short name no declared parameter has. A lone dash on the command line asks for help and makes the parser ignore what follows.", "quantifier": "all argument lists, all declarations, all prefixes", "why_tests_cant": "needs every combination of declared and entered names", "anchors": ["eo/src/utils/eoParser.cpp: userNeedsHelp, doRegisterParam, readFrom"]}
{"id": "C103", "title": "Saving and reloading parameter settings", "statement": "Print a parser to a file, whatever values the program has meanwhile put in its parameters, and build another parser with that file as response file and the same declarations: every parameter the user had given holds the printed value again, and every other one its default; this holds for the help and stop parameters too. It requires distinct long names without white space or =, values whose text has no white space and reads back, and sections and descriptions without line break.", "quantifier": "all argument lists, all declarations in all sections, all values satisfying the stated conditions", "why_tests_cant": "a round trip over unbounded texts", "anchors": ["eo/src/utils/eoParser.cpp: printOn, printSectionHeader, readFrom, eoParser::eoParser"]}
{"id": "C104", "title": "Parser promises that fail", "statement": "Documented promises of eoParser: the command line has the highest priority over a response file; a stored and reloaded parser restores the parameter settings; setORcreateParam makes sure that the parameter has the given value.", "quantifier": "all files, command lines, declarations and values", "why_tests_cant": "they fail only for particular mixes of forms, for values set by the program or with blanks, and for already declared parameters", "anchors": ["eo/src/utils/eoParser.cpp: getValue, printOn", "eo/src/utils/eoParser.h: setORcreateParam"]}
{"id": "C105", "title": "Indicator-based fitness is the indicator sum, incremental updates agree with it, and it respects domination", "statement": "moeoExpBinaryIndicatorBasedFitnessAssignment, applied to a non-empty population after any sequence of earlier uses on other populations (smaller or larger), keeps every solution in place, sets the metric's bounds to the values the population spans on each objective (widened by 1e-6 on each side when they are all equal), and gives each solution minus the sum over the other solutions y of exp(-I(y,x)/kappa). updateByDeleting after a solution has been taken out and updateByAdding when one joins keep every fitness equal to that formula on the current population with the same bounds, through any sequence of departures and arrivals, and never fail. With the additive epsilon indicator, and with the hypervolume indicator when rho > 1, a solution that Pareto-dominates another always gets a strictly greater fitness. Arithmetic is exact.", "quantifier": "all numbers of objectives and directions, all populations and histories of populations, all sequences of departures and arrivals at any position, every positive strictly decreasing weight in place of exp(-x/kappa), all comparator tolerances, all rho", "why_tests_cant": "tests check a three-solution population once; the matrix is kept between calls and only sometimes resized, and the fitness after many incremental updates must equal the fitness computed afresh", "anchors": ["moeo/src/fitness/moeoExpBinaryIndicatorBasedFitnessAssignment.h: operator(), updateByDeleting, updateByAdding, setup, computeValues, computeFitness", "moeo/src/metric/moeoNormalizedSolutionVsSolutionBinaryMetric.h: setup", "moeo/src/metric/moeoAdditiveEpsilonBinaryMetric.h: operator()", "moeo/src/metric/moeoHypervolumeBinaryMetric.h: operator()"]}
{"id": "C106", "title": "The hypervolume indicator between two solutions is the difference of dominated volumes", "statement": "For two objective vectors inside the bounds, moeoHypervolumeBinaryMetric(o1,o2) returns the volume of the region, up to the reference point placed rho (at least 1) times the range from the best bound of each objective, that o2 dominates and o1 does not, as a fraction of the whole box; when o1 Pareto-dominates o2 it returns minus the volume o1 dominates and o2 does not. The value lies between -1 and 1 and is 0 for a vector against itself. Maximised objectives are measured from the other end.", "quantifier": "all numbers of objectives, directions, bounds with positive ranges, pairs of vectors inside them, rho (values below 1 count as 1), comparator tolerances", "why_tests_cant": "the recursion over objectives with its flag has exponentially many paths; tests fix two objectives and a couple of vectors", "anchors": ["moeo/src/metric/moeoHypervolumeBinaryMetric.h: moeoHypervolumeBinaryMetric, operator(), hypervolume"]}
{"id": "C107", "title": "Crowding diversity is the crowding distance", "statement": "moeoCrowdingDiversityAssignment gives every solution of the population exactly one diversity. With one or two solutions it is inf(). Otherwise there is, for each objective, an arrangement of the population by increasing value such that a solution at an end of one of them has diversity inf() (in particular every solution strictly better or strictly worse than all others on an objective), and any other solution has the sum over the objectives of the gap between its two neighbours divided by the gap between the two ends, hence a number between 0 and the number of objectives. It never fails. Each objective must take at least two different values.", "quantifier": "all populations of distinct individuals (equal objective vectors allowed), all numbers of objectives, all objective values, every std::sort meeting its contract, in exact arithmetic", "why_tests_cant": "each pass resorts the population while the partial sums of earlier objectives must follow their solution, and inf() must survive later additions; tests use four solutions", "anchors": ["moeo/src/diversity/moeoCrowdingDiversityAssignment.h: operator(), setDistances", "moeo/src/comparator/moeoOneObjectiveComparator.h: operator()"]}
{"id": "C108", "title": "Front-by-front crowding measures each front alone", "statement": "moeoFrontByFrontCrowdingDiversityAssignment gives every solution of the population exactly one diversity and leaves the population in its order. Within the solutions of one fitness value the diversities are exactly the crowding distances of those solutions alone: inf() for fronts of at most two solutions and at the ends of an arrangement by some objective, otherwise the sum of the relative gaps, where an objective constant on the front adds nothing. The diversity is never a NaN.", "quantifier": "all populations of distinct individuals, all fitness values, all numbers of objectives and values, every std::sort meeting its contract, in exact arithmetic", "why_tests_cant": "the fronts are found by scanning a sorted array of pointers and the inner loops re-sort slices of it; wrong slice ends only show for particular front sizes", "anchors": ["moeo/src/diversity/moeoFrontByFrontCrowdingDiversityAssignment.h: setDistances, lastIndex", "moeo/src/comparator/moeoFitnessThenDiversityComparator.h: operator()"]}
{"id": "C109", "title": "Nearest-neighbour diversity uses the distance to the k-th nearest other solution", "statement": "moeoNearestNeighborDiversityAssignment gives each solution of the population and of the archive the value -1/(2+d), where d is the distance to its index-th nearest neighbour among all other solutions of the population and the archive (the nearest for index 0, the farthest when there are fewer than index others). With non-negative distances it lies in [-1/2, 0). It never fails unless there is exactly one solution altogether.", "quantifier": "all populations and archives except a single solution in total, all symmetric distances, all indices, every list sort meeting its contract, in exact arithmetic", "why_tests_cant": "the half-matrix loops must give every solution the distances to all others once; tests compare one small case", "anchors": ["moeo/src/diversity/moeoNearestNeighborDiversityAssignment.h: operator(), getElement"]}
{"id": "C110", "title": "Sharing diversity is the niche count inverted", "statement": "moeoSharingDiversityAssignment gives each solution the largest niche count of the population minus its own niche count, the niche count being the sum of 1-(d/nicheSize)^alpha over the solutions at distance d smaller than nicheSize, itself included. moeoFrontByFrontSharingDiversityAssignment does the same counting only the solutions of the same fitness. No diversity is negative and at least one is 0.", "quantifier": "all non-empty populations, all symmetric distances that are 0 from a solution to itself, every closeness function, all niche sizes and fitness values, in exact arithmetic", "why_tests_cant": "the matrix is filled by half and mirrored, then altered pair by pair; tests check one small case", "anchors": ["moeo/src/diversity/moeoSharingDiversityAssignment.h: operator(), setSimilarities, sh", "moeo/src/diversity/moeoFrontByFrontSharingDiversityAssignment.h: setSimilarities", "moeo/src/distance/moeoDistanceMatrix.h: operator()"]}
{"id": "C111", "title": "Pareto local search ends in a Pareto local optimum set", "statement": "At the end of any run of moeoUnifiedDominanceBasedLS (moeoPLS1, moeoPLS2 and every other combination), whatever earlier runs filled the archive: its members are mutually non-dominated with pairwise different objective vectors, each carries its own objective vector and was obtained from a start by a chain of moves, every start is dominated by or equal to a member, and every neighbour of a member flagged as visited is dominated by or equal to a member. A run that is not cut short by its continuator ends with a Pareto local optimum set: no neighbour of any member would bring anything new.", "quantifier": "all problems, neighborhoods that enumerate their keys (in order or at random without replacement are shown to), all numbers of objectives, all four neighborhood explorers, every selector, archives with and without replacement, all histories of runs, populations and draws, in exact arithmetic", "why_tests_cant": "the visited flags, the archive's removals and the explorers' early stops interact over the whole run; tests look at one turn", "anchors": ["moeo/src/algo/moeoUnifiedDominanceBasedLS.h: operator(), moeoContinue", "moeo/src/explorer/moeoExhaustiveNeighborhoodExplorer.h: explore", "moeo/src/explorer/moeoFirstImprovingNeighborhoodExplorer.h: explore", "moeo/src/explorer/moeoNoDesimprovingNeighborhoodExplorer.h: explore", "moeo/src/explorer/moeoSimpleSubNeighborhoodExplorer.h: explore", "moeo/src/algo/moeoPLS1.h: moeoPLS1", "moeo/src/algo/moeoPLS2.h: moeoPLS2"]}
{"id": "C112", "title": "Pareto local search ends", "statement": "With an archive that does not replace equal vectors, an explorer that looks at the whole neighborhood or stops at an improving neighbour, and a selector of at least one unvisited solution, a run makes at most N+2 turns, N being the number of objective vectors that can be reached by moves from the starts; if the neighborhood never fails it returns.", "quantifier": "all problems with finitely many reachable objective vectors in which every solution has a neighbour, all histories of earlier runs, all populations, both selectors with any number >= 1, every shuffle, every continuator, in exact arithmetic", "why_tests_cant": "termination for every problem and every order of exploration needs a measure that strictly decreases; a test can only stop waiting", "anchors": ["moeo/src/algo/moeoUnifiedDominanceBasedLS.h: operator()", "moeo/src/selection/moeoExhaustiveUnvisitedSelect.h: operator()", "moeo/src/selection/moeoNumberUnvisitedSelect.h: operator()"]}
{"id": "C113", "title": "Pareto local search ends for every documented combination of components", "statement": "A run of a dominance-based local search without a stopping continuator ends whatever archive, explorer and selector are used, and moeoDMLSMonOp turns its argument into a solution found from it.", "quantifier": "all archives, explorers, selectors and problems with finitely many solutions", "why_tests_cant": "non-termination cannot be observed in a finite test", "anchors": ["moeo/src/algo/moeoUnifiedDominanceBasedLS.h: operator()", "moeo/src/archive/moeoUnboundedArchive.h: moeoUnboundedArchive", "moeo/src/hybridization/moeoDMLSMonOp.h: operator()"]}
{"id": "C114", "title": "eoFastGA breeds, evaluates and replaces as documented", "statement": "Each generation of eoFastGA calls the replacement with exactly as many offspring as the size given (the population's size if 0), each obtained from members of the population by the selected crossover or not, then the mutation or not, and each with the fitness of its genotype. Every population of the run is evaluated and comes from the one before by such a generation; the result is the last one, and when the evaluation gives up, the population before the interrupted generation.", "quantifier": "all rates, selectors that return members, honest variations, replacements that keep members, continuators, populations, draws and points where the evaluation gives up", "why_tests_cant": "the four branches (crossover or not, mutation or not) and the interruption can happen in any order over any number of generations", "anchors": ["eo/src/eoFastGA.h: operator()"]}
{"id": "C115", "title": "The algorithm foundry runs the selected operators within the budget", "statement": "eoAlgoFoundryFastGA runs eoFastGA on exactly the operators its encoding selects, with the rates capped to their ranges, and refuses any other encoding; it makes at most the given number of evaluations, is cut exactly when they are all used and leaves an evaluated population; if the variations always change what they are given, it ends whatever the continuator.", "quantifier": "all contents of the forges, all encodings, all budgets, all populations and draws", "why_tests_cant": "every combination of operators and every budget must do this", "anchors": ["eo/src/eoAlgoFoundryFastGA.h: operator()", "eo/src/eoAlgoFoundry.h: select, at, rank, value", "eo/src/eoForge.h: eoForgeVector, eoForgeScalar", "eo/src/eoEvalCounterThrowException.h: operator()"]}
{"id": "C116", "title": "References handed out by an eoForgeVector", "statement": "instantiate gives the operator set up last at that index: a new one without the cache or when none was instantiated since the last set up, otherwise the same one. A reference stays usable, and the operator changes only by its own use, until its forge is set up again (or, without the cache, instantiated again), whatever is asked of the other forges; then the reference is dead. An index never added is refused; the destructor deletes every operator, each once.", "quantifier": "all sequences of add, setup, instantiate and use, cached or not", "why_tests_cant": "use after delete, double delete and leaks depend on the whole history of requests", "anchors": ["eo/src/eoForge.h: eoForgeOperator::instantiate, eoForgeVector::add, setup, instantiate"]}
{"id": "C117", "title": "eoAlgoRestart restarts from fresh populations", "statement": "Each run of the wrapped algorithm gets a population entirely made by the initialiser and evaluated, of the given size or of the size the run before left; the result is that of the last run, the first after which the continuator says to stop.", "quantifier": "all initialisers, algorithms, continuators, starting populations and numbers of restarts", "why_tests_cant": "holds for every history of restarts, including algorithms that change the population's size", "anchors": ["eo/src/eoAlgoRestart.h: operator()", "eo/src/eoAlgoReset.h: eoAlgoReset, eoAlgoPopReset"]}
{"id": "C118", "title": "Documented behaviour of the forges", "statement": "instantiate_ptr caches like instantiate and never returns an empty pointer; a forge of a map can be replaced by adding one under the same name; a fractional index is refused; eoFastGA built with size 0 uses the size of the population it is called on.", "quantifier": "all forges, indices and populations", "why_tests_cant": "one wrong case is enough", "anchors": ["eo/src/eoForge.h: instantiate_ptr, eoForgeMap::add, instantiate_from", "eo/src/eoFastGA.h: operator()"]}
{"id": "C119", "title": "Worths stay with their individuals, and selection follows them", "statement": "Sorting a population by worth keeps every individual with its worth and puts the best first; resizing then keeps the individuals of best worth. With the caching version, after any sequence of calls on populations and sorts, every member has the worth that was computed for its fitness, and a population with other fitnesses is always computed again. The tournaments and the roulette on worths return the individual whose worth wins (for the roulette, an interval of draws as long as its worth), and a debug build never returns an individual whose fitness changed since setup.", "quantifier": "all populations, worths, sequences of calls and sorts, draws, tournament sizes and rates, worth computations and comparisons", "why_tests_cant": "holds for every history of calls and sorts, ties included, and every std::sort", "anchors": ["eo/src/eoPerf2Worth.h: eoPerf2Worth::sort_pop, resize, eoPerf2WorthCached::operator(), sort_pop", "eo/src/eoSelectFromWorth.h: eoSelectFromWorth, eoDetTournamentWorthSelect, eoStochTournamentWorthSelect, eoRouletteWorthSelect"]}
{"id": "C120", "title": "Linear fitness scaling", "statement": "Unless all the fitnesses are equal, eoLinearFitScaling gives each individual the larger of 0 and a value linear in its fitness, 1/n for the average fitness and pressure/n for the best; these values add up to 1, and with a pressure of at least 1 a fitter individual never has a smaller worth.", "quantifier": "all pressures and all populations with two different fitnesses (exact arithmetic)", "why_tests_cant": "for every population, not a few literal ones", "anchors": ["eo/src/eoLinearFitScaling.h: operator()"]}
{"id": "C121", "title": "Fitness sharing", "statement": "eoSharing divides the fitness of each individual by its niche count: 1 for itself plus 1-d/size for each other individual at a distance d within the niche size. An individual with no neighbour keeps its fitness, the count is at least 1, and a population of fewer than two individuals is refused.", "quantifier": "all populations, fitnesses, positive niche sizes and symmetric distances (exact arithmetic)", "why_tests_cant": "for every population and distance; the matrix is filled by halves", "anchors": ["eo/src/eoSharing.h: eoSharing::operator()"]}
{"id": "C122", "title": "Non-dominated sorting gives worths front by front", "statement": "eoNDSorting computes the fronts of non-dominated sorting: the members of front k get worths in (T-k-1, T-k] for one T, so a dominated individual always has a strictly smaller worth than the one that dominates it; inside a front the worths are ordered by the niche penalty. This holds for any number of objectives, for two objectives (each minimised or maximised) with the binary search, where the option to remove clones puts all copies but one in the last front; with one objective the worths are n, n-1, ... in the order of the fitnesses. The penalty of eoNDSorting_I is the sum of the closeness of the other members; that of eoNDSorting_II, on a front of at least two members, is never negative, 0 for a member extreme in every objective and at least 1 for a member between others.", "quantifier": "all populations, objective directions, penalties that are not negative, and every std::sort; for two objectives, objective values that are equal or differ by at least the tolerance", "why_tests_cant": "the fronts depend on all pairs of individuals; ties and clones in any position", "anchors": ["eo/src/eoNDSorting.h: one_objective, two_objectives, m_objectives, rank_to_worth, Sorter, eoNDSorting_I::niche_penalty, eoNDSorting_II::niche_penalty", "eo/src/pyeo/PyEO.cpp: PyFitness::dominates"]}
{"id": "C123", "title": "Documented behaviour of the worths", "statement": "With eoNDSorting_II a dominating individual has a larger worth; after a call the worths are those of the population; after a computation that threw, the next call computes again; with linear scaling the best is selected with probability pressure/n.", "quantifier": "all populations", "why_tests_cant": "one wrong case is enough", "anchors": ["eo/src/eoNDSorting.h: eoNDSorting_II::niche_penalty", "eo/src/eoPerf2Worth.h: eoPerf2WorthCached::operator(), resize", "eo/src/eoLinearFitScaling.h: operator()"]}
{"id": "C124", "title": "The two-objective hypervolume archive", "statement": "After any sequence of offers, the members of moeo2DMinHypervolumeArchive were all offered, are at most max(2, maxSize), are sorted so that from one to the next one objective gets strictly worse and the other strictly better, and each has for fitness the area that it alone covers (maxValue for the first and the last). An offered solution that a member covers is refused and nothing changes; otherwise exactly the members it covers leave, it takes its place, and if one member too many remains, one of those that contribute least is removed. The answer is whether the solution is in the archive afterwards, and for a population whether one of its solutions was taken.", "quantifier": "all capacities, extreme values and sequences of offers whose execution is defined (see C126), two minimised objectives, exact arithmetic", "why_tests_cant": "for every history of offers, ties included; the fitnesses are updated incrementally", "anchors": ["moeo/src/archive/moeo2DMinHypervolumeArchive.h: operator(), remove, insert, filter, filterbis, compute, computeFitness, computeTmp, hypervolumeComparator"]}
{"id": "C125", "title": "The two-objective archive keeps the Pareto front while it does not overflow", "statement": "As long as no more solutions were offered than the capacity, offering is defined, each member is undominated among everything offered, and every offered solution is covered by a member.", "quantifier": "all sequences of offers of at most max(2, maxSize) solutions", "why_tests_cant": "for every order of offers", "anchors": ["moeo/src/archive/moeo2DMinHypervolumeArchive.h: operator(), remove, insert"]}
{"id": "C126", "title": "Offering to the two-objective hypervolume archive is always defined", "statement": "Whatever was offered before, offering a solution to the archive has a defined effect.", "quantifier": "all sequences of offers, capacities and extreme values", "why_tests_cant": "one undefined case is enough, and it depends on the whole history", "anchors": ["moeo/src/archive/moeo2DMinHypervolumeArchive.h: computeTmp, filter, filterbis"]}
{"id": "C127", "title": "The epsilon hyperbox archive", "statement": "Whatever is offered to moeoEpsilonHyperboxArchive, offering (and filtering again) is defined; the members are solutions that were offered, at least one remains once something was offered, and all lie between the ideal and the nadir points. An offer either keeps some of the members, or keeps some of them and adds the solution, with answer true; in that case the ideal and nadir points are exactly the best and worst values of the members. Of two solutions of the same hyperbox that do not dominate each other, the one closer to the corner is kept. If every new solution differs from some member on each objective, no member is at least as good as another on all objectives: neither dominated members nor duplicates.", "quantifier": "all numbers and directions of objectives, epsilon vectors (positive for the last part), tolerances of the comparator (at least 0 and under 1 for the last part) and sequences of offers; exact arithmetic", "why_tests_cant": "for every history of offers; the hyperboxes are rescaled along the way", "anchors": ["moeo/src/archive/moeoEpsilonHyperboxArchive.h: operator(), changeBounds, changeBoundsByDeleting, recalculateBounds, hyperbox, filtre", "moeo/src/utils/moeoObjectiveVectorNormalizer.h: operator(), change_scale"]}
{"id": "C128", "title": "Documented behaviour of the epsilon hyperbox archive", "statement": "The answer is true exactly when the solution is non-dominated; a solution is stored once; a solution only leaves the archive for one that is at least as good.", "quantifier": "all sequences of offers", "why_tests_cant": "one wrong history is enough", "anchors": ["moeo/src/archive/moeoEpsilonHyperboxArchive.h: operator(), changeBounds"]}
{"id": "C129", "title": "The SPEA2 archive", "statement": "While moeoSPEA2Archive is not full, an offered population gives it exactly its best individuals by fitness plus diversity, as many as there is room for. A full archive keeps its size: the worst members whose fitness is at most -1 are replaced, in order, by the best individuals while these are better, the best member being spared unless it is alone; the following individuals with fitness above -1 then join, and the most crowded elements (lexicographic order of the sorted distances to the others) are removed one at a time until the size is back. With populations at least as large as the capacity, and of two individuals at least, every history is defined, the archive has min(capacity, number offered) members and all of them were offered.", "quantifier": "all fitnesses, diversities, symmetric distances, strict weak orders on individuals, capacities and sequences of populations; any std::sort meeting its contract; exact arithmetic", "why_tests_cant": "for every population and history; the truncation is an iterated lexicographic selection", "anchors": ["moeo/src/archive/moeoSPEA2Archive.h: operator(), Cmp, CmpVector, CmpPair"]}
{"id": "C130", "title": "The SPEA2 archive accepts any population, and follows the current fitness", "statement": "Any individual or population can be offered to the archive at any time, and a better population always improves it.", "quantifier": "all archives and populations", "why_tests_cant": "one wrong history is enough", "anchors": ["moeo/src/archive/moeoSPEA2Archive.h: operator()"]}
{"id": "C131", "title": "Statistics of a neighborhood", "statement": "moNeighborhoodStat, on an evaluated solution that has neighbors, reports the best and the worst fitness among the neighbors visited, their mean, their standard deviation (n - 1 in the denominator), their values of rank n/4, n/2 and 3n/4 in increasing order, their number, and how many are equal to, better and worse than the solution; the three counts add up to the number of neighbors. With an order neighborhood of size n exactly the n neighbors are counted.", "quantifier": "all solutions, neighborhoods, evaluations, strict weak orders of fitnesses, conversions to double and sorting functions meeting the contract; exact arithmetic", "why_tests_cant": "for every neighborhood and every fitness order", "anchors": ["mo/src/continuator/moNeighborhoodStat.h: operator(), getMin, getMax, getMean, getSD, getQ1, getMedian, getQ3, getSize, getNbSup, getNbEqual, getNbInf"]}
{"id": "C132", "title": "moStatistics: averages, distances, autocorrelations", "statement": "moStatistics::basic gives the least and the greatest value, the average and the standard deviation of non-empty data. distances gives the matrix of the distances between all pairs. autocorrelation, for 1 <= nbS < n, gives for every lag s the correlation between the first n - s values and the last n - s ones, and partial autocorrelations phi(k) that are the last coefficients of solutions of the Yule-Walker equations of order k.", "quantifier": "all data, all numbers of lags 1 <= nbS < n, all symmetric distances; exact arithmetic, any square root function", "why_tests_cant": "for every sequence; the recursion of the partial autocorrelations must solve a linear system at every order", "anchors": ["mo/src/sampling/moStatistics.h: basic, distances, autocorrelation"]}
{"id": "C133", "title": "moStatistics and moNeighborhoodStat on the border cases", "statement": "autocorrelation accepts every number of lags, and the statistics of a solution without neighbors say so.", "quantifier": "all data, all numbers of lags, all solutions", "why_tests_cant": "one wrong case is enough", "anchors": ["mo/src/sampling/moStatistics.h: autocorrelation", "mo/src/continuator/moNeighborhoodStat.h: operator()"]}
{"id": "C134", "title": "Evaluating a neighbor by modifying the solution", "statement": "moFullEvalByModif gives a neighbor the fitness of the moved solution, the same as moFullEvalByCopy, and leaves the solution with its genotype and its fitness exactly as they were, for every move that moveBack undoes; bit flips, swaps, 2-opt and shifts are such moves. An invalid solution makes it throw.", "quantifier": "all evaluated solutions, all neighbors whose moveBack undoes the move, all evaluation functions", "why_tests_cant": "for every solution and neighbor", "anchors": ["mo/src/eval/moFullEvalByModif.h: operator()", "mo/src/problems/permutation/moShiftNeighbor.h: moveBack"]}
{"id": "C135", "title": "Perturbations and pure random search", "statement": "moMonOpPerturb applies its operator the given number of times, or a random number of times in [min, max), leaves the solution evaluated and answers whether some application changed it. moRestartPerturb replaces the solution by a new evaluated one exactly when its counter has reached the threshold; in an iterated local search a turn restarts exactly when the turns since the last acceptance or restart, that one included, reach the threshold. moNeighborhoodPerturb on n neighbors in order applies the neighbor whose rank is the number of turns since the last acceptance modulo n, so that n turns in a row without acceptance try every neighbor once. moRandomSearch visits nbSolMax solutions (nbSolMax >= 2) drawn one after the other and ends on the last one.", "quantifier": "all operators, initialisers, local searches, acceptance criteria, continuators, thresholds and runs", "why_tests_cant": "for every run of the iterated local search, of any length", "anchors": ["mo/src/perturb/moMonOpPerturb.h", "mo/src/perturb/moRestartPerturb.h", "mo/src/perturb/moNeighborhoodPerturb.h", "mo/src/memory/moCountMoveMemory.h", "mo/src/explorer/moILSexplorer.h: updateParam", "mo/src/algo/moRandomSearch.h"]}
{"id": "C136", "title": "Perturbations count what they are documented to count", "statement": "The counter of moCountMoveMemory is the number of successive turns without a move since the last move, nbNoMove the number of turns without a move; moNeighborhoodPerturb starts again from the first neighbor after a move; moMonOpPerturb can reach its maximum number of applications; moRandomSearch visits nbSolMax solutions.", "quantifier": "all runs", "why_tests_cant": "one wrong run is enough", "anchors": ["mo/src/explorer/moILSexplorer.h: updateParam", "mo/src/memory/moCountMoveMemory.h", "mo/src/perturb/moNeighborhoodPerturb.h", "mo/src/perturb/moMonOpPerturb.h", "mo/src/algo/moRandomSearch.h"]}
{"id": "C137", "title": "Repairers and bounders of edo", "statement": "edoBounderBound gives the point of the box nearest to the solution on every component and does not touch the components already inside; edoBounderUniform and edoBounderRng redraw exactly the components outside and give a point of the box. edoRepairerFloor, edoRepairerCeil, edoRepairerRound, edoRepairerRoundDecimals and edoRepairerModulo give the greatest integer below, the least above, a nearest multiple of the step, and a remainder of the sign of the value smaller than the denominator, and invalidate the fitness. edoRepairerDispatcher sends each component through the repairers whose index sets contain it, in order, leaves the others as they are, and throws on an index out of range. A sampler with a bounder only produces solutions of the box.", "quantifier": "all solutions, boxes, draws, index sets (of any number and overlap) and repairers; exact arithmetic", "why_tests_cant": "for every solution, box and composition of repairers", "anchors": ["edo/src/edoBounderBound.h", "edo/src/edoBounderUniform.h", "edo/src/edoBounderRng.h", "edo/src/edoRepairerApply.h", "edo/src/edoRepairerRound.h", "edo/src/edoRepairerModulo.h", "edo/src/edoRepairerDispatcher.h", "edo/src/edoSampler.h"]}
{"id": "C138", "title": "Estimators and samplers of edo", "statement": "The uniform estimator gives the least and the greatest value of each component, the binomial one the proportion of ones, the mono-normal one (an online computation) the average and the variance, the multi-normal one the averages. The uniform sampler stays in the box, below its upper bounds, with one draw per component; what is sampled from a binomial estimation agrees with the population on every component on which the population agrees.", "quantifier": "all non-empty populations of solutions of the same size and all draws; exact arithmetic", "why_tests_cant": "for every population", "anchors": ["edo/src/edoEstimatorUniform.h", "edo/src/edoEstimatorBinomial.h", "edo/src/edoEstimatorNormalMono.h", "edo/src/edoEstimatorNormalMulti.h", "edo/src/edoSamplerUniform.h", "edo/src/edoSamplerBinomial.h", "edo/src/edoSamplerNormalMono.h"]}
{"id": "C139", "title": "Cholesky factorizations and multi-normal sampling", "statement": "For every symmetric positive definite matrix, the standard factorization of edo computes the lower triangular L with positive diagonal such that L L^T is the matrix, and it is the only one; the LDLT factorization computes L with unit diagonal and D positive such that L D L^T is the matrix, and the scaled root is the same L. The variants with the absolute value or the zeroing of a negative pivot give the same result on these matrices. Sampling by mean + L z, where the components of z have mean 0, variance 1 and no covariance, gives the mean and the matrix as the covariance.", "quantifier": "all symmetric positive definite real matrices of any size, all means and all linear expectations with the moments of independent standard normals", "why_tests_cant": "for every matrix of every size", "anchors": ["edo/src/utils/edoCholesky.h: edoCholeskyLLT, edoCholeskyLLTabs, edoCholeskyLLTzero, edoCholeskyLDLT", "edo/src/edoSamplerNormalMulti.h"]}
{"id": "C140", "title": "The adaptive estimation-of-distribution loop", "statement": "edoAlgoAdaptive started on an evaluated population only shows evaluated populations to its stopping criterion, keeps the population size when the replacement does, ends with the last population shown, stops because a continuator said so, and ends whenever continuing decreases a count. With the uniform distribution estimated from selected individuals and sampled, no individual ever leaves the bounding box of the first population. edoCombinedContinue goes on exactly when all its continuators do, asked in order up to the first that stops.", "quantifier": "all populations, selections, estimators, samplers, evaluators, replacements, continuators and runs of any length", "why_tests_cant": "for every run", "anchors": ["edo/src/edoAlgoAdaptive.h: operator()", "edo/src/edoEDA.h", "edo/src/edoContinue.h: edoCombinedContinue"]}
{"id": "C141", "title": "What edo documents and does not do", "statement": "edoEDASA accepts a candidate by the Metropolis criterion; bounders leave the fitness valid only if the solution is unchanged; edoEstimatorNormalMulti estimates the variance-covariance matrix; edoUniformCenter, edoNormalMonoCenter and edoNormalMultiCenter move the center of the distribution.", "quantifier": "all populations, temperatures and draws", "why_tests_cant": "one wrong execution is enough", "anchors": ["edo/src/edoEDASA.h: operator()", "edo/src/edoBounderBound.h", "edo/src/edoEstimatorNormalMulti.h", "edo/src/edoUniformCenter.h", "edo/src/edoNormalMonoCenter.h", "edo/src/edoNormalMultiCenter.h"]}
{"id": "C142", "title": "Contribution, epsilon indicators and the sets of the entropy between two Pareto sets", "statement": "The contribution is between 0 and 1 as soon as a set is not empty; the contributions of A against B and of B against A add up to 1 when no set contains a vector twice; a set against itself gives 1/2; for a set of mutually non-dominated vectors it is 1 exactly when every vector of the other set is dominated by one of its vectors; between two sets of mutually non-dominated vectors without common vector it is the share of the first set in the front of both. The additive epsilon indicator is the least amount by which the first set must be improved (in the objectives, or in the objectives normalised by their range over both sets when no objective is constant) so that each vector of the second is weakly dominated; it is at most 0 exactly when the first set already weakly dominates the second, and without normalisation it satisfies the triangle inequality. The multiplicative epsilon indicator is the least factor on sets of positive vectors, and throws exactly when two values of an objective have a product at most 0. For the entropy: the dominated vectors, and no others, are removed; the union adds the vectors of the second set that the first does not have; niches count the vectors nearer than the radius; the extent of the set is mapped onto [0,1].", "quantifier": "all pairs of sets of objective vectors (any sizes, any number of objectives, minimised or maximised); exact arithmetic", "why_tests_cant": "for every pair of sets", "anchors": ["moeo/src/metric/moeoContributionMetric.h", "moeo/src/metric/moeoVecVsVecEpsilonBinaryMetric.h", "moeo/src/metric/moeoVecVsVecAdditiveEpsilonBinaryMetric.h", "moeo/src/metric/moeoVecVsVecMultiplicativeEpsilonBinaryMetric.h", "moeo/src/metric/moeoEntropyMetric.h: removeDominated, computeUnion, howManyInNicheOf, normalize"]}
{"id": "C143", "title": "What the metrics between two sets document and do not compute", "statement": "The contribution is the proportion of the common front contributed by the first set, with common vectors counted for one half; the normalised additive epsilon indicator takes all objectives into account; the multiplicative indicator is at most 1 for a set that dominates the other; the entropy of a set of isolated vectors is 1.", "quantifier": "all pairs of sets", "why_tests_cant": "for every pair of sets", "anchors": ["moeo/src/metric/moeoContributionMetric.h: operator(), card_N", "moeo/src/metric/moeoVecVsVecAdditiveEpsilonBinaryMetric.h: epsilon", "moeo/src/metric/moeoVecVsVecMultiplicativeEpsilonBinaryMetric.h: epsilon", "moeo/src/metric/moeoEntropyMetric.h: operator()"]}
{"id": "C144", "title": "Scalarizations of an objective vector agree with Pareto dominance", "statement": "The aggregation gives minus or plus the weighted sum of the objectives, never lower for a weakly dominating vector and higher for a dominating one when the weights are positive; with too few weights it is 0. The achievement function is the greatest weighted amount by which a vector is worse than the reference, at most 0 exactly when it weakly dominates the reference; the augmented one is their sum plus rho times the greatest and is lower for a dominating vector. The augmented Chebychev distance is the greatest weighted distance plus rho times the sum of the distances, 0 exactly on the reference. The achievement fitness is the least weighted margin plus spn times their sum, higher for a dominating vector when all objectives are minimised. Through a normalizer the order of the fitnesses still respects dominance; the normalizer made from a population maps it onto [0, max] without changing the order of the values.", "quantifier": "all vectors, references, weights and populations, any number of objectives; exact arithmetic", "why_tests_cant": "for all weights and vectors", "anchors": ["moeo/src/fitness/moeoAggregationFitnessAssignment.h: operator()", "moeo/src/scalarStuffs/distance/moeoAchievementScalarizingFunctionDistance.h", "moeo/src/scalarStuffs/distance/moeoAugmentedAchievementScalarizingFunctionDistance.h", "moeo/src/scalarStuffs/distance/moeoAugmentedWeightedChebychevDistance.h", "moeo/src/scalarStuffs/fitness/moeoAchievementFitnessAssignment.h: compute", "moeo/src/utils/moeoObjectiveVectorNormalizer.h: operator(), make_scale_from_pop", "moeo/src/metric/moeoDistanceMetric.h"]}
{"id": "C145", "title": "Weight strategies give weights that add up to one, in the documented order", "statement": "For two objectives the Q-explore strategy gives 0, 1 and then every reduced fraction between 0 and 1 exactly once by increasing denominator, each after a number of calls bounded in advance; the fixed-step strategy gives 0, step, 2 step, ..., 1, then step again; the others (both directions, halving, dichotomic) always give two weights between 0 and 1 that add up to 1. For any number of objectives the random, the equal and the augmented Q-explore strategies give one weight per objective, between 0 and 1, adding up to 1.", "quantifier": "all numbers of calls, steps, draws, and all sequences of solutions", "why_tests_cant": "the sequences are unbounded", "anchors": ["moeo/src/scalarStuffs/weighting/moeoQexploreWeightStrategy.h", "moeo/src/scalarStuffs/weighting/moeoFixedTimeOneDirectionWeightStrategy.h", "moeo/src/scalarStuffs/weighting/moeoFixedTimeBothDirectionWeightStrategy.h", "moeo/src/scalarStuffs/weighting/moeoAnytimeWeightStrategy.h", "moeo/src/scalarStuffs/weighting/moeoDichoWeightStrategy.h", "moeo/src/scalarStuffs/weighting/moeoRandWeightStrategy.h", "moeo/src/scalarStuffs/weighting/moeoDummyWeightStrategy.h", "moeo/src/scalarStuffs/weighting/moeoAugmentedQexploreWeightStrategy.h"]}
{"id": "C146", "title": "What the scalarizations and weight strategies document and do not do", "statement": "The augmented achievement function is the greatest amount plus rho times the sum; the weighted Chebychev distance is a Chebychev distance; the achievement fitness handles maximised objectives; a normalizer given to the metric fitness is used; the two-direction strategy comes back from the end it reached; the dichotomic strategy is defined for every sequence of solutions; the halving strategy does not repeat weights; the augmented Q-explore explores all directions.", "quantifier": "all inputs", "why_tests_cant": "for all inputs", "anchors": ["moeo/src/scalarStuffs/distance/moeoAugmentedAchievementScalarizingFunctionDistance.h: operator()", "moeo/src/scalarStuffs/distance/moeoWeightedChebychevDistance.h: iteration", "moeo/src/scalarStuffs/fitness/moeoAchievementFitnessAssignment.h: compute", "moeo/src/scalarStuffs/fitness/moeoAchievementScalarizingFunctionMetricFitnessAssignment.h: constructors", "moeo/src/scalarStuffs/weighting/moeoFixedTimeBothDirectionWeightStrategy.h", "moeo/src/scalarStuffs/weighting/moeoDichoWeightStrategy.h: operator()", "moeo/src/scalarStuffs/weighting/moeoAnytimeWeightStrategy.h", "moeo/src/scalarStuffs/weighting/moeoAugmentedQexploreWeightStrategy.h: translate"]}
{"id": "C147", "title": "The archive indexes hold the non-dominated vectors offered", "statement": "After any sequence of offers of vectors with two objectives, the quick index and the quad tree contain exactly the non-dominated vectors, once each. Each answer is right for the members at that time: an offered vector is refused exactly when a member is at least as good in every objective, and then nothing changes; otherwise it becomes a member and the vectors reported as deleted are exactly the members it dominates, which leave. With the flag cleared the quick index gives the same answer and deletions and is unchanged. With any number of objectives the quad tree never fails, contains only offered vectors, none of them dominated by or equal to another, and refuses exactly the vectors that a member weakly dominates; the reported deletions are members dominated by the accepted vector.", "quantifier": "all numbers and directions of objectives, all sequences of offered vectors; exact arithmetic with tolerance 0", "why_tests_cant": "the shape of the tree depends on the whole history of the offers", "anchors": ["moeo/src/scalarStuffs/archive/moeoQuickUnboundedArchiveIndex.h: operator(), insert", "moeo/src/scalarStuffs/archive/moeoQuadTree.h: operator(), insert, insert_aux, k_succ, replace, reconsider, reinsert, remove, test1, test2"]}
{"id": "C148", "title": "What the archive indexes document and do not do", "statement": "The quad tree contains the non-dominated vectors for every number of objectives and every precision; an indexed archive with a quad tree or with a quick index contains the non-dominated vectors offered to it and agrees with its index; the quad tree archive keeps what it is offered.", "quantifier": "all sequences of offered vectors", "why_tests_cant": "the failures need particular histories", "anchors": ["moeo/src/scalarStuffs/archive/moeoQuadTree.h: remove, k_succ, insert", "moeo/src/scalarStuffs/archive/moeoIndexedArchive.h: operator(), apply_modif", "moeo/src/scalarStuffs/archive/moeoQuickUnboundedArchiveIndex.h: update", "moeo/src/scalarStuffs/archive/moeoQuadTreeArchive.h: operator()"]}
{"id": "C149", "title": "Runs of the multi-objective evolutionary algorithms", "statement": "A run of NSGA-II on a non-empty population never fails by itself. In each generation all parents and offspring carry the objective vectors of their genotypes, the next population has as many members as the parents and is taken among the parents and the offspring, whoever dominates somebody kept has its objective vector kept, and a non-dominated objective vector is lost only when everybody kept is non-dominated. Each generation starts from the population the former one left, the run ends at the first generation the continuator refuses and returns its population, and every member left has a fitness and a diversity. A run of moeoEasyEA that returns never changed the size of the population. SEEA and ASEEA end with an archive that represents the Pareto front of everything evaluated; SEEA leaves the population alone and breeds, from the archive, as many offspring per generation as the population has members. SPEA2 hands to its archive the initial population and then every next population, each bred from the former.", "quantifier": "all populations, components (evaluations, breeders, continuators, transforms), numbers of generations and random draws; two objectives must have the same direction", "why_tests_cant": "runs of any length with any components", "anchors": ["moeo/src/algo/moeoNSGAII.h: operator()", "moeo/src/algo/moeoEasyEA.h: operator()", "moeo/src/algo/moeoSEEA.h: operator()", "moeo/src/algo/moeoASEEA.h: operator()", "moeo/src/algo/moeoSPEA2.h: operator()", "moeo/src/replacement/moeoElitistReplacement.h: operator()"]}
{"id": "C150", "title": "SEEA applies the transform it is given, ASEEA leaves a population", "statement": "moeoSEEA constructed with a transform applies it to make offspring; after a run of moeoASEEA the user's population is a final population.", "quantifier": "all transforms, populations and runs", "why_tests_cant": "runs of any length with any components", "anchors": ["moeo/src/algo/moeoSEEA.h: moeoSEEA, operator()", "moeo/src/algo/moeoASEEA.h: operator()"]}
{"id": "C151", "title": "Variable-length operators keep genes and sizes", "statement": "On chromosomes of variable length, eoVlAddMutation inserts exactly one initialized gene (at any position, the order of the others kept) unless the maximal size is reached, and eoVlDelMutation removes exactly the chosen gene unless the minimal size is reached; a chromosome that starts within the bounds stays within them through any sequence of the two. eoVlAtomExchangeQuadOp either answers false and changes nothing, or answers true and shares the genes of the two parents out between the two children (each gene once, order kept) with both sizes within the bounds; with the uniform exchanger each locus keeps its two genes, the sizes of the children lie between those of the parents, and for parents within the bounds the first trial succeeds. eoInnerExchangeQuadOp, eoFlOrAllMutation and eoFlOrKMutation keep the lengths, change a gene only by the given atom operator, and answer false only if nothing changed. eoVlUniformQuadOp and eoVlUniformBinOp answer true only with sizes within the bounds and genes of the parents. eoPropCombinedMonOp, eoPropCombinedQuadOp and eoCombinedInit apply exactly one of the operators given to them, the one in whose share of the rates the draw falls.", "quantifier": "all chromosomes and lengths, all bounds, all atom operators, initializers, choosers and exchangers, all random draws, all sequences of additions and deletions", "why_tests_cant": "Sizes, positions and masks are random; a test sees a few draws, and the size invariant is about whole histories.", "anchors": ["eo/src/eoVariableLengthMutation.h: eoVlAddMutation, eoVlDelMutation, eoUniformGeneChooser", "eo/src/eoVariableLengthCrossover.h: eoUniformAtomExchange, eoVlAtomExchangeQuadOp, eoInnerExchangeQuadOp, eoVlUniformQuadOp, eoVlUniformBinOp", "eo/src/eoFlOrMonOp.h: eoFlOrAllMutation, eoFlOrKMutation", "eo/src/eoProportionalCombinedOp.h: eoPropCombinedMonOp, eoPropCombinedQuadOp", "eo/src/eoCombinedInit.h: eoCombinedInit"]}
{"id": "C152", "title": "Uniform variable-length crossovers keep the genes and report changes", "statement": "eoVlUniformQuadOp exchanges the genes of the parents (each gene goes to exactly one child), and eoVlUniformBinOp answers false only when the chromosome is unchanged.", "quantifier": "all parents, all bounds, all random draws", "why_tests_cant": "Only unlucky draws (a first trial with wrong sizes, or all genes taken from one parent) show the fault.", "anchors": ["eo/src/eoVariableLengthCrossover.h: eoVlUniformQuadOp, eoVlUniformBinOp"]}
{"id": "C153", "title": "Runs of the cellular algorithm and of the simple EDA", "statement": "A run of eoCellularEasyEA ends at the first generation the continuator refuses and leaves that population; the number of cells never changes; each cell holds at the end what it held at the beginning or a child carrying the fitness of its genotype, so an evaluated population stays evaluated; with a replacement selector that keeps the better of two, no cell ever gets worse over the whole run; every property of genotypes that crossover and mutation preserve holds of the final population; each generation makes exactly two evaluations per cell. A run of eoSimpleEDA gives to the updater, in each turn, a population of the requested size whose members are evaluated samples of the current distribution; each distribution is what the updater made of the former one; the run ends at the first refusal of the continuator.", "quantifier": "all populations, neighbourhoods, selectors, operators, evaluations, distributions, updaters, continuators, numbers of generations", "why_tests_cant": "runs of any length with any components", "anchors": ["eo/src/eoCellularEasyEA.h: operator()", "eo/src/eoSimpleEDA.h: operator()", "eo/src/eoPop.h: eoPop(unsigned, eoInit)"]}
{"id": "C154", "title": "Evaluations that throw and components that look at a clock", "statement": "eoEvalNanThrowException throws at the first individual whose newly computed fitness is not finite, and only then; the individuals before it are evaluated, those after it untouched. eoEvalUserTimeThrowException evaluates an individual exactly when the clock is below the limit, and otherwise throws, leaving it and the following ones untouched. eoTimeContinue, eoSecondsElapsedContinue and moTimeContinuator go on exactly while the elapsed time is below the maximum, and with a clock that does not go back never go on again after having stopped; moTimeContinuator restarts the count at init unless a starting time was given. eoTimedMonitor fires at the first call and then exactly when its period has passed since it last fired (for differences below 2^32 ticks).", "quantifier": "all populations, evaluation functions, clock readings, limits and sequences of calls", "why_tests_cant": "the outcome depends on the clock and on which individual fails", "anchors": ["eo/src/eoEvalNanThrowException.h: operator()", "eo/src/eoEvalUserTimeThrowException.h: operator()", "eo/src/eoTimeContinue.h: operator()", "eo/src/eoSecondsElapsedContinue.h: operator()", "mo/src/continuator/moTimeContinuator.h: operator(), init, setStartingTime", "eo/src/utils/eoTimedMonitor.h: operator()"]}
{"id": "C155", "title": "Counting, firing and showing time", "statement": "eoEvalUserTimeThrowException, an eoEvalFuncCounter, counts the evaluations it makes; eoTimedMonitor fires again once its period has passed; the time shown by eoTimeCounter never goes back.", "quantifier": "all populations, periods and clock readings", "why_tests_cant": "long periods and long runs are needed to see the fault", "anchors": ["eo/src/eoEvalUserTimeThrowException.h: operator()", "eo/src/utils/eoTimedMonitor.h: operator()", "eo/src/utils/eoTimeCounter.h: operator()"]}
{"id": "C156", "title": "A sampling records its search without changing it", "statement": "A moSampling runs exactly when, and exactly as, the local search it is built on would run alone from the solution made by the initialization. Each of its columns holds, for every solution the search visits in turn (the first included), the value its statistic has after all the statistics have seen that solution, in the order they were added; what the columns held before is forgotten, and all the columns have as many values as solutions were visited. moCounterStat counts 0, 1, 2, ...; moMinusOneCounterStat 0, 0, 1, 2, ...; moStatFromStat copies the statistic it is given. fileExport writes the names (if asked) and then one line per place in the columns, from which the table can be read back when no text contains the delimiter or an end of line; with an opened file it adds the lines to what was there; the export of a single column has one line per value, and a column that does not exist is refused with an exception.", "quantifier": "all searches, continuators, statistics, monitors, initializations, random draws, table sizes and texts", "why_tests_cant": "the columns depend on the whole history of the search", "anchors": ["mo/src/sampling/moSampling.h: add, operator(), fileExport", "mo/src/continuator/moCheckpoint.h: init, operator()", "mo/src/continuator/moVectorMonitor.h: operator(), clear, getValue, fileExport", "mo/src/continuator/moCounterStat.h: init, operator()", "mo/src/continuator/moMinusOneCounterStat.h: init, operator()", "mo/src/continuator/moStatFromStat.h: init, operator()"]}
{"id": "C157", "title": "What the fitness-landscape samplings contain", "statement": "moDensityOfStatesSampling and moFDCsampling hold the fitness (and the distance to the reference) of max(2, nbSol) solutions each made by the initialization. moAutocorrelationSampling holds the fitness along a walk of max(1, nbStep) moves to neighbors, shorter only if it meets a solution without neighbors. moHillClimberSampling and moAdaptiveWalkSampling hold, for max(2, nbWalk) climbs each started at a solution made by the initialization, the exact number of moves of the climb and the local optimum it ends in; each move goes to a strictly better neighbor, for hill climbers to a best one. The fitness clouds hold, beside the fitness of each solution, the best fitness among its neighbors (among nbNeighbor of them if so asked) or that of one of its neighbors; moNeutralDegreeSampling the number of its neighbors with the same fitness. The Metropolis-Hastings clouds visit 1+max(1, nbStep) solutions, each the former one or a neighbor of it.", "quantifier": "all search spaces, neighborhoods and evaluations that meet the contracts of mo, all fitness orders, initializations, sizes and random draws", "why_tests_cant": "samples of any size over any landscape", "anchors": ["mo/src/sampling/moDensityOfStatesSampling.h", "mo/src/sampling/moFDCsampling.h", "mo/src/sampling/moAutocorrelationSampling.h", "mo/src/sampling/moHillClimberSampling.h", "mo/src/sampling/moAdaptiveWalkSampling.h", "mo/src/sampling/moNeutralDegreeSampling.h", "mo/src/sampling/moRndBestFitnessCloudSampling.h", "mo/src/sampling/moRndRndFitnessCloudSampling.h", "mo/src/sampling/moMHBestFitnessCloudSampling.h", "mo/src/sampling/moMHRndFitnessCloudSampling.h", "mo/src/continuator/moNeighborBestStat.h: operator()", "mo/src/continuator/moNeighborFitnessStat.h: operator()", "mo/src/perturb/moLocalSearchInit.h: operator()"]}
{"id": "C158", "title": "Sizes of small samples and neutral degrees without neighbors", "statement": "A density-of-states sampling of nbSol >= 1 solutions has nbSol of them; an autocorrelation sampling of nbStep moves makes at most nbStep moves; the neutral degree recorded for a solution without neighbors is 0.", "quantifier": "all sizes and landscapes", "why_tests_cant": "only the smallest sizes and irregular neighborhoods show the faults", "anchors": ["mo/src/sampling/moDensityOfStatesSampling.h", "mo/src/sampling/moAutocorrelationSampling.h", "mo/src/continuator/moNeutralDegreeNeighborStat.h: operator()", "mo/src/continuator/moNeighborhoodStat.h: operator()", "mo/src/algo/moLocalSearch.h: operator()"]}
{"id": "C159", "title": "Strongly typed initialization makes well-typed trees, and can make all of them", "statement": "Every tree eoStParseTreeDepthInit makes has the requested return type; at every node, each argument has the type the node asks for at that rank; all the nodes are of the given set; the depth is at most the maximum (at least 1), and for full trees every leaf is at exactly that depth. Every tree with these properties comes out for some draws. When the set has a node (for full trees, one with arguments) of every type that can be asked for, no operation is undefined; when it also has a terminal of each of these types, the first tree tried is kept and a bounded number of draws is enough. An empty set of nodes is refused with an exception.", "quantifier": "all sets of nodes, types, arities, maximum depths, modes and random draws", "why_tests_cant": "trees of any shape and any number of tries", "anchors": ["eo/src/gp/eoStParseTreeDepthInit.h: eoStParseTreeDepthInit, operator(), generate", "eo/src/gp/parse_tree.h: parse_tree(b, e)"]}
{"id": "C160", "title": "The strongly typed operators keep trees well typed", "statement": "eoStSubtreeXOver exchanges a subtree of each parent, both of the same type; both children have the type of their parent and stay well typed; only when no two nodes of the parents have the same type does it return them unchanged; it never performs an undefined operation, and every pair of subtrees of the same type can be the one exchanged. eoStBranchMutation puts a subtree of a tree of its initializer in the place of a subtree of the same type. eoStHoistMutation replaces the tree by one of its subtrees of the same type, any of which can be chosen. eoStPointMutation replaces one node by one of the set with the same type and arity, any of which can be chosen, and keeps the arguments; the tree stays well typed when all the nodes of a type and arity ask for the same types of arguments. All keep the sizes and depths stored in the tree right and return true.", "quantifier": "all trees, types, initializers and random draws", "why_tests_cant": "trees of any shape, and loops that draw until they find a node", "anchors": ["eo/src/gp/eoStParseTreeOp.h: get_possible_nodes, eoStSubtreeXOver, eoStBranchMutation, eoStPointMutation, eoStHoistMutation"]}
{"id": "C161", "title": "Strongly typed genetic programming: the documented size, full trees and typing", "statement": "As documented: eoStPointMutation on a well-typed tree gives a well-typed tree; _max_length is the maximum size of the individuals the operators make; a full initialization makes a full tree whenever the types have nodes.", "quantifier": "all trees, sets of nodes and random draws", "why_tests_cant": "depends on the tree and on the draws", "anchors": ["eo/src/gp/eoStParseTreeOp.h: eoStPointMutation, eoStSubtreeXOver, eoStBranchMutation", "eo/src/gp/eoStParseTreeDepthInit.h: generate"]}
{"id": "C162", "title": "The long k-path landscape is the long k-path", "statement": "For strings of 1 + m k bits, the evaluation gives a point of the long k-path the length of the string plus its place on the path, and any other string its number of zeros. The path visits no point twice, goes from all zeros to zeros followed by k ones, changes one bit at each step, and has (k + 1) 2^m - k + 1 points. Two of its points that differ in fewer than k bits are exactly that many steps apart, so no mutation of fewer than k bits is a shortcut. The end of the path is the only string that no neighbour at distance one beats.", "quantifier": "every k >= 1, every m whose path fits the unsigned ranks of the evaluator, every string of 1 + m k bits", "why_tests_cant": "The path is exponentially long and the off-path strings are more numerous still; the claim about shortcuts is about every pair of points.", "anchors": ["problems/eval/longKPathEval.h: LongKPathEval (operator(), rank, final, nbOnesZeros, nbZero)"]}
{"id": "C163", "title": "Queens, building blocks and NK instances mean what they say", "statement": "The n-queens fitness is the number of pairs of queens on a common diagonal, 0 exactly for solutions. The building-block royal road sums, over blocks and targets, the weight of a matched target or 1 / (1 + distance); with one target worth more than one half the best strings are exactly those made of copies of the target. The tables of random NK, NKp and NKq instances have N rows of 2^(K+1) numbers between 0 and 1 (for NKq multiples of 1 / (q - 1)), and every string of N bits has a fitness between 0 and 1 on them.", "quantifier": "every non-empty board, every number of blocks, targets, weights and string, every N, K, p, q >= 2, links and draws", "why_tests_cant": "Boards, targets and random tables are unbounded families; the queen test mixes signed and unsigned arithmetic.", "anchors": ["problems/eval/queenEval.h: queenEval::operator()", "problems/eval/bbRoyalRoadEval.h: BBRoyalRoadEval (addTarget, operator())", "problems/eval/nkLandscapesEval.h: nkLandscapesEval (generateTables, contribution, operator())", "problems/eval/nkpLandscapesEval.h: nkpLandscapesEval::contribution", "problems/eval/nkqLandscapesEval.h: nkqLandscapesEval::contribution"]}
{"id": "C164", "title": "An NK instance written to a file can be read back", "statement": "Loading the file that save has written gives back the instance.", "quantifier": "every NK, NKp and NKq instance and file name", "why_tests_cant": "The round trip must hold for every instance.", "anchors": ["problems/eval/nkLandscapesEval.h: nkLandscapesEval (load, save)", "problems/eval/nkpLandscapesEval.h: nkpLandscapesEval (load, save)", "problems/eval/nkqLandscapesEval.h: nkqLandscapesEval (load, save, contribution)"]}
{"id": "C165", "title": "A swarm on a star topology knows the best position ever evaluated", "statement": "Run eoEasyPSO or eoSyncEasyPSO with its initialisation on an eoStarTopology, with any velocity and flight. Every particle is evaluated once before the first turn and once per turn, and remembers the first of its best positions. All the particles share one neighborhood, and best(k) and globalBest() are a particle at a position evaluated in the run such that none evaluated is better. The run fails on no population that is not empty; an empty one is refused.", "quantifier": "every number of turns, every population that is not empty, every velocity, flight and initialiser that keeps the dimension, every deterministic evaluation and order of fitnesses", "why_tests_cant": "The best position must be right after every sequence of moves, and the random moves form an unbounded family.", "anchors": ["eo/src/eoStarTopology.h: eoStarTopology (setup, updateNeighborhood, best, globalBest)", "eo/src/eoSocialNeighborhood.h: eoSocialNeighborhood", "eo/src/eoEasyPSO.h: eoEasyPSO", "eo/src/eoSyncEasyPSO.h: eoSyncEasyPSO", "eo/src/eoInitializer.h: eoInitializer"]}
{"id": "C166", "title": "Weighted and integer velocities, weights and binary flights follow their formulas", "statement": "The variable-weight, constricted variable-weight and fixed-weight velocities update the weight once, then give each component the value of the documented formula brought back in its bounds; without a bound modifier the bounds stay, with decaying bounds the new bounds are those left. The integer velocity gives the integer nearest to the formula brought back in its bounds, an integer if the bounds are. The linear weight goes from the initial to the final value in equal steps and never grows, the random weight stays in its range. The binary flight sets each component to 1 when its draw is below the sigmoid of its velocity and to 0 otherwise, invalidates the fitness and never lowers a bit when the velocities grow.", "quantifier": "every particle, bounds, weight updater, coefficient and draw; counters from 0 to the number of iterations", "why_tests_cant": "Bounds, weights and draws are real-valued; the order of update, modification and check shows only on some of them.", "anchors": ["eo/src/eoVariableInertiaWeightedVelocity.h: eoVariableInertiaWeightedVelocity::operator()", "eo/src/eoConstrictedVariableWeightVelocity.h: eoConstrictedVariableWeightVelocity::operator()", "eo/src/eoFixedInertiaWeightedVelocity.h: eoFixedInertiaWeightedVelocity::operator()", "eo/src/eoIntegerVelocity.h: eoIntegerVelocity::operator()", "eo/src/eoRealBoundModifier.h: eoDummyRealBoundModifier, eoExpDecayingBoundModifier", "eo/src/utils/eoRealBounds.cpp: eoRealVectorBounds::adjust_size", "eo/src/eoLinearDecreasingWeightUp.h: eoLinearDecreasingWeightUp::operator()", "eo/src/eoRandomRealWeightUp.h: eoRandomRealWeightUp", "eo/src/eoSigBinaryFlight.h: eoSigBinaryFlight::operator()"]}
{"id": "C167", "title": "Decaying bounds, integer velocities and decreasing weights keep their documented promises", "statement": "At iteration t the decaying interval is [min, (1-(t/Nt)^alpha) max]; the integer velocity is an integer at any time step; the linear weight decreases; setting up the star topology on a population makes its best particle the global best.", "quantifier": "every bounds, number of particles, iteration and population", "why_tests_cant": "The failures need two particles, fractional bounds, or one iteration too many.", "anchors": ["eo/src/eoRealBoundModifier.h: eoExpDecayingBoundModifier", "eo/src/eoIntegerVelocity.h: eoIntegerVelocity::operator()", "eo/src/eoLinearDecreasingWeightUp.h: eoLinearDecreasingWeightUp::operator()", "eo/src/eoStarTopology.h: eoStarTopology::setup"]}
{"id": "C168", "title": "The DTLZ benchmark problems have the values and the Pareto sets they are used for", "statement": "For m objectives and at least m variables between 0 and 1, the evaluations DTLZ1 to DTLZ7 give m objectives. Those of DTLZ1 are non-negative and add up to (1+g)/2; those of DTLZ2 to DTLZ6 are non-negative and their squares add up to (1+g)^2, g being the documented distance of the last variables; DTLZ7 gives the first variables and m(1+g) less what they earn. For DTLZ1 to DTLZ4 a vector is Pareto optimal exactly when all its distance variables are 1/2; for DTLZ5 (DTLZ6) the vectors with distance variables 1/2 (0) are Pareto optimal; for DTLZ7 only vectors with distance variables 0 are.", "quantifier": "every number of objectives (from 1, from 2 for DTLZ5 and DTLZ6), every vector of at least as many variables between 0 and 1, every exponent alpha > 0 of DTLZ4, every competitor in the box", "why_tests_cant": "Pareto optimality quantifies over a continuum of competitors; a test compares a few points", "anchors": ["problems/DTLZ/src/DTLZ1Eval.cpp: DTLZ1Eval::operator()", "problems/DTLZ/src/DTLZ2Eval.cpp: DTLZ2Eval::operator()", "problems/DTLZ/src/DTLZ3Eval.cpp: DTLZ3Eval::operator()", "problems/DTLZ/src/DTLZ4Eval.cpp: DTLZ4Eval::operator()", "problems/DTLZ/src/DTLZ5Eval.cpp: DTLZ5Eval::operator()", "problems/DTLZ/src/DTLZ6Eval.cpp: DTLZ6Eval::operator()", "problems/DTLZ/src/DTLZ7Eval.cpp: DTLZ7Eval::operator()"]}
{"id": "C169", "title": "SBX crossover and polynomial mutation stay within the bounds", "statement": "SBX on two parents within the bounds gives two children of the same size: a variable on which the parents differ by at most 1e-14 is kept, otherwise one child takes a value between the lower bound and the middle of the parents, the other one between the middle and the upper bound; the answer is true exactly when some variable differs by more than 1e-14. The polynomial mutation moves each drawn variable by at most its distance to the nearest bound, downwards for a number up to 1/2 and upwards from 1/2, keeps the others, and answers whether a variable was drawn. The children and the moves are exactly those of the published distributions for the numbers drawn, without truncation.", "quantifier": "every eta >= 0, all bounds, all parents within them and all random draws", "why_tests_cant": "the bounds come from an inequality between real powers that holds for every parent and draw; tests sample a few", "anchors": ["problems/DTLZ/src/SBXCrossover.h: SBXCrossover::operator()", "problems/DTLZ/src/PolynomialMutation.h: PolynomialMutation::operator()", "eo/src/utils/eoRealBounds.h: eoRealInterval::truncate"]}
{"id": "C170", "title": "SBX works without bounds; polynomial mutation reports real changes", "statement": "An SBX crossover built with its default constructor (documented as: no bounds) recombines any two parents; the polynomial mutation returns true only if the vector changed.", "quantifier": "all parents, vectors and draws", "why_tests_cant": "needs all parents and draws", "anchors": ["problems/DTLZ/src/SBXCrossover.h: SBXCrossover::operator()", "problems/DTLZ/src/PolynomialMutation.h: PolynomialMutation::operator()"]}
{"id": "C171", "title": "The hypervolume continuator stops exactly when an archive below the target has reached it", "statement": "The flat vector of numbers given to moeoHypContinue is cut into consecutive target vectors. As long as every vector of the archive is matched by a target vector at least as good, the continuator answers false exactly when every target vector is matched by an archive vector at least as good on every objective: in the default normalised mode with a coefficient above 1, and with a reference point that every vector is strictly ahead of. An empty archive or target raises the error of the metric.", "quantifier": "every number of objectives from 2, every directions, archive and target, every coefficient above 1 or reference point", "why_tests_cant": "equality of volumes implies equality of the fronts only through an argument over all boxes; tests try a few fronts", "anchors": ["moeo/src/continue/moeoHypContinue.h: operator(), is_null_hypervolume, vectorToParetoSet", "moeo/src/metric/moeoHyperVolumeDifferenceMetric.h: operator(), setup"]}
{"id": "C172", "title": "The hypervolume continuators go on until the given Pareto set is reached, and no longer", "statement": "moeoHypContinue and moeoDualHypContinue stop when the archive reaches every vector of the given Pareto set, and only then.", "quantifier": "all archives and targets", "why_tests_cant": "needs all archives", "anchors": ["moeo/src/continue/moeoHypContinue.h: operator()", "moeo/src/continue/moeoDualHypContinue.h: operator(), vectorToParetoSet", "moeo/src/core/moeoDualRealObjectiveVector.h: constructor, is_feasible"]}
{"id": "C173", "title": "The statistics on objective vectors and the fitness with constraints compute what they announce", "statement": "The average statistic is the mean of each objective over a non-empty population. The best statistic holds after any number of calls the best value of each objective in the last population, and after the first call its individuals are the first ones having these values. The binary-metric statistic holds the metric of the last two non-empty populations (the later one first), or its initial value before there are two. The fitness with constraints is the weighted normalised objective to optimise minus the weighted violations of the other constraints; a vector at least as good on every objective never gets a lower fitness, with non-negative weights and scale.", "quantifier": "all populations and histories of populations, all weights, constraints, directions and scales, any metric", "why_tests_cant": "ranges over all histories and vectors", "anchors": ["moeo/src/utils/moeoAverageObjVecStat.h: doit", "moeo/src/utils/moeoBestObjVecStat.h: doit, CmpObjVec, bestindividuals", "moeo/src/utils/moeoBinaryMetricStat.h: operator()", "moeo/src/fitness/moeoConstraintFitnessAssignment.h: operator()"]}
{"id": "C174", "title": "The best statistic gives the best individuals of the last population", "statement": "moeoBestObjVecStat::bestindividuals(which) gives the best individual of the last population for objective which, and throws when there is no such objective.", "quantifier": "all histories of populations", "why_tests_cant": "needs histories of at least two calls", "anchors": ["moeo/src/utils/moeoBestObjVecStat.h: bestindividuals, doit"]}
{"id": "C175", "title": "The memory pool of the parse trees never hands out memory in use", "statement": "Whatever a program allocates from a pool, gives back, and writes in the blocks it holds, no operation is undefined; the blocks it holds at any time are at least as large as asked, lie within chunks of the pool and do not overlap. A new chunk is requested only when every block of the existing chunks is held. The destructor frees each chunk exactly once. Blocks whose size is a multiple of 8 start at multiples of 8. The children of a node are built once each, destroyed once each, and go back to the pool they came from.", "quantifier": "every element size up to a chunk (8176 bytes), every sequence of allocations, deallocations of held blocks and writes in held blocks, every arity", "why_tests_cant": "ranges over all histories of allocations; an overlap shows only in some of them", "anchors": ["eo/src/gp/node_pool.h: MemPool, Tree_alloc", "eo/src/gp/parse_tree.h: subtree"]}
{"id": "C176", "title": "The memory pool works for every element type", "statement": "The allocators work for elements of every size, keep their alignment, and copy-construct every child.", "quantifier": "all element sizes and arities", "why_tests_cant": "sizes at the boundary of a chunk are not tested", "anchors": ["eo/src/gp/node_pool.h: MemPool::grow, Tree_alloc::construct"]}
{"id": "C177", "title": "Custom topologies follow their matrix", "statement": "A file of numbers is accepted as a topology exactly when its lines with numbers make a square matrix and the first line is one of them; the topology then holds these numbers in order (non-zero read as true; probabilities brought into [0,1]), and every other file throws. The neighbours of an island are, each once and in increasing order, the islands whose entry in its row is true (boolean) or whose draw is below the entry (stochastic): probability 1 always, probability 0 never. Isolating a node clears its row and its column and changes nothing else. The table of distinct islands gives them the identifiers 0, 1, 2, \u2026 and its two directions are inverse of each other; adding fresh pairs keeps them so.", "quantifier": "all files, all square matrices and islands, all sequences of draws, all lists of distinct islands", "why_tests_cant": "ranges over all files, matrices and draws", "anchors": ["smp/src/topology/customBooleanTopology.cpp: CustomBooleanTopology", "smp/src/topology/customStochasticTopology.cpp: CustomStochasticTopology", "smp/src/bimap.cpp: Bimap", "smp/src/islandModel.cpp: IslandModel::createTable"]}
{"id": "C178", "title": "Custom topologies, Bimap and SharedFitContinue do what is documented", "statement": "A number of islands that differs from the matrix raises an error; blank lines do not matter; a Bimap stays a bijection whatever is added; islands sharing a continuator go on until one of them has reached the optimum, and all stop then.", "quantifier": "all matrices, maps and histories of calls", "why_tests_cant": "histories of calls from several islands", "anchors": ["smp/src/topology/customBooleanTopology.h: construct", "smp/src/bimap.cpp: Bimap::add", "smp/src/sharedFitContinue.cpp: SharedFitContinue::operator()"]}
{"id": "C179", "title": "Distances are distances, the fitness distance correlation is Pearson's", "statement": "On vectors of a given length the Hamming, Manhattan and Euclidean distances are the textbook ones and are distances (non-negative, zero exactly for equal vectors, symmetric, triangle inequality); on bit strings Manhattan and Hamming agree and are the square of the Euclidean one. The fitness distance correlation of a population is Pearson's coefficient of the stored distances and fitnesses: a number in [-1,1] unless all distances or all fitnesses are equal; it is kept by a positive rescaling of the fitness and negated by a negative one; it is 1 or -1 exactly for an affine relation. The ratio of feasible individuals, the average and the best term of assembled fitnesses, the dump of the population and the lists of objectives are what their names say.", "quantifier": "all vectors of any length, all populations, fitnesses, distances and optima", "why_tests_cant": "real inequalities over all vectors (Cauchy-Schwarz) cannot be tested out", "anchors": ["eo/src/utils/eoDistance.h: eoQuadDistance, eoL1Distance, eoHammingDistance, eoFitnessDistance", "eo/src/utils/eoFDCStat.h: eoFDCStat::operator()", "eo/src/utils/eoFeasibleRatioStat.h: eoFeasibleRatioStat", "eo/src/utils/eoAssembledFitnessStat.h: eoAssembledFitnessAverageStat, eoAssembledFitnessBestStat", "eo/src/utils/eoPopStat.h: eoPopStat, eoSortedPopStat", "eo/src/utils/eoMOFitnessStat.h: eoMOFitnessStat"]}
{"id": "C180", "title": "Distances and statistics are defined for every input", "statement": "Two different vectors are at a positive distance; the correlation, the averages and the dump are defined for every population and every number asked for.", "quantifier": "all vectors and populations", "why_tests_cant": "lengths that differ, converged or empty populations are boundary cases", "anchors": ["eo/src/utils/eoDistance.h: eoQuadDistance", "eo/src/utils/eoFDCStat.h: eoFDCStat::operator()", "eo/src/utils/eoPopStat.h: eoPopStat::operator()", "eo/src/utils/eoAssembledFitnessStat.h: eoAssembledFitnessAverageStat"]}
{"id": "C181", "title": "Master-worker algorithms compute what the sequential ones compute", "statement": "MWModel<eoEasyEA> built with an evaluation functor gives, for every schedule of the workers under either policy, exactly the populations, the final result and the exceptions of the sequential eoEasyEA. MWModel<eoSyncEasyPSO> gives exactly the swarm of eoSyncEasyPSO, with the same evaluations in another order. The result of MWModel<eoEasyPSO> does not depend on the schedule, and with flights that draw no random number each of its turns is a turn of the synchronous swarm. Schedules exist for any positive number of workers.", "quantifier": "all populations, operators, replacements, continuators, numbers of workers, schedules and numbers of generations", "why_tests_cant": "ranges over all interleavings of the workers at every generation", "anchors": ["smp/src/MWModel.cpp: MWModel", "smp/src/MWAlgo/eoEasyEA.cpp: MWModel::operator()", "smp/src/MWAlgo/eoEasyPSO.cpp: MWModel::operator()", "smp/src/MWAlgo/eoSyncEasyPSO.cpp: MWModel::operator()", "smp/src/scheduler.cpp: Scheduler::operator()"]}
{"id": "C182", "title": "Master-worker algorithms replace the sequential ones in every use", "statement": "MWModel<eoEasyEA> built with a population evaluation evaluates the offspring with it; MWModel<eoEasyPSO> computes the same swarm as eoEasyPSO.", "quantifier": "all constructors, all swarms", "why_tests_cant": "needs a comparison of whole runs", "anchors": ["smp/src/MWAlgo/eoEasyEA.cpp: MWModel::operator()", "eo/src/eoEasyEA.h: eoEasyEA", "smp/src/MWAlgo/eoEasyPSO.cpp: MWModel::operator()"]}
{"id": "C183", "title": "CMA-ES parameters are consistent for every dimension", "statement": "For every dimension, number of generations, weighting scheme and lambda larger than the default mu, and without the option mu, CMAParams holds as many weights as parents; the weights are positive, do not increase with the rank and sum to 1; mueff is between 1 and mu; ccumsig, ccumcov and ccov are strictly between 0 and 1; damp is larger than 1. Whatever is asked for, lambda is at least 2 and mu smaller than lambda. The standard deviations are those given, the last one for all remaining axes.", "quantifier": "all dimensions, generations, weightings, values of lambda, arrays of standard deviations", "why_tests_cant": "real inequalities over all dimensions", "anchors": ["eo/src/es/CMAParams.cpp: CMAParams, defaults", "eo/src/es/CMAParams.h: CMAParams"]}
{"id": "C184", "title": "The CMA-ES state keeps a positive definite covariance and samples from it", "statement": "From a state built with nonzero initial deviations, after any calls of reestimate and updateEigenSystem, sigma is positive and the covariance symmetric positive definite. After a successful updateEigenSystem, B and d are an eigen system of the covariance (plus a nonnegative multiple of the identity), d positive, with condition number at most 2^52+1, and nothing else changed. A sample is mean + sigma A z with A A^T = C and z the n normal draws. The new mean is the weighted average of the parents, hence between them. The step-size path adds the move of the mean divided by the square root of the covariance, and sigma grows exactly when that path is longer than its expected length. reestimate commutes with translations, and depends on the fitnesses only through their order. eoCMABreed gives lambda unevaluated offspring sampled from the updated state. Each matrix cell has its own storage place.", "quantifier": "all dimensions, parameters in range, parents, fitness values, histories of calls, normal draws, and answers of the precision tests", "why_tests_cant": "needs real algebra over all matrices and an induction over all histories", "anchors": ["eo/src/es/CMAState.cpp: CMAStateImpl, CMAState", "eo/src/es/CMAState.h: CMAState", "eo/src/es/matrices.h: lower_triangular_matrix, square_matrix", "eo/src/es/eig.cpp: eig, QLalgo", "eo/src/es/eoCMABreed.h: eoCMABreed", "eo/src/es/eoCMAInit.h: eoCMAInit"]}
{"id": "C185", "title": "CMA-ES options and failures behave as documented", "statement": "Weighting 1 is equal and 2 linear; the option mu sets the number of parents; updateEigenSystem returns false when no sound eigen system was found and then leaves a usable one; the minimum standard deviations are respected.", "quantifier": "all options and calls", "why_tests_cant": "needs comparison of every option with its documentation", "anchors": ["eo/src/es/CMAParams.cpp: CMAParams", "eo/src/es/CMAState.cpp: CMAStateImpl, CMAState", "eo/src/es/CMAState.h: CMAState", "eo/src/es/matrices.h: lower_triangular_matrix, square_matrix", "eo/src/es/eig.cpp: eig, QLalgo"]}
{"id": "C186", "title": "Evaluating an algorithm assembled by a foundry", "statement": "eoEvalFoundryEA leaves an evaluated solution alone. Otherwise, when its five numbers (each standing for the least integer not below it) all name operators of the foundry, its fitness becomes the best fitness of the population left by an eoEasyEA made of exactly those operators, started with a new continuator on a new evaluated population of the given size, in one to max_gen generations; each generation sets the selector up, then crosses and mutates couples until there are as many offspring as parents. When some number names no operator, the solution gets the penalization. With a replacement that keeps the best the fitness is never worse than the first population. The search ends whatever the continuator says, and a solution's fitness and the draws made do not depend on earlier evaluations through the same foundry.", "quantifier": "every solution of at least five numbers above -1, containers, operators, continuators (with private state), evaluators, initialisers, population size, number of generations, earlier use of the foundry and state of the generator", "why_tests_cant": "the operators are chosen at run time from open containers, through indices decoded from real numbers; tests run a handful of configurations and cannot see state leaking between evaluations", "anchors": ["eo/src/eoEvalFoundryEA.h: eoEvalFoundryEA, decode, operator()", "eo/src/eoAlgoFoundryEA.h: eoAlgoFoundryEA::operator(), continuator, crossover, mutation, selector, replacement", "eo/src/eoAlgoFoundry.h: select, at, rank", "eo/src/eoForge.h: eoForgeOperator::instantiate"]}
{"id": "C187", "title": "Defaults and bounds documented for the foundry of algorithms", "statement": "A new eoAlgoFoundryEA has the first operators selected; a solution with any number out of bounds gets the penalization; the numbers of [0,n] are shared between n operators.", "quantifier": "every foundry, population and solution", "why_tests_cant": "it takes an unconfigured foundry or a negative number to see it, and one of the outcomes is undefined behaviour", "anchors": ["eo/src/eoAlgoFoundryEA.h: class documentation", "eo/src/eoAlgoFoundry.h: eoAlgoFoundry, at", "eo/src/eoEvalFoundryEA.h: decode, penalization"]}
{"id": "C188", "title": "The adaptive normal distribution of the EDO module keeps a usable covariance", "statement": "The estimator of the adaptive normal distribution moves the mean to a weighted average of the ranked population, with positive weights that decrease with the rank and add up to one, so that it stays between the bounds of the points in each coordinate. With at most (n+2)^2/2 points per generation, any number of updates keeps the covariance symmetric and positive definite, the coordinate system orthogonal, the scalings and the step size positive. When an update decomposes the covariance, the sampler draws with exactly this covariance and the step-size path is measured with its inverse square root; the decomposition is made as soon as enough evaluations went by and not before. The step size grows exactly when the path is longer than the reference length. A reset gives the distribution back as just instantiated, and the conditioning criterion stops the search exactly when the ratio of the extreme eigenvalues reaches its threshold.", "quantifier": "every dimension, every sequence of populations of any sizes within the bound and any real coordinates, every correct eigen solver", "why_tests_cant": "A test follows a few generations of one run; positive definiteness must survive every sequence of populations, and the matrices are only known up to what the solver returns.", "anchors": ["edo/src/edoEstimatorNormalAdaptive.h: operator(), edoCMAESweights", "edo/src/edoNormalAdaptive.h: edoNormalAdaptive, reset", "edo/src/edoSamplerNormalAdaptive.h: sample", "edo/src/edoContAdaptiveIllCovar.h: operator()", "edo/src/edoDistribReset.h: operator()", "edo/src/edoEstimatorAdaptiveEdit.h: operator()"]}
{"id": "C189", "title": "The documented constants and safeguards of the adaptive normal distribution", "statement": "The estimator uses the expectation of the length of a normal vector, keeps variances non-negative for every population, the conditioning criterion stops only strictly above its threshold and on every ill covariance, and the distribution built from all its members has the given dimension.", "quantifier": "every dimension, population, covariance and threshold", "why_tests_cant": "The values are wrong for every dimension by a small amount, or only for large populations: no test looks at them.", "anchors": ["edo/src/edoEstimatorNormalAdaptive.h: chiN, cmu", "edo/src/edoContAdaptiveIllCovar.h: operator()", "edo/src/edoNormalAdaptive.h: edoNormalAdaptive(dim, mean, C, B, D, sigma, p_c, p_s)"]}
{"id": "C190", "title": "The logger shows exactly the messages of the selected levels, on the last target", "statement": "Whatever sequence of levels, verbosity selections (by value or by name, or by the options -v and -o), redirections and messages is sent to the logger, each message is written whole and in order to the last target chosen before it, exactly when the last level given before it is at most the last level selected before it; nothing else is written. A higher verbosity never loses a message. The seven names select the seven levels in order. The destructor closes the last target if it is a file and never a standard stream.", "quantifier": "every sequence of operations on the logger, every text, every descriptor the system may return", "why_tests_cant": "A test sends one sequence of messages; the filtering depends on the whole history of settings.", "anchors": ["eo/src/utils/eoLogger.cpp: operator<<, outbuf::overflow, make_verbose, ~eoLogger", "eo/src/utils/eoLogger.h: Levels"]}
{"id": "C191", "title": "No signal is lost by the checkpoint on a signal, and Ctrl C stops the search for good", "statement": "With any number of checkpoints on signals and signals delivered at any point, even in the middle of a call: a call that finds its signal waiting takes it into account, evaluates its checkpoint and returns its verdict, any other call returns true and evaluates nothing; every signal followed by a call on it is followed by an evaluation, and there are never more evaluations than signals. The continuator of Ctrl C answers true until the first signal and false ever after, and can be constructed once. The continuator of an arbitrary signal calls the function of the user once when its signal is waiting and not otherwise.", "quantifier": "every sequence of constructions and calls, every interleaving with signals", "why_tests_cant": "Signals come at arbitrary points, between the test, the clearing of the flag and the evaluation: no test schedules them all.", "anchors": ["eo/src/utils/eoSignal.h: operator(), handler", "eo/src/eoCtrlCContinue.h: eoCtrlCContinue, operator()", "eo/src/eoCtrlCContinue.cpp: signal_handler", "eo/src/eoSIGContinue.h: operator()"]}
{"id": "C192", "title": "The documented safeguards of the logger and of the signal continuators", "statement": "An unknown verbosity name or a file that cannot be opened does not hide errors, any stream can be a target, all the files are closed in the end, a message of the quiet level is displayed only above the quiet level; every object attached to a signal sees it, none is dropped by a construction, a checkpoint on a signal still applies its own criterion; the continuator of a signal stops the search and loses no signal; the continuator of Ctrl C can be created again after it was destroyed.", "quantifier": "every history of operations and signals", "why_tests_cant": "These are the cases a test does not try: misspelt options, failing files, two listeners, signals during a callback.", "anchors": ["eo/src/utils/eoLogger.cpp: operator<<, overflow", "eo/src/utils/eoSignal.h: eoSignal, operator()", "eo/src/eoSIGContinue.h: operator()", "eo/src/eoCtrlCContinue.h: eoCtrlCContinue"]}
{"id": "C193", "title": "The store of functors frees each stored functor exactly once", "statement": "When the store is destroyed after any sequence of allocations, storings and packings, every stored functor is freed exactly once and no other one, provided that none was stored twice; a program that only packs is always safe and leaks nothing; a functor stored twice makes the destruction undefined.", "quantifier": "every sequence of allocations, storings and packings", "why_tests_cant": "Double deletions and leaks depend on the whole history of the store and often go unnoticed in a test.", "anchors": ["eo/src/eoFunctorStore.h: storeFunctor, pack", "eo/src/eoFunctorStore.cpp: ~eoFunctorStore"]}
{"id": "C194", "title": "Monitors, snapshots and dumps leave exactly the files and lines of the calls made", "statement": "After any number of calls a file monitor's file holds the old content if it was to be kept, the header once if asked for, and one delimited line per call in order (the last one only when overwriting), and a file that cannot be opened throws. A snapshot monitor writes one file per frequency-th call, numbered by the calls, with a row per index of its one or two vectors. The dumping evaluator gives the results of the wrapped evaluator and writes the n-th solution in the n-th file, or the last solution in the single one. No other file changes. A stream monitor writes the names once, then one line per call with every value padded to the chosen width.", "quantifier": "every initial content of the file system, every sequence of calls and of parameter values, every delimiter, width, frequency", "why_tests_cant": "The files depend on the flags, the existing files and the whole history of calls.", "anchors": ["eo/src/utils/eoFileMonitor.cpp: operator(), printHeader", "eo/src/utils/eoFileMonitor.h: eoFileMonitor", "eo/src/utils/eoFileSnapshot.h: operator(), setCurrentFileName", "eo/src/utils/eoOStreamMonitor.cpp: operator()", "eo/src/eoEvalDump.h: operator()"]}
{"id": "C195", "title": "What the monitors document and do not do", "statement": "Snapshots with several vectors show each of them and check their sizes; keeping an existing file is what the option says; the header of a stream monitor is aligned with its columns and the stream is left as it was found; a dump that cannot be written is reported; states saved on a timer go to distinct files; a monitor with nothing registered is harmless.", "quantifier": "every sequence of calls", "why_tests_cant": "Each clause fails on inputs no test of the project uses.", "anchors": ["eo/src/utils/eoFileSnapshot.h: operator()", "eo/src/utils/eoFileMonitor.h: eoFileMonitor", "eo/src/utils/eoOStreamMonitor.cpp: operator()", "eo/src/eoEvalDump.h: operator()", "eo/src/utils/eoUpdater.h: eoTimedStateSaver"]}
{"id": "C196", "title": "Counters count every call, updaters act exactly when due", "statement": "A counted function gives the results of the function and the counter grows by one per call, the failing one included. An incrementor adds its step at each call. An updater by count acts at the calls whose rank is a multiple of its interval and only those. An updater by time acts at a call exactly when its interval has gone by since the last action (since the construction for the first): two actions are at least an interval apart whatever the clock does, and the states saved on a timer with a positive interval go to distinct files.", "quantifier": "every function, every sequence of calls, every reading of the clock", "why_tests_cant": "The instants are those of the system clock and the histories are unbounded.", "anchors": ["eo/src/eoCounter.h: eoUnaryFunctorCounter", "eo/src/utils/eoUpdater.h: eoIncrementor, eoTimedStateSaver, eoCountedStateSaver", "eo/src/utils/eoUpdater.cpp: operator()", "eo/src/utils/eoUpdatable.h: eoTimedDynUpdate, eoCountedDynUpdate"]}
{"id": "C197", "title": "The selection option builds the selector it names", "statement": "Given the selection option of the command line (a name and arguments), the builder either returns a selector or throws; it throws exactly when the name is none of the documented ones or when sharing is asked for without a distance. Whatever the arguments, the parameters of what is built are ones the selector accepts (a tournament of at least 2, a rate in [0.5,1], a pressure in (1,2], a positive exponent), not-a-number excepted; a tournament size given in decimal is the size used, raised to 2 if smaller. Building again from the option as it was put back for the status file gives the same selector.", "quantifier": "every option name and every list of argument strings, every reading of doubles by the C library, with or without a distance", "why_tests_cant": "the option strings are unbounded and the builder rewrites its own input; tests try a few strings", "anchors": ["eo/src/do/make_algo_scalar.h:do_make_algo_scalar", "eo/src/eoDetTournamentSelect.h", "eo/src/eoStochTournamentSelect.h", "eo/src/eoRankingSelect.h"]}
{"id": "C198", "title": "Documented behaviour of the builders that does not hold", "statement": "The replacement parameters given on the command line are the ones used; the replacement put back in the status file is the one built; only the best are retained when a loaded population is too big; parameters that are not numbers are rejected; an operator all of whose rates are null is not applied.", "quantifier": "every selection and replacement option, every loaded population, every rate", "why_tests_cant": "each failure needs a particular combination of two options or of a file and an option that the tests never use together", "anchors": ["eo/src/do/make_algo_scalar.h:do_make_algo_scalar", "eo/src/do/make_pop.h:do_make_pop", "eo/src/ga/make_op.h:do_make_op", "eo/src/eoProportionalCombinedOp.h"]}
{"id": "C199", "title": "The initial population has the size asked for and depends only on the seed or on the file", "statement": "The initial population has exactly the size asked for. Without a file it is made by the initialiser, one individual after the other, from a generator reseeded with the seed: it depends on nothing that was drawn before. With a file, the individuals loaded come first, in order, with their fitness unless it is to be recomputed, the generator goes on from its saved state, the missing ones are made by the initialiser and the seed has no effect. A file that cannot be read throws.", "quantifier": "every initialiser, seed, clock, size, file content and earlier state of the generator", "why_tests_cant": "reproducibility is a statement about all earlier states of the generator", "anchors": ["eo/src/do/make_pop.h:do_make_pop", "eo/src/eoPop.h:append"]}
{"id": "C200", "title": "The stopping criterion built stops a run at the first criterion met", "statement": "The builder throws exactly when no criterion is asked for. Else the run goes on at each generation at which none of the criteria asked for is met (number of generations, stagnation after a minimum, evaluations, target fitness, Ctrl C) and stops at the first at which one is. With a maximum number of generations no run goes beyond it.", "quantifier": "every combination of options and every history of populations, evaluation counts and signals", "why_tests_cant": "the criteria keep a state along the run; only finitely many histories can be run", "anchors": ["eo/src/do/make_continue.h:do_make_continue", "eo/src/eoCombinedContinue.h"]}
{"id": "C201", "title": "The reduction and the genetic operator built do what their options say", "statement": "The reduction option builds the reducer it names with acceptable parameters, throws exactly on an unknown name or on a rate outside (0.5,1], and is put back so that building again gives the same. The operator builder throws exactly when the type is not SGA or some option is out of its range; one application of the operator selects two parents, crosses them over exactly when the number drawn is below the crossover probability, with one of the crossovers whose rate is not null, else copies them, then mutates each child when its flip says so with one of the mutations whose rate is not null; a child changed loses its fitness.", "quantifier": "every option value, every user crossover and mutation, every roulette that does not pick null rates, every population", "why_tests_cant": "the operator composes unbounded user operators and random draws", "anchors": ["eo/src/do/make_general_replacement.h:decode_reduce", "eo/src/ga/make_op.h:do_make_op", "eo/src/eoProportionalCombinedOp.h", "eo/src/eoOpContainer.h", "eo/src/eoCloneOps.h"]}
{"id": "C202", "title": "A multi-start job does exactly the runs asked for, whatever the schedule", "statement": "When a multi-start job ends, exactly the number of runs asked for have been done, and the store holds their best individuals after what it held before. The results of one worker come in the order of its runs and are those of as many runs made one after the other by a process alone, started from the seed sent to that worker. Until the job has ended some process can always move, and no schedule has more than three steps per run. Two schedules that send as many runs to each worker find the same results, up to their order. Each worker is sent the seed given for its position, or a drawn one if too few are given. The seeds made from an odd number are its successive multiples modulo 2^32 and are all different, over all the jobs that share a store, as long as there are not more than 2^32.", "quantifier": "every set of workers, number of runs, algorithm, seeds, generator output and interleaving of the master and the workers", "why_tests_cant": "the result depends on the interleaving of the answers, of which there are exponentially many", "anchors": ["eo/src/mpi/eoMultiStart.h:MultiStart", "eo/src/mpi/eoMultiStart.h:MultiStartStore::init", "eo/src/mpi/eoMultiStart.h:MultiplesOfNumber", "eo/src/mpi/eoMpi.h:Job"]}
{"id": "C203", "title": "Documented guarantees of the multi-start job that do not hold", "statement": "The seeds differ even if the same store is used with different jobs; a run with the same seeds can be run again with the same results; the best individuals retrieved are those of the job.", "quantifier": "every number given for the seeds, schedule and store", "why_tests_cant": "a collision needs 2^31 workers with most numbers, or a particular number; the results differ only under another timing of the workers", "anchors": ["eo/src/mpi/eoMultiStart.h:MultiplesOfNumber", "eo/src/mpi/eoMultiStart.h:GetRandomSeeds", "eo/src/mpi/eoMultiStart.h:MultiStart::best_individuals"]}
{"id": "C204", "title": "The timer statistics hold one exact wall clock measure per stop", "statement": "When measuring is on, each key has exactly one measure of each kind for each stop of that key since the last clear, and none is added by the calls on other keys; when it is off there is none. Each wall clock measure is the exact time between the last start of the key and the stop, and stays so whatever the later calls, until a clear.", "quantifier": "every sequence of calls, key and clock reading", "why_tests_cant": "the statement is about all interleavings of the calls of all keys", "anchors": ["eo/src/utils/eoTimer.h:eoTimerStat", "eo/src/utils/eoTimer.h:eoTimer::wallclock"]}
{"id": "C205", "title": "The user and system times add up to the time spent", "statement": "The user (system) times measured by one timer add up to the whole seconds of the user (system) time spent in the intervals measured.", "quantifier": "every sequence of intervals and clock reading", "why_tests_cant": "it fails only for intervals that cross a second boundary at particular microseconds", "anchors": ["eo/src/utils/eoTimer.h:eoTimer::usertime", "eo/src/utils/eoTimer.h:eoTimer::systime"]}
{"id": "C206", "title": "The generators of random atoms make numbers of the interval, and all of them fairly", "statement": "An integer generator made with a minimum below a maximum whose difference is an int makes only numbers of [min, max); every number of [min, max) can come; when the interval is not longer than 2^21 each number comes from 2^32 / (max - min) values of the random number generator, rounded down or up. Bounds in the wrong order throw. The unsigned ones and the other family of generators make numbers of the same interval, and both families make the same number from the same draw. A fair coin is true for exactly half of the values. A vector filled by such a generator has the length asked for, uses one draw per atom in order, and all its atoms are in the interval.", "quantifier": "every pair of bounds, every value of the random number generator, every length", "why_tests_cant": "there are 2^32 values for each of the 2^64 pairs of bounds, and the rounding of the doubles matters at the ends", "anchors": ["eo/src/utils/eoRndGenerators.h:eoUniformGenerator", "eo/src/utils/eoUniformInit.h:eoUniformInit", "eo/src/utils/rnd_generators.h:uniform_generator", "eo/src/utils/rnd_generators.h:random_generator", "eo/src/utils/rnd_generators.h:UF_random_generator", "eo/src/eoInit.h:eoInitFixedLength"]}
{"id": "C207", "title": "Documented intervals of the generators that do not hold", "statement": "A generator given one bound makes numbers of [0, max); given two, of [min, max), for every type and all bounds that it accepts; the generator for shuffling makes all the numbers from min() to max().", "quantifier": "every bound and every value of the random number generator", "why_tests_cant": "the failures are for 128 values out of 2^32, for negative or equal bounds, or for the widest intervals", "anchors": ["eo/src/utils/eoRndGenerators.h:eoUniformGenerator", "eo/src/utils/eoUniformInit.h:eoUniformInit", "eo/src/utils/rnd_generators.h:UF_random_generator"]}
{"id": "C208", "title": "Integer wrappers of real operators keep the bounds", "statement": "The wrappers that apply an operator or an initializer on real vectors to a vector of ints leave every int within the integer bounds, whatever the real operator does, with both repairs. Each wrapper answers what the real operator answers, and leaves the individual as it is when that answer is no change. An int that the operator leaves alone keeps its value. A value that rounds to an allowed int becomes that int. With truncation each int is an allowed one that is nearest to the real value. With folding each int is the mirror image of the rounded value within the bounds. The operator on two individuals treats each as the operator on one. The initializer gives the length that the real initializer chose.", "quantifier": "every integer bounds, real operator, individual and sequence of random draws", "why_tests_cant": "The real operator is an arbitrary function of the whole vector and the values may lie anywhere, including beyond the limit from which folding draws at random.", "anchors": ["eo/src/eoRealToIntMonOp.h:eoRealToIntMonOp", "eo/src/eoRealToIntQuadOp.h:eoRealToIntQuadOp", "eo/src/eoRealToIntInit.h:eoRealToIntInit", "eo/src/utils/eoIntBounds.h:eoIntInterval"]}
{"id": "C209", "title": "Integer wrappers of real operators that change the length", "statement": "The wrappers follow a real operator that changes the length of the vector, and answer that the individual changed only if it did.", "quantifier": "every operator, individual and bounds", "why_tests_cant": "It must hold for every operator, of which a test tries one that keeps the length.", "anchors": ["eo/src/eoRealToIntMonOp.h:eoRealToIntMonOp::operator()", "eo/src/eoRealToIntQuadOp.h:eoRealToIntQuadOp::operator()"]}
{"id": "C210", "title": "Selection of a population from an archive", "statement": "The selection from an archive with a minimum and a maximum copies an archive whose size lies between them, in order. From a larger archive it takes as many members as the maximum, at distinct places. From a smaller one it takes as many as the minimum, repeating the members in turn. The size of the result is within the two limits and each selected individual is a member of the archive. If the maximum is below the minimum the destination is left as it was. If the archive is empty and the minimum is not 0 the behaviour is undefined.", "quantifier": "every archive, pair of limits, shuffle and destination", "why_tests_cant": "The limits, the size of the archive and the shuffle are arbitrary.", "anchors": ["moeo/src/selection/moeoDetArchiveSelect.h:moeoDetArchiveSelect::operator()"]}
{"id": "C211", "title": "Stop on parameters that are not finite", "statement": "The continuator for adaptive normal distributions goes on exactly if the step size, the two evolution paths, the scaling, the coordinate system and the covariance matrix have only finite elements.", "quantifier": "every distribution, of every dimension", "why_tests_cant": "Any one element of any parameter may be the one that is not finite.", "anchors": ["edo/src/edoContAdaptiveFinite.h:edoContAdaptiveFinite"]}
{"id": "C212", "title": "Stop on a mean that is not finite", "statement": "The continuator for adaptive normal distributions asks for a stop if any element of any parameter is not finite.", "quantifier": "every distribution", "why_tests_cant": "The documented guarantee ranges over all the parameters.", "anchors": ["edo/src/edoContAdaptiveFinite.h:edoContAdaptiveFinite::operator()"]}
{"id": "C213", "title": "Evaluation by a system command", "statement": "The evaluator that calls a system command leaves an individual that has a fitness as it is and runs nothing. For another individual it runs exactly one command: the prefix, the command, the infix, the individual and the suffix, with a space between them. That line is the last call reported afterwards, however the evaluation ends. If the command ends with code 0 the fitness is the one read from its whole output, for every length of lines and every buffer of at least two characters. If the command cannot be run or ends with another code, the evaluation throws and no fitness is given. An individual evaluated once is not evaluated again.", "quantifier": "every command, individual, output without null characters, return code and buffer size of at least 2", "why_tests_cant": "The output comes from another program: its length and its line breaks are arbitrary, as is where the buffer cuts it.", "anchors": ["eo/src/eoEvalCmd.h:eoEvalCmd::operator()", "eo/src/eoEvalCmd.h:eoEvalCmd::call"]}
{"id": "C214", "title": "Output of a command that is not a fitness", "statement": "An evaluation by a system command ends, and either gives the fitness that the command printed or throws.", "quantifier": "every output and buffer size", "why_tests_cant": "It ranges over all outputs of another program.", "anchors": ["eo/src/eoEvalCmd.h:eoEvalCmd::call"]}
{"id": "C215", "title": "Fitness from a reference point", "statement": "The fitness assignment with a reference point gives each individual minus the indicator of its objective vector against the point. The indicator is normalised with the bounds spanned by the population and the point. Objective vectors and their order do not change. With the additive epsilon indicator a solution that is nowhere worse than another has at least its fitness. The fitness is not negative exactly for the solutions that are nowhere worse than the reference point.", "quantifier": "every population, including the empty one, reference point and number of objectives", "why_tests_cant": "It ranges over all populations and reference points, on both sides of the front.", "anchors": ["moeo/src/fitness/moeoReferencePointIndicatorBasedFitnessAssignment.h:moeoReferencePointIndicatorBasedFitnessAssignment"]}
{"id": "C216", "title": "Reference-point fitness: strictness and deletion", "statement": "With the reference-point fitness a solution that dominates another has a strictly better fitness, and the update after a deletion gives the fitness that a new assignment would give.", "quantifier": "every population and reference point", "why_tests_cant": "It ranges over all populations.", "anchors": ["moeo/src/fitness/moeoReferencePointIndicatorBasedFitnessAssignment.h:updateByDeleting"]}
{"id": "C217", "title": "Index of a bi-objective archive", "statement": "The quick index of a bi-objective archive holds, after any insertions, exactly the vectors that no inserted vector dominates, each once, sorted by the second objective. It accepts a vector exactly if no vector inserted so far is as good in both objectives. The deletions it asks for are then exactly the entries that the new vector dominates. A query without insertion and a refused vector leave it as it was. While the inserted vectors are incomparable, the archive that uses the index takes them all in order.", "quantifier": "every sequence of insertions, both directions of both objectives", "why_tests_cant": "The index looks only at the neighbours of a vector in the order of one objective; that this is enough depends on an invariant over the whole history.", "anchors": ["moeo/src/scalarStuffs/archive/moeoQuickUnboundedArchiveIndex.h:moeoQuickUnboundedArchiveIndex::insert", "moeo/src/scalarStuffs/archive/moeoIndexedArchive.h:moeoIndexedArchive::operator()"]}
{"id": "C218", "title": "Archive that uses a quick index", "statement": "An archive that uses the quick index holds, after any insertions, exactly the solutions that no inserted one dominates.", "quantifier": "every sequence of insertions", "why_tests_cant": "The places of the members in the archive and in the index must stay the same over all insertions and deletions.", "anchors": ["moeo/src/scalarStuffs/archive/moeoIndexedArchive.h:moeoIndexedArchive::apply_modif", "moeo/src/scalarStuffs/archive/moeoQuickUnboundedArchiveIndex.h:update"]}
{"id": "C219", "title": "Distances between objective vectors", "statement": "The Manhattan and the Euclidean distance between two objective vectors are those of the scaled differences of the objectives. Both are defined for vectors of the right length, not negative, symmetric, 0 from a vector to itself and to no other one if no coefficient is 0, and satisfy the triangle inequality. With a normalizer made from a population, the distance of two members is at most max times the number of objectives, or max times its root. The fuzzy distance is the Euclidean one between the expected values. The bounds taken from a population are proper intervals that contain all its members, with ends reached by members or, if all agree on an objective, 1e-6 apart from their value.", "quantifier": "all objective vectors, scales and populations", "why_tests_cant": "The laws of a distance and the bounds quantify over all vectors and populations.", "anchors": ["moeo/src/distance/moeoManhattanDistance.h:moeoManhattanDistance::operator()", "moeo/src/distance/moeoEuclideanDistance.h:moeoEuclideanDistance::operator()", "moeo/src/distance/moeoExpectedFuzzyDistance.h:moeoExpectedFuzzyDistance::operator()", "moeo/src/distance/moeoNormalizedDistance.h:moeoNormalizedDistance::setup"]}
{"id": "C220", "title": "Documented range of distances between objective vectors", "statement": "A Manhattan distance lies between 0 and the number of objectives, a Euclidean one between 0 and its root. A Euclidean distance can be given a normalizer. The fuzzy distance tells different vectors apart.", "quantifier": "all objective vectors, normalizers and populations", "why_tests_cant": "A range is a claim about all vectors; tests use values that are already small.", "anchors": ["moeo/src/distance/moeoManhattanDistance.h:moeoManhattanDistance", "moeo/src/distance/moeoEuclideanDistance.h:moeoEuclideanDistance::moeoEuclideanDistance", "moeo/src/distance/moeoExpectedFuzzyDistance.h:moeoExpectedFuzzyDistance::operator()"]}
{"id": "C221", "title": "Sizes of particles and initial velocities", "statement": "Giving a position to a particle makes it exactly that position, invalidates the fitness, and gives the best positions and the velocities the same length, with their old values where they had some and the default elsewhere. The initializer of a fixed length gives the three vectors of any particle this length and fills the velocities with the successive values of the generator. The initializer of a variable length refuses bounds that are not in order when it is built; otherwise it makes at least the least and less than the greatest number of velocities, initializes each, and leaves the positions alone.", "quantifier": "every particle, position, length, generator and random draws", "why_tests_cant": "The lengths of three vectors must agree for particles of every size, grown or shrunk.", "anchors": ["eo/src/eoVectorParticle.h:eoVectorParticle::position", "eo/src/eoVectorParticle.h:eoVectorParticle::resize", "eo/src/eoVelocityInit.h:eoVelocityInitFixedLength::operator()", "eo/src/eoVelocityInit.h:eoVelocityInitVariableLength::operator()"]}
{"id": "C222", "title": "Consistency of initialized particles", "statement": "An initializer of velocities leaves a particle whose fitness is that of its position and whose velocities are as many as its positions.", "quantifier": "every particle, length, generator and random draws", "why_tests_cant": "It fails only for particles whose length differs from that of the initializer, which tests do not use.", "anchors": ["eo/src/eoVelocityInit.h:eoVelocityInitFixedLength::operator()", "eo/src/eoVelocityInit.h:eoVelocityInitVariableLength::operator()"]}
