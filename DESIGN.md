# Design

Formal model in Rocq (Coq 8.16.1) of parts of nojhan/paradiseo (C++ source in /repo), and
machine-checked proofs of the properties listed in `properties.jsonl`.

## Layout

All Coq sources live in `rocq/theories/` (logical prefix `Verif`). For every cluster `X`:

* `X*Model.v`  – the model: total, computable Gallina functions transcribed from the C++ code.
  Every definition has a comment citing the file and lines it models, and says what is simplified.
* `X*Spec.v`   – (where useful) small independent specifications, not using the model's helpers.
* `X*Proofs.v` – lemmas.
* `X*Props.v`  – only the property theorems (`C<nn>_...`), each closed by `exact`/a short script,
  followed by `Print Assumptions`, and next to it an `Example` showing a non-trivial instance of
  its hypotheses.

Theorems ending in `_refuted` are findings: the claimed/documented behaviour is false of the model,
and the theorem gives a witness. Theorems ending in `_partial` prove part of a property; the note in
`MANIFEST.json` says what is missing.

## Modelling conventions

* **Undefined behaviour** (out-of-bounds access, empty-container access, division by zero) is a
  distinct outcome (`None` / an error constructor), never a silent default.
* **Exceptions** are a distinct outcome too.
* **Randomness**: generator draws are inputs (a list or stream of draws) and theorems quantify over
  all of them.
* **std::sort, nth_element, shuffle** are modelled by their standard contract (a relation, or an
  arbitrary function satisfying it), so theorems hold for all library implementations.
* **Loops** are structural recursion, folds, or fuelled recursion with an error value on exhaustion
  together with a proof that the fuel suffices.
* **Integers**: `Z`/`nat` unless wrap-around matters; then explicit `mod 2^32`.
* **double**: exact rationals/reals where the property is about the algorithm; every definition that
  does this says so. Rounding is then outside the model.
* **Threads/MPI**: transition systems with nondeterministic interleaving (sequential consistency).

## Trusted base

* Coq 8.16.1's kernel (and `vm_compute`, which is part of it) and standard library.
* `Print Assumptions` output per theorem (see section "Assumptions" below).
* The faithfulness of the hand transcription C++ -> Gallina, checked only by the citations, by the
  examples beside each theorem and by the mutation log `seeded/LOG.jsonl`.

## Per-property plan
* **C01 The random generator emits the Mersenne Twister stream** (cluster `Rng`): `initialize`, `restart`, `rand` over a 625-word array with explicit bounds-checked reads/writes (out of bounds is an error value). Proof: loop invariants of the two in-place loops against a separately written recurrence over nat -> word.
* **C02 Saving and restoring the generator resumes the same stream** (cluster `Rng`): `printOn`/`readFrom` as a token list. Round trip + induction over draws.
* **C03 Bounded draws stay in their range** (cluster `Rng`): exact rational arithmetic for uniform/random/flip; the IEEE double statement for `random` via Flocq/SpecFloat if feasible.
* **C04 Truncation keeps the best individuals** (cluster `Pop`): std::sort is any relation returning a sorted permutation; eoLinearTruncate is a loop erasing a minimum.
* **C05 Every reduction operator returns exactly the requested number of original individuals** (cluster `Pop`): random draws are an input list; induction over the removal loops.
* **C06 Reduce-and-split loses nobody** (cluster `Pop`): same model as C05 with an eliminated population; permutation invariant.
* **C07 (mu+lambda) and (mu,lambda) replacement** (cluster `Pop`): composition of merge and reduce.
* **C08 Steady-state replacement keeps the size and all offspring** (cluster `Pop`): composition of reduce and merge.
* **C09 Weak elitism never loses the best fitness** (cluster `Pop`): arbitrary inner replacement as a Section function; induction over generations.
* **C10 What eoElitism really merges** (cluster `Pop`): refutation by witness plus the exact behaviour as a theorem.
* **C11 Requested counts** (cluster `Select`): eoHowMany over Z/Q; selection loops by induction.
* **C12 Tournament selection returns the extreme of the drawn contestants** (cluster `Select`): loops over a draw list.
* **C13 Roulette wheel and stochastic universal sampling are proportional** (cluster `Select`): exact rational arithmetic (the double-rounding overrun is out of scope and stated).
* **C14 Sequential selection gives every individual exactly one turn per pass** (cluster `Select`): state machine setup/call; all shuffles.
* **C15 Ranking preserves the fitness order and the average pressure** (cluster `Select`): rational arithmetic.
* **C16 Bit mutations report exactly whether they changed something, and how much they change** (cluster `BitOps`): loops over draws, in-place list update.
* **C17 eoBitNext / eoBitPrev count in binary** (cluster `BitOps`): value function bits -> Z; induction.
* **C18 Bit crossovers conserve alleles locus by locus** (cluster `BitOps`): draw lists; per-locus conservation.
* **C19 Permutation mutations preserve permutations** (cluster `PermOps`): in-place update loops; Permutation.
* **C20 Order crossover yields permutations** (cluster `PermOps`): index-arithmetic loop model; invariant.
* **C21 Partially mapped crossover yields permutations and terminates** (cluster `PermOps`): map-chasing loop with fuel and a proof that the fuel suffices.
* **C22 Breeding produces exactly the requested offspring and invalidates exactly the changed ones** (cluster `Breed`): populator as a state machine, operator trees as an inductive type.
* **C23 A whole eoEasyEA run keeps its population well formed** (cluster `Algo`): EasyEA loop as an inductive big-step relation / fuelled function over arbitrary components.
* **C24 Stopping criteria stop exactly when documented** (cluster `Algo`): continuators as state machines; induction over call histories.
* **C25 Evaluation accounting** (cluster `Algo`): state machines over presented individuals.
* **C26 Bounds repair lands inside the bounds** (cluster `Bounds`): folding over Z and over R (Coq Reals).
* **C27 Dual fitness comparison is a strict weak order with feasibility first** (cluster `Order`): comparison functions over a strict weak order.
* **C28 Linear parallel scheduling hands every individual to exactly one worker** (cluster `Smp`): division arithmetic.
* **C29 Progressive parallel scheduling processes every individual exactly once under every interleaving** (cluster `Smp`): interleaving transition system; invariants; progress.
* **C30 Migration topologies** (cluster `Smp`): adjacency matrix constructions.
* **C31 Static job assignment is balanced** (cluster `Mpi`): state machine over get/confirm.
* **C32 Distributed apply computes map under every message ordering** (cluster `Mpi`): master/worker transition system; invariant by induction over steps.
* **C33 JSON printing then parsing is the identity** (cluster `Json`): printer and parser over character lists with positions; parser fuelled; mutual induction.
* **C34 Neighborhood iterators enumerate each neighbor exactly once** (cluster `Neigh`): iterators as state machines.
* **C35 Indexed permutation moves: bijective indexing and exact undo** (cluster `Neigh`): index arithmetic; in-place moves.
* **C36 Hill climbing ends in a local optimum and never worsens** (cluster `LocalSearch`): local search loop over arbitrary landscapes.
* **C37 Tabu lists forbid exactly as long as documented** (cluster `Tabu`): state machines; induction over histories.
* **C38 Tabu search returns the best solution it visited** (cluster `LocalSearch`): tabu explorer in the local search loop.
* **C39 Incremental evaluation equals full evaluation** (cluster `IncrEval`): sums over index lists; exact arithmetic.
* **C40 Doubly incremental UBQP deltas stay exact over any search trajectory** (cluster `IncrEval`): invariant over trajectories.
* **C41 Bit-subset neighborhoods enumerate all subsets** (cluster `Neigh`): combination generator loop with fuel.
* **C42 Pareto comparison is a strict partial order** (cluster `Moeo`): objective vectors over Q (exact) with tolerance parameter.
* **C43 The archive is always a non-dominated set and the Pareto front of everything seen** (cluster `Moeo`): update with swap-with-back removal; induction over histories.
* **C44 Non-dominated sorting computes domination depth** (cluster `Moeo`): fast non-dominated sort as code; peeling spec.
* **C45 Dominance matrix, count and rank** (cluster `Moeo`): matrix loops.
* **C46 Elitist multi-objective replacement** (cluster `Moeo`): composition, sort as relation.
* **C47 The hypervolume metric computes the dominated volume** (cluster `Hyper`): recursive routine over Z coordinates; spec counts unit cells.
* **C48 Additive epsilon indicator** (cluster `Moeo`): max over coordinates.
* **C49 Bounded archives** (cluster `Moeo`): induction over histories, refutation by witness.
* **C50 NK landscape link generation** (cluster `IncrEval`): swap-table loop.
* **C51 Partition swap moves keep the partition** (cluster `Neigh`): sets as sorted lists.
* **C52 Variable neighborhood search returns the best solution found** (cluster `LocalSearch`): explorer in the local search loop; selection state machines.
* **C53 UBQP matrix normalisation preserves the objective** (cluster `IncrEval`): sums.
* **C54 Fitness validity protocol** (cluster `Pop`): state machine of one individual; token stream.
* **C55 Best and worst element queries** (cluster `Pop`): max_element/min_element as left folds.
* **C56 Reduce-merge-reduce replacement** (cluster `Pop`): composition of the reduction contracts; refutation by witness for weak elitism.
* **C57 Survive-and-die replacement** (cluster `Pop`): composition of two truncations and two reductions.
* **C58 MGG and G3 steady-state replacements** (cluster `Pop`): draw lists; permutation reasoning.
* **C59 Elite selection returns a best individual** (cluster `Select`): counter-example and exact behaviour.
* **C60 Deterministic selection keeps the best in priority** (cluster `Select`): counter-example and exact behaviour (C11_det_select).
* **C61 Initialisers** (cluster `Perm`): shuffle and generators as arbitrary functions; permutation and length reasoning.
* **C62 Sequential operators act on the whole group** (cluster `Breed`): populator with cursor; induction over the operator list and the group.
* **C63 One-to-one breeder** (cluster `Breed`): same populator model; case analysis of one step and induction over the count.
* **C64 Individuals and populations survive a text round trip** (cluster `Stream`): input streams as character lists with a fail flag; contracts for the text of fitnesses and atoms; induction over the population.
* **C65 State registration** (cluster `Stream`): getline and string search over character lists; induction over the file; pigeonhole argument for fresh names.
* **C66 Fitness arithmetic and assembled fitnesses** (cluster `Fit`): records for dual fitnesses, lists for assembled ones, the static table as explicit state; induction over the list of terms.
* **C67 The other comparators of objective vectors match their definitions** (cluster `Pareto`): each comparator as a loop over the objectives; equivalence with a quantified definition by induction over the objectives
* **C68 Multi-objective selectors return what they promise** (cluster `Repl`): selectors as functions of the list of draws; invariant over the contestants seen so far; wheel by induction over the fitnesses
* **C69 Random-best and neutral hill climbing and random walks keep their promises** (cluster `Ls`): Explorers as records of functions over an abstract neighborhood contract (met by the order, without-replacement and pair neighborhoods); invariants of the scan of the neighborhood; induction on the turns of moLocalSearch.
* **C70 Iterated local search follows its acceptance criterion** (cluster `Meta`): trace invariant over the loop of moLocalSearch; each turn related to a relational specification; best-so-far by induction on the turns
* **C71 Simulated annealing accepts by the Metropolis rule** (cluster `Meta`): exp is any positive, strictly increasing function with exp 0 = 1; doubles are exact rationals; trace of turns related to a specification of the rule
* **C72 Cooling schedules follow their closed form and stop** (cluster `Meta`): induction on the history; spans of a history specified as a decomposition; Bernoulli inequality for termination
* **C73 Metropolis-Hastings search accepts by the fitness ratio** (cluster `Meta`): same trace as C71 with the ratio rule
* **C74 Stopping criteria of local searches answer by their definition on every sequence of solutions** (cluster `Stop`): Continuators as the init/step pairs of LsModel; the answers on any list of solutions are characterised by an invariant over the list, and linked to any run of ls_run.
* **C75 A local-search checkpoint calls its parts in order, once each, every iteration** (cluster `Stop`): Every call is an event in a log; the log of a whole life is characterised by induction over the solutions.
* **C76 An evolutionary checkpoint calls its parts once per generation and makes the last calls exactly once** (cluster `Stop`): As C75, by induction over the populations; savers by induction over the calls.
* **C77 A parse tree is numbered, iterated, assigned, saved and loaded consistently** (cluster `Gp`): Trees with stored statistics abstracted to mathematical trees; invariant sound = statistics true at every node and arities respected; ways (paths) characterise the numbering.
* **C78 Tree variation operators exchange or replace exactly one subtree and respect the maximum size** (cluster `Gp`): Contexts (a tree with a hole) state what is replaced; pruning as a relation; totality for crossover, hoist and pruning.
* **C79 The depth initialiser makes trees of the depth and shape asked, and cycles through ramped depths** (cluster `Gp`): Recursion on fuel; the sequence generated is the postfix form of a tree; draw bound for termination; closed form of the sequence of modes.
* **C80 A particle swarm remembers the best of each particle, of each neighborhood and of the whole run** (cluster `Pso`): State machine of the swarm with the log of evaluations; invariant relating each particle's memory and each neighborhood's best to the evaluations accounted so far; update step accounts one more; totality separately.
* **C81 Standard velocities and flights compute their formula and stay inside their bounds** (cluster `Pso`): Exact rationals; clamping characterised by a separate specification; the log of evaluations beyond the initial ones comes from the flight.
* **C82 A ring topology sets up each neighborhood and its best** (cluster `Pso`): Setup proved for all sizes; update loop with 32-bit unsigned start value.
* **C83 Islands only integrate what linked islands sent, once, and the model always terminates** (cluster `Isl`): Transition system: one step per critical section or atomic access, labels chosen by an arbitrary schedule; an invariant (a permutation equation between the messages sent and those in the four queues, the routing record and the integrations) preserved by each step; termination by exhibiting a continuation.
* **C84 Migrants sent by an island reach its neighbours** (cluster `Isl`): Refuted with witnesses; two universal theorems state what happens instead.
* **C85 Crossovers of real vectors stay on their segment or box and inside the bounds** (cluster `Real`): Loops over coordinates as recursion with an invariant lemma (each2_inv); the limits of the factor by an invariant over the coordinates seen; rational arithmetic by lra and nra.
* **C86 Mutations of real vectors stay within their range and inside the bounds** (cluster `Real`): each_inv over the coordinates, with the folding theorem of the Bounds cluster.
* **C87 Evolution-strategy operators keep deviations positive, angles in [-pi, pi] and variables in bounds** (cluster `Real`): Loops as recursions; the list of normal numbers consumed is exhibited; the squared length is an invariant of each rotation.
* **C88 The one-fifth success rule** (cluster `Real`): Ring buffers of counters related by an invariant to the per-generation counts of the history; the specification counts happenings until the w-th end of generation.
* **C89 Documented checks and scalings of the real operators** (cluster `Real`): Each part refuted by a theorem about all the inputs concerned.
* **C90 Documented promises of operators, selection and replacement that fail** (cluster `several`): each claim is kept and refuted by a witness (or for all inputs) in the model of the cluster that owns the code.
* **C91 Folding into bounds with doubles stays inside the bounds** (cluster `Bounds`): binary64 rounding modelled on rationals; refuted by a witness.
* **C92 Parallel code without undefined accesses** (cluster `Sched, Mpi`): accesses made explicit steps; refuted by a schedule and for all worker lists.
* **C93 Documented promises of local-search components that fail** (cluster `Neigh, Bits, Part, Meta, Stop, Tabu`): each claim kept and refuted in the model of the cluster that owns the code.
* **C94 Incremental MaxSAT evaluation and Royal Road tails** (cluster `Eval`): exactness under the condition on literals; witnesses otherwise.
* **C95 Documented promises of multi-objective components that fail** (cluster `Rank, Dom, Arch, Repl`): each claim kept and refuted in the model of the cluster that owns the code.
* **C96 Documented promises of persistence that fail** (cluster `Stream`): each claim kept and refuted; eoState::load restores nothing for any file.
* **C97 Documented promises of fitness types that fail** (cluster `Fit`): refuted by witnesses.
* **C98 Assignments within a parse tree and new trees** (cluster `Gp`): refuted by witnesses.
* **C99 Topologies kept up to date** (cluster `Pso`): refuted for all sizes from 2 to 2^31.
* **C100 Command-line values of parameters** (cluster `Cli`): character-level model of readFrom as a token loop over the stream; the maps after a list of arguments characterised by induction from the last argument
* **C101 Response files, comments and sections** (cluster `Cli`): inductive specification of what a file says; induction over it shows the token loop computes the fold over its arguments
* **C102 When the parser asks for help** (cluster `Cli`): the recorded names are those the arguments give; the messages are non-empty exactly in the listed cases
* **C103 Saving and reloading parameter settings** (cluster `Cli`): the printed text satisfies the file specification of C101, with one argument per given parameter
* **C104 Parser promises that fail** (cluster `Cli`): refuted by computed witnesses; the true parts are C101 and C103
* **C105 Indicator-based fitness is the indicator sum, incremental updates agree with it, and it respects domination** (cluster `Ind`): The assignment, its matrix and both updates modelled over exact rationals with the metric and the weight as parameters; loop invariants for the matrix, permutation-invariance of the formula, induction over the changes; domination by term-wise comparison of the sums.
* **C106 The hypervolume indicator between two solutions is the difference of dominated volumes** (cluster `Ind`): Closed form of the recursion (product of sides minus product of the smaller sides) by induction on the objective; the volumes by counting grid cells as in C47, with inclusion-exclusion for two boxes.
* **C107 Crowding diversity is the crowding distance** (cluster `Div`): The population as a list of solutions paired with their diversity, sorted per objective; loop invariants relating position to share; induction over the objectives with the arrangement of each pass kept in the statement.
* **C108 Front-by-front crowding measures each front alone** (cluster `Div`): Induction over the fronts of the sorted pointers, each handled by the pass lemmas of C107.
* **C109 Nearest-neighbour diversity uses the distance to the k-th nearest other solution** (cluster `Div`): Loop invariant: each row holds the distances to the partners already met, in order; the k-th element of the sorted row.
* **C110 Sharing diversity is the niche count inverted** (cluster `Div`): The matrix as a function of two positions; invariants of the two nested loops; sums over positions turned into sums over solutions.
* **C111 Pareto local search ends in a Pareto local optimum set** (cluster `Dmls`): Contracts of the four explorers (every neighbour of a flagged solution is matched), kept by the archive through coverage and antichain lemmas; invariant over turns and runs.
* **C112 Pareto local search ends** (cluster `Dmls`): Measure: the reachable vectors that are dominated by the archive or equal to a visited member; never shrinks, grows at each turn.
* **C113 Pareto local search ends for every documented combination of components** (cluster `Dmls`): Refuted by witnesses whose orbit of states is closed: default archive, first non-dominated neighbour, sub-neighborhood, no neighbour, zero selected; a second application of the mutation.
* **C114 eoFastGA breeds, evaluates and replaces as documented** (cluster `Found`): Invariant of the offspring loop, then of the generation loop with the interruption as a distinct outcome.
* **C115 The algorithm foundry runs the selected operators within the budget** (cluster `Found`): The assembly inverted slot by slot; the counter as part of the state; a generation costs at least lambda evaluations.
* **C116 References handed out by an eoForgeVector** (cluster `Found`): A heap of objects with a live flag; invariant: the live objects are exactly those held, each by one forge; frame lemma for each request.
* **C117 eoAlgoRestart restarts from fresh populations** (cluster `Found`): Trace of the runs, by induction on the loop.
* **C118 Documented behaviour of the forges** (cluster `Found`): Refuted by witnesses or for every state.
* **C119 Worths stay with their individuals, and selection follows them** (cluster `Worth`): Permutation of the pairs; invariant of the cache over a session of operations; the tournaments reuse C12, the roulette C13.
* **C120 Linear fitness scaling** (cluster `Worth`): Field arithmetic over Q; the mean is below the best by induction.
* **C121 Fitness sharing** (cluster `Worth`): The two loops as sums, compared with the niche count.
* **C122 Non-dominated sorting gives worths front by front** (cluster `Worth`): m objectives: the loop shown to compute the survivors of RankSpec; two objectives: invariant of the vector of minima; penalties by induction over objectives.
* **C123 Documented behaviour of the worths** (cluster `Worth`): Refuted by witnesses or for every state.
* **C124 The two-objective hypervolume archive** (cluster `Stair`): Invariant over offers: staircase, and every fitness is the contribution computed from the neighbours; the contribution is shown to be the area of the region covered by that member only.
* **C125 The two-objective archive keeps the Pareto front while it does not overflow** (cluster `Stair`): Induction over the offers with the invariant of C124.
* **C126 Offering to the two-objective hypervolume archive is always defined** (cluster `Stair`): Refuted by witnesses; the exact set of undefined cases when the contributions stay under maxValue is proved.
* **C127 The epsilon hyperbox archive** (cluster `Box`): Invariant of bounds and scale over offers; domination implies domination or equality of the corners because floor and ceiling are monotone.
* **C128 Documented behaviour of the epsilon hyperbox archive** (cluster `Box`): Refuted by witnesses.
* **C129 The SPEA2 archive** (cluster `Spea`): The distance lines are kept sorted and complete for the elements left (invariant of the removal loop), so that the first line belongs to a most crowded element; the swaps with back() and pop_back are shown to be the replacements of the specification.
* **C130 The SPEA2 archive accepts any population, and follows the current fitness** (cluster `Spea`): Refuted by witnesses and by exact characterisations.
* **C131 Statistics of a neighborhood** (cluster `Stat`): The scan over the neighborhood keeps the list of the fitnesses seen; the fields are functions of it; the ranks come from the contract of std::sort.
* **C132 moStatistics: averages, distances, autocorrelations** (cluster `Stat`): The sums shared between the lags (in decreasing order) are invariants of the loops; Durbin-Levinson is proved to solve the Yule-Walker equations by induction on the order, as long as the unexplained variance does not vanish.
* **C133 moStatistics and moNeighborhoodStat on the border cases** (cluster `Stat`): Refuted by exact characterisations.
* **C134 Evaluating a neighbor by modifying the solution** (cluster `Pert`): The three steps (move, evaluate, move back) composed; the moves and their inverses come from the Neigh cluster.
* **C135 Perturbations and pure random search** (cluster `Pert`): Induction on the history of the memory of the perturbation given by C70.
* **C136 Perturbations count what they are documented to count** (cluster `Pert`): Refuted for all runs.
* **C137 Repairers and bounders of edo** (cluster `Edo`): Componentwise invariants of the loops; the dispatcher by induction on the list of index sets and, inside, on the indices.
* **C138 Estimators and samplers of edo** (cluster `Edo`): Invariants of the loops over the population; Welford's recurrence for the variance.
* **C139 Cholesky factorizations and multi-normal sampling** (cluster `Cho`): Reals. Induction on the columns: the pivots are positive because a vector built by solving the triangular system would otherwise contradict positive definiteness.
* **C140 The adaptive estimation-of-distribution loop** (cluster `Edo`): Invariants of the loop over an arbitrary world; the bounding box decreases at every turn.
* **C141 What edo documents and does not do** (cluster `Edo`): Refuted: each statement with a witness or for all inputs.
* **C142 Contribution, epsilon indicators and the sets of the entropy between two Pareto sets** (cluster `Met`): Double counting of the pairs of equal vectors; the indicators as greatest of least of greatest values against the definition of the least covering amount; removal by an invariant of the swap-with-last loop.
* **C143 What the metrics between two sets document and do not compute** (cluster `Met`): Counter-examples; the entropy on the real numbers of the standard library.
* **C144 Scalarizations of an objective vector agree with Pareto dominance** (cluster `Wgt`): Induction over the objectives for the loops; comparison of lists of weighted amounts objective by objective.
* **C145 Weight strategies give weights that add up to one, in the documented order** (cluster `Wgt`): The enumeration by induction with an order on the fractions and a rank; closed form of the fixed-step sequence; invariants for the others, with the antichain invariant of the archive for the dichotomic one.
* **C146 What the scalarizations and weight strategies document and do not do** (cluster `Wgt`): Counter-examples; the weighted Chebychev distance on the real numbers of the standard library; the invariant of the counts for the directions that are never explored.
* **C147 The archive indexes hold the non-dominated vectors offered** (cluster `Qd`): Invariant of the tree: every vector of a subtree has the key of the subtree with respect to the node, and the members are pairwise incomparable. Each operation permutes the content up to reported deletions. The quick index is a staircase, the dominated entries are consecutive.
* **C148 What the archive indexes document and do not do** (cluster `Qd`): Counter-examples computed on the model.
* **C149 Runs of the multi-objective evolutionary algorithms** (cluster `Moa`): The assignments order the fronts (from the rank and crowding proofs, duplicates included), sorting then keeps the best; induction over the generations. The archives: the offers of a run are one long offer.
* **C150 SEEA applies the transform it is given, ASEEA leaves a population** (cluster `Moa`): The general breeder with cloning operators only makes copies; induction over the generations.
* **C151 Variable-length operators keep genes and sizes** (cluster `Vl`): chromosomes are lists of genes; the trials of the crossovers are recursion on the number of trials left, the hard-coded 10000 being a parameter of the theorems; the children are described by the positions whose genes they received
* **C152 Uniform variable-length crossovers keep the genes and report changes** (cluster `Vl`): refuted by executions of the model
* **C153 Runs of the cellular algorithm and of the simple EDA** (cluster `Cel`): the loop body as a function on the population and a world; induction over cells and generations
* **C154 Evaluations that throw and components that look at a clock** (cluster `Cel`): clock readings are arguments; the exception is a distinct outcome that carries the population it leaves
* **C155 Counting, firing and showing time** (cluster `Cel`): refuted on the model
* **C156 A sampling records its search without changing it** (cluster `Samp`): the checkpoint is a continuator over (statistics, monitors, continuator); induction over the turns of the search in both directions; texts are lists of characters
* **C157 What the fitness-landscape samplings contain** (cluster `Samp`): instances of C156 with the walks, random searches and hill climbers of C36, C69, C70 and C129
* **C158 Sizes of small samples and neutral degrees without neighbors** (cluster `Samp`): refuted on the model
* **C159 Strongly typed initialization makes well-typed trees, and can make all of them** (cluster `Stg`): the recursion of generate on fuel, its sequence read back by the postfix construction of the Gp cluster; completeness by induction on the depth; bound on the draws from the largest arity
* **C160 The strongly typed operators keep trees well typed** (cluster `Stg`): trees with a hole; invariant of the search for a crossover point: the nodes tried are distinct and have no partner, so that when all were tried there is none
* **C161 Strongly typed genetic programming: the documented size, full trees and typing** (cluster `Stg`): counter-examples with nodes on numbers, truth values and vectors
* **C162 The long k-path landscape is the long k-path** (cluster `Prob`): The path is specified by its recursive construction, independently of the evaluator; the distance of any two points is bounded below and above by induction on m; rank is proved to return the place on the path by induction over the suffixes of k bits.
* **C163 Queens, building blocks and NK instances mean what they say** (cluster `Prob`): The double loops become sums over pairs; 32-bit wrap-around in the queen test is modelled and shown harmless for rows far from 2^32; doubles are exact rationals.
* **C164 An NK instance written to a file can be read back** (cluster `Prob`): Files are lists of words and ends of lines; load is followed word by word.
* **C165 A swarm on a star topology knows the best position ever evaluated** (cluster `Psv`): On one neighborhood of all the indices the star update is the linear one, so the runs are equal step by step and the invariants of C80 carry over; the setup is proved apart.
* **C166 Weighted and integer velocities, weights and binary flights follow their formulas** (cluster `Psv`): Exact rationals; the loop over the components is proved for any modifier that changes one bound; round is proved to be the nearest integer.
* **C167 Decaying bounds, integer velocities and decreasing weights keep their documented promises** (cluster `Psv`): Witnesses on the model, and for the decaying bounds the maximum after any number of calls.
* **C168 The DTLZ benchmark problems have the values and the Pareto sets they are used for** (cluster `Dtlz`): evaluations on exact reals, each loop reading the vector with bounds checks; the objectives are shown to be a scaled product chain, whose sum (or sum of squares) telescopes; optimality by a strictly monotone norm
* **C169 SBX crossover and polynomial mutation stay within the bounds** (cluster `Dtlz`): the spread factor betaq is shown to be at most beta, so that the final truncation never acts; the mutation by cases on its clipping
* **C170 SBX works without bounds; polynomial mutation reports real changes** (cluster `Dtlz`): refuted: the unbounded crossover throws on every pair of different parents; a variable on a bound never moves
* **C171 The hypervolume continuator stops exactly when an archive below the target has reached it** (cluster `Wat`): on a common grid the cells under the archive are among the cells under the target and as many, so they are the same; the top cell of each target vector then gives an archive vector
* **C172 The hypervolume continuators go on until the given Pareto set is reached, and no longer** (cluster `Wat`): refuted by witnesses for the first, for every archive for the second
* **C173 The statistics on objective vectors and the fitness with constraints compute what they announce** (cluster `Wat`): inductions over the population, the history and the objectives
* **C174 The best statistic gives the best individuals of the last population** (cluster `Wat`): refuted for every history
* **C175 The memory pool of the parse trees never hands out memory in use** (cluster `Pool`): memory at the granularity of bytes, links stored in the free blocks; invariant: following the links from the head visits exactly the blocks not held
* **C176 The memory pool works for every element type** (cluster `Pool`): refuted for every size above a chunk and by witnesses
* **C177 Custom topologies follow their matrix** (cluster `Cust`): the reader as a function of the words of each line; invariants over rows, draws and islands
* **C178 Custom topologies, Bimap and SharedFitContinue do what is documented** (cluster `Cust`): refuted by witnesses and by theorems on every history
* **C179 Distances are distances, the fitness distance correlation is Pearson's** (cluster `Fdc`): loops over the reals shown equal to sums; Cauchy-Schwarz and Minkowski proved on lists of pairs
* **C180 Distances and statistics are defined for every input** (cluster `Fdc`): refuted by witnesses and by theorems over all such inputs
* **C181 Master-worker algorithms compute what the sequential ones compute** (cluster `Mw`): the orders are those of complete executions of the scheduler models of C28 and C29; equality with the sequential loops by induction over the generations, agreement up to a permutation of the calls for swarms
* **C182 Master-worker algorithms replace the sequential ones in every use** (cluster `Mw`): refuted by witnesses
* **C183 CMA-ES parameters are consistent for every dimension** (cluster `Cma`): real arithmetic: logarithms are increasing, Cauchy-Schwarz for mueff, convex combination for ccov
* **C184 The CMA-ES state keeps a positive definite covariance and samples from it** (cluster `Cma`): quadratic forms under rank-one updates and diagonal shifts; orthogonality for the factor, the root and the shifted system; the eigen solver as a function with a contract; induction over the calls
* **C185 CMA-ES options and failures behave as documented** (cluster `Cma`): refuted by witnesses
* **C186 Evaluating an algorithm assembled by a foundry** (cluster `Evf`): model the foundry object (encodings and live continuators), its operator() over the models of eoGeneralBreeder, eoEasyEA and eoCombinedContinue, and the evaluator; prove the equation of an evaluation, the closed form of a generation, the report and the independence from the object's history
* **C187 Defaults and bounds documented for the foundry of algorithms** (cluster `Evf`): refute each by a general theorem
* **C188 The adaptive normal distribution of the EDO module keeps a usable covariance** (cluster `Nad`): Vectors and matrices are functions of indices over the reals, the eigen solver is a function with a contract; positive definiteness is an invariant by induction over the updates, from quadratic forms; the contract is shown to be met in dimensions 1 and 2 by explicit solvers.
* **C189 The documented constants and safeguards of the adaptive normal distribution** (cluster `Nad`): Refutations: a closed formula for the difference, and explicit populations and covariances.
* **C190 The logger shows exactly the messages of the selected levels, on the last target** (cluster `Srv`): The logger is a state machine over operations; refinement to a specification that looks up the last setting in the history.
* **C191 No signal is lost by the checkpoint on a signal, and Ctrl C stops the search for good** (cluster `Srv`): A transition system whose steps are the test, the clearing and the evaluation, with signals between any two steps; invariants by induction over the events.
* **C192 The documented safeguards of the logger and of the signal continuators** (cluster `Srv`): Refutations with explicit histories, most of them for all texts, levels or verdicts.
* **C193 The store of functors frees each stored functor exactly once** (cluster `Srv`): A heap of addresses; the destructor is a fold of deletions, a deletion of a dead address being undefined.
* **C194 Monitors, snapshots and dumps leave exactly the files and lines of the calls made** (cluster `Mon`): Files are a map from names to contents, streams carry a text and a pending width; induction over the calls; distinct numbers give distinct names.
* **C195 What the monitors document and do not do** (cluster `Mon`): Refutations: the general behaviour is proved and contradicts each clause.
* **C196 Counters count every call, updaters act exactly when due** (cluster `Mon`): Clock readings are a list; induction with the time of the last action as invariant.
* **C197 The selection option builds the selector it names** (cluster `Mak`): the builder as a function of the option and of atof; case analysis over the names, decimal parsing proved against the standard library's printing of numbers
* **C198 Documented behaviour of the builders that does not hold** (cluster `Mak`): refuted with witnesses that hold for every tournament size
* **C199 The initial population has the size asked for and depends only on the seed or on the file** (cluster `Mak`): the builder as a function of the options, the file and the generator
* **C200 The stopping criterion built stops a run at the first criterion met** (cluster `Mak`): induction on the history with the states of the continuators as the invariant, reusing the theorems on each continuator
* **C201 The reduction and the genetic operator built do what their options say** (cluster `Mak`): symbolic execution of the populator on the operator tree that the builder returns
* **C202 A multi-start job does exactly the runs asked for, whatever the schedule** (cluster `Mst`): the job as a transition system over schedules; an invariant relates the results so far to the runs of each worker; Gauss's lemma for the seeds
* **C203 Documented guarantees of the multi-start job that do not hold** (cluster `Mst`): refuted with witnesses
* **C204 The timer statistics hold one exact wall clock measure per stop** (cluster `Mst`): induction on the sequence of calls; seconds and microseconds as integers, the wall clock as an exact rational
* **C205 The user and system times add up to the time spent** (cluster `Mst`): exact for intervals whose microseconds do not decrease; refuted for the others
* **C206 The generators of random atoms make numbers of the interval, and all of them fairly** (cluster `Ugen`): integers with explicit overflow, the double product rounded to 53 bits as in the Rng cluster; the fairness by counting the preimages with ceiling divisions
* **C207 Documented intervals of the generators that do not hold** (cluster `Ugen`): refuted with witnesses for every such bound
* **C208 Integer wrappers of real operators keep the bounds** (cluster `Rti`): RtiModel follows the three call operators on top of BoundsModel, with the real operator as an arbitrary function; proved by induction on the written vector and by the lemmas on folding and truncation of C26.
* **C209 Integer wrappers of real operators that change the length** (cluster `Rti`): same model; refuted for every operator that lengthens or shortens the vector, and by an operator that adds a third to each value.
* **C210 Selection of a population from an archive** (cluster `Rti`): archive_select follows the call operator with the shuffle as an arbitrary permutation of the indices; proved by cases.
* **C211 Stop on parameters that are not finite** (cluster `Rti`): go_on follows the call operator and its loops; proved by induction on the elements.
* **C212 Stop on a mean that is not finite** (cluster `Rti`): same model; the answer does not depend on the mean.
* **C213 Evaluation by a system command** (cluster `Cmd`): CmdModel follows the call and its reading loop with fgets on a list of characters, the system and the parser of the fitness being arbitrary functions; the loop is proved by induction on the output.
* **C214 Output of a command that is not a fitness** (cluster `Cmd`): same model; refuted for all blank outputs, for all outputs that are no fitness, for a buffer of one character and by an output with a null character.
* **C215 Fitness from a reference point** (cluster `Cmd`): ref_assign follows the call on top of IndModel and ParetoModel; the epsilon part uses the triangle inequality and the sign of the indicator.
* **C216 Reference-point fitness: strictness and deletion** (cluster `Cmd`): same model; refuted by two populations of two individuals.
* **C217 Index of a bi-objective archive** (cluster `Qix`): QixModel follows insert with the set as a sorted list; the invariant (second objective gets worse and first one better along the index) is proved by induction on the history.
* **C218 Archive that uses a quick index** (cluster `Qix`): same model with the archive; refuted by short histories, and for all pairs of a vector and one that dominates it.
* **C219 Distances between objective vectors** (cluster `Dst`): DstModel follows the loops over exact rationals, under the root for the Euclidean distance; the triangle inequality is proved with the inequality of Cauchy and Schwarz.
* **C220 Documented range of distances between objective vectors** (cluster `Dst`): same model; refuted for every number of objectives.
* **C221 Sizes of particles and initial velocities** (cluster `Vel`): VelModel follows the functions over lists with any types of values and any state of the generator; induction over the lengths.
* **C222 Consistency of initialized particles** (cluster `Vel`): same model; refuted for every particle of another length.

## Assumptions

`Print Assumptions` was run on every theorem of `MANIFEST.json` (it also follows each theorem in its file).
It prints "Closed under the global context" for 1163 of the 1253 theorems. The others rest on axioms of Coq's standard library only:

* `C139_llt`: `ClassicalDedekindReals.sig_not_dec`, `ClassicalDedekindReals.sig_forall_dec`, `FunctionalExtensionality.functional_extensionality_dep`
* `C139_ldlt`: `ClassicalDedekindReals.sig_not_dec`, `ClassicalDedekindReals.sig_forall_dec`, `FunctionalExtensionality.functional_extensionality_dep`
* `C139_unique`: `ClassicalDedekindReals.sig_forall_dec`, `FunctionalExtensionality.functional_extensionality_dep`
* `C139_sampler_moments`: `ClassicalDedekindReals.sig_not_dec`, `ClassicalDedekindReals.sig_forall_dec`, `FunctionalExtensionality.functional_extensionality_dep`
* `C139_empty_outside`: `ClassicalDedekindReals.sig_not_dec`, `ClassicalDedekindReals.sig_forall_dec`, `FunctionalExtensionality.functional_extensionality_dep`
* `C139_changed_pivots_outside`: `ClassicalDedekindReals.sig_not_dec`, `ClassicalDedekindReals.sig_forall_dec`, `FunctionalExtensionality.functional_extensionality_dep`
* `C143_entropy_refuted`: `ClassicalDedekindReals.sig_not_dec`, `ClassicalDedekindReals.sig_forall_dec`, `FunctionalExtensionality.functional_extensionality_dep`, `Classical_Prop.classic`
* `C146_chebychev_refuted`: `ClassicalDedekindReals.sig_not_dec`, `ClassicalDedekindReals.sig_forall_dec`, `FunctionalExtensionality.functional_extensionality_dep`, `Classical_Prop.classic`
* `C168_dtlz1_values`: `ClassicalDedekindReals.sig_not_dec`, `ClassicalDedekindReals.sig_forall_dec`, `FunctionalExtensionality.functional_extensionality_dep`
* `C168_dtlz1_front`: `ClassicalDedekindReals.sig_not_dec`, `ClassicalDedekindReals.sig_forall_dec`, `FunctionalExtensionality.functional_extensionality_dep`
* `C168_dtlz2_values`: `ClassicalDedekindReals.sig_not_dec`, `ClassicalDedekindReals.sig_forall_dec`, `FunctionalExtensionality.functional_extensionality_dep`
* `C168_dtlz2_front`: `ClassicalDedekindReals.sig_not_dec`, `ClassicalDedekindReals.sig_forall_dec`, `FunctionalExtensionality.functional_extensionality_dep`
* `C168_dtlz3_values`: `ClassicalDedekindReals.sig_not_dec`, `ClassicalDedekindReals.sig_forall_dec`, `FunctionalExtensionality.functional_extensionality_dep`
* `C168_dtlz3_front`: `ClassicalDedekindReals.sig_not_dec`, `ClassicalDedekindReals.sig_forall_dec`, `FunctionalExtensionality.functional_extensionality_dep`
* `C168_dtlz4_values`: `ClassicalDedekindReals.sig_not_dec`, `ClassicalDedekindReals.sig_forall_dec`, `FunctionalExtensionality.functional_extensionality_dep`, `Classical_Prop.classic`
* `C168_dtlz4_front`: `ClassicalDedekindReals.sig_not_dec`, `ClassicalDedekindReals.sig_forall_dec`, `FunctionalExtensionality.functional_extensionality_dep`, `Classical_Prop.classic`
* `C168_dtlz5_values`: `ClassicalDedekindReals.sig_not_dec`, `ClassicalDedekindReals.sig_forall_dec`, `FunctionalExtensionality.functional_extensionality_dep`
* `C168_dtlz5_front`: `ClassicalDedekindReals.sig_not_dec`, `ClassicalDedekindReals.sig_forall_dec`, `FunctionalExtensionality.functional_extensionality_dep`
* `C168_dtlz6_values`: `ClassicalDedekindReals.sig_not_dec`, `ClassicalDedekindReals.sig_forall_dec`, `FunctionalExtensionality.functional_extensionality_dep`, `Classical_Prop.classic`
* `C168_dtlz6_front`: `ClassicalDedekindReals.sig_not_dec`, `ClassicalDedekindReals.sig_forall_dec`, `FunctionalExtensionality.functional_extensionality_dep`, `Classical_Prop.classic`
* `C168_dtlz7_values`: `ClassicalDedekindReals.sig_not_dec`, `ClassicalDedekindReals.sig_forall_dec`, `FunctionalExtensionality.functional_extensionality_dep`
* `C168_dtlz7_front`: `ClassicalDedekindReals.sig_not_dec`, `ClassicalDedekindReals.sig_forall_dec`, `FunctionalExtensionality.functional_extensionality_dep`
* `C168_variables_missing_outside`: `ClassicalDedekindReals.sig_not_dec`, `ClassicalDedekindReals.sig_forall_dec`, `FunctionalExtensionality.functional_extensionality_dep`, `Classical_Prop.classic`
* `C168_single_objective_outside`: `ClassicalDedekindReals.sig_not_dec`, `ClassicalDedekindReals.sig_forall_dec`, `FunctionalExtensionality.functional_extensionality_dep`, `Classical_Prop.classic`
* `C169_sbx`: `ClassicalDedekindReals.sig_not_dec`, `ClassicalDedekindReals.sig_forall_dec`, `FunctionalExtensionality.functional_extensionality_dep`, `Classical_Prop.classic`
* `C169_sbx_children`: `ClassicalDedekindReals.sig_not_dec`, `ClassicalDedekindReals.sig_forall_dec`, `FunctionalExtensionality.functional_extensionality_dep`, `Classical_Prop.classic`
* `C169_sbx_works`: `ClassicalDedekindReals.sig_not_dec`, `ClassicalDedekindReals.sig_forall_dec`, `FunctionalExtensionality.functional_extensionality_dep`, `Classical_Prop.classic`
* `C169_polynomial`: `ClassicalDedekindReals.sig_not_dec`, `ClassicalDedekindReals.sig_forall_dec`, `FunctionalExtensionality.functional_extensionality_dep`, `Classical_Prop.classic`
* `C169_polynomial_moves`: `ClassicalDedekindReals.sig_not_dec`, `ClassicalDedekindReals.sig_forall_dec`, `FunctionalExtensionality.functional_extensionality_dep`, `Classical_Prop.classic`
* `C169_polynomial_works`: `ClassicalDedekindReals.sig_not_dec`, `ClassicalDedekindReals.sig_forall_dec`, `FunctionalExtensionality.functional_extensionality_dep`, `Classical_Prop.classic`
* `C170_no_bounds_refuted`: `ClassicalDedekindReals.sig_not_dec`, `ClassicalDedekindReals.sig_forall_dec`, `FunctionalExtensionality.functional_extensionality_dep`, `Classical_Prop.classic`
* `C170_stuck_on_a_bound`: `ClassicalDedekindReals.sig_not_dec`, `ClassicalDedekindReals.sig_forall_dec`, `FunctionalExtensionality.functional_extensionality_dep`, `Classical_Prop.classic`
* `C170_change_is_reported_refuted`: `ClassicalDedekindReals.sig_not_dec`, `ClassicalDedekindReals.sig_forall_dec`, `FunctionalExtensionality.functional_extensionality_dep`, `Classical_Prop.classic`
* `C179_hamming`: `ClassicalDedekindReals.sig_forall_dec`, `FunctionalExtensionality.functional_extensionality_dep`
* `C179_manhattan`: `ClassicalDedekindReals.sig_forall_dec`, `FunctionalExtensionality.functional_extensionality_dep`
* `C179_euclidean`: `ClassicalDedekindReals.sig_not_dec`, `ClassicalDedekindReals.sig_forall_dec`, `FunctionalExtensionality.functional_extensionality_dep`
* `C179_bits`: `ClassicalDedekindReals.sig_not_dec`, `ClassicalDedekindReals.sig_forall_dec`, `FunctionalExtensionality.functional_extensionality_dep`
* `C179_fitness_distance`: `ClassicalDedekindReals.sig_not_dec`, `ClassicalDedekindReals.sig_forall_dec`, `FunctionalExtensionality.functional_extensionality_dep`
* `C179_correlation`: `ClassicalDedekindReals.sig_not_dec`, `ClassicalDedekindReals.sig_forall_dec`, `FunctionalExtensionality.functional_extensionality_dep`
* `C179_rescaled`: `ClassicalDedekindReals.sig_not_dec`, `ClassicalDedekindReals.sig_forall_dec`, `FunctionalExtensionality.functional_extensionality_dep`
* `C179_perfect`: `ClassicalDedekindReals.sig_not_dec`, `ClassicalDedekindReals.sig_forall_dec`, `FunctionalExtensionality.functional_extensionality_dep`
* `C179_feasible_ratio`: `ClassicalDedekindReals.sig_forall_dec`, `FunctionalExtensionality.functional_extensionality_dep`
* `C179_assembled`: `ClassicalDedekindReals.sig_forall_dec`, `FunctionalExtensionality.functional_extensionality_dep`
* `C179_assembled_best`: `ClassicalDedekindReals.sig_forall_dec`, `FunctionalExtensionality.functional_extensionality_dep`
* `C179_assembled_greatest`: `ClassicalDedekindReals.sig_forall_dec`, `FunctionalExtensionality.functional_extensionality_dep`
* `C180_lengths_refuted`: `ClassicalDedekindReals.sig_not_dec`, `ClassicalDedekindReals.sig_forall_dec`, `FunctionalExtensionality.functional_extensionality_dep`
* `C180_shorter_outside`: `ClassicalDedekindReals.sig_not_dec`, `ClassicalDedekindReals.sig_forall_dec`, `FunctionalExtensionality.functional_extensionality_dep`
* `C180_converged_refuted`: `ClassicalDedekindReals.sig_not_dec`, `ClassicalDedekindReals.sig_forall_dec`, `FunctionalExtensionality.functional_extensionality_dep`
* `C180_all_failed`: `ClassicalDedekindReals.sig_forall_dec`, `FunctionalExtensionality.functional_extensionality_dep`
* `C180_empty_refuted`: `ClassicalDedekindReals.sig_forall_dec`, `FunctionalExtensionality.functional_extensionality_dep`
* `C183_weights`: `ClassicalDedekindReals.sig_not_dec`, `ClassicalDedekindReals.sig_forall_dec`, `FunctionalExtensionality.functional_extensionality_dep`, `Classical_Prop.classic`
* `C183_rates`: `ClassicalDedekindReals.sig_not_dec`, `ClassicalDedekindReals.sig_forall_dec`, `FunctionalExtensionality.functional_extensionality_dep`, `Classical_Prop.classic`
* `C183_sizes`: `ClassicalDedekindReals.sig_not_dec`, `ClassicalDedekindReals.sig_forall_dec`, `FunctionalExtensionality.functional_extensionality_dep`, `Classical_Prop.classic`
* `C183_stdevs`: `ClassicalDedekindReals.sig_not_dec`, `ClassicalDedekindReals.sig_forall_dec`, `FunctionalExtensionality.functional_extensionality_dep`, `Classical_Prop.classic`
* `C183_usable`: `ClassicalDedekindReals.sig_not_dec`, `ClassicalDedekindReals.sig_forall_dec`, `FunctionalExtensionality.functional_extensionality_dep`, `Classical_Prop.classic`
* `C184_start`: `ClassicalDedekindReals.sig_not_dec`, `ClassicalDedekindReals.sig_forall_dec`, `FunctionalExtensionality.functional_extensionality_dep`
* `C184_positive_definite`: `ClassicalDedekindReals.sig_not_dec`, `ClassicalDedekindReals.sig_forall_dec`, `FunctionalExtensionality.functional_extensionality_dep`, `Classical_Prop.classic`
* `C184_mean`: `ClassicalDedekindReals.sig_not_dec`, `ClassicalDedekindReals.sig_forall_dec`, `FunctionalExtensionality.functional_extensionality_dep`, `Classical_Prop.classic`
* `C184_weighted_mean`: `ClassicalDedekindReals.sig_not_dec`, `ClassicalDedekindReals.sig_forall_dec`, `FunctionalExtensionality.functional_extensionality_dep`, `Classical_Prop.classic`
* `C184_eigen_system`: `ClassicalDedekindReals.sig_not_dec`, `ClassicalDedekindReals.sig_forall_dec`, `FunctionalExtensionality.functional_extensionality_dep`
* `C184_sample`: `ClassicalDedekindReals.sig_forall_dec`, `FunctionalExtensionality.functional_extensionality_dep`
* `C184_path`: `ClassicalDedekindReals.sig_not_dec`, `ClassicalDedekindReals.sig_forall_dec`, `FunctionalExtensionality.functional_extensionality_dep`, `Classical_Prop.classic`
* `C184_step_size`: `ClassicalDedekindReals.sig_not_dec`, `ClassicalDedekindReals.sig_forall_dec`, `FunctionalExtensionality.functional_extensionality_dep`, `Classical_Prop.classic`
* `C184_translation`: `ClassicalDedekindReals.sig_not_dec`, `ClassicalDedekindReals.sig_forall_dec`, `FunctionalExtensionality.functional_extensionality_dep`, `Classical_Prop.classic`
* `C184_fitness_order`: `ClassicalDedekindReals.sig_not_dec`, `ClassicalDedekindReals.sig_forall_dec`, `FunctionalExtensionality.functional_extensionality_dep`, `Classical_Prop.classic`
* `C184_breed`: `ClassicalDedekindReals.sig_not_dec`, `ClassicalDedekindReals.sig_forall_dec`, `FunctionalExtensionality.functional_extensionality_dep`, `Classical_Prop.classic`
* `C184_covariance_path`: `ClassicalDedekindReals.sig_not_dec`, `ClassicalDedekindReals.sig_forall_dec`, `FunctionalExtensionality.functional_extensionality_dep`, `Classical_Prop.classic`
* `C185_weighting_names_refuted`: `ClassicalDedekindReals.sig_not_dec`, `ClassicalDedekindReals.sig_forall_dec`, `FunctionalExtensionality.functional_extensionality_dep`, `Classical_Prop.classic`
* `C185_more_parents_refuted`: `ClassicalDedekindReals.sig_not_dec`, `ClassicalDedekindReals.sig_forall_dec`, `FunctionalExtensionality.functional_extensionality_dep`, `Classical_Prop.classic`
* `C185_fewer_parents_refuted`: `ClassicalDedekindReals.sig_not_dec`, `ClassicalDedekindReals.sig_forall_dec`, `FunctionalExtensionality.functional_extensionality_dep`, `Classical_Prop.classic`
* `C185_unfinished_success_refuted`: `ClassicalDedekindReals.sig_not_dec`, `ClassicalDedekindReals.sig_forall_dec`, `FunctionalExtensionality.functional_extensionality_dep`
* `C185_failure_spoils_refuted`: `ClassicalDedekindReals.sig_not_dec`, `ClassicalDedekindReals.sig_forall_dec`, `FunctionalExtensionality.functional_extensionality_dep`, `Classical_Prop.classic`
* `C185_minimum_refuted`: `ClassicalDedekindReals.sig_not_dec`, `ClassicalDedekindReals.sig_forall_dec`, `FunctionalExtensionality.functional_extensionality_dep`
* `C188_weights`: `ClassicalDedekindReals.sig_not_dec`, `ClassicalDedekindReals.sig_forall_dec`, `FunctionalExtensionality.functional_extensionality_dep`, `Classical_Prop.classic`
* `C188_constants`: `ClassicalDedekindReals.sig_not_dec`, `ClassicalDedekindReals.sig_forall_dec`, `FunctionalExtensionality.functional_extensionality_dep`
* `C188_accepts`: `ClassicalDedekindReals.sig_not_dec`, `ClassicalDedekindReals.sig_forall_dec`, `FunctionalExtensionality.functional_extensionality_dep`, `Classical_Prop.classic`
* `C188_mean`: `ClassicalDedekindReals.sig_not_dec`, `ClassicalDedekindReals.sig_forall_dec`, `FunctionalExtensionality.functional_extensionality_dep`, `Classical_Prop.classic`
* `C188_learning`: `ClassicalDedekindReals.sig_not_dec`, `ClassicalDedekindReals.sig_forall_dec`, `FunctionalExtensionality.functional_extensionality_dep`, `Classical_Prop.classic`
* `C188_healthy`: `ClassicalDedekindReals.sig_not_dec`, `ClassicalDedekindReals.sig_forall_dec`, `FunctionalExtensionality.functional_extensionality_dep`, `Classical_Prop.classic`
* `C188_runs`: `ClassicalDedekindReals.sig_not_dec`, `ClassicalDedekindReals.sig_forall_dec`, `FunctionalExtensionality.functional_extensionality_dep`, `Classical_Prop.classic`
* `C188_decomposition`: `ClassicalDedekindReals.sig_not_dec`, `ClassicalDedekindReals.sig_forall_dec`, `FunctionalExtensionality.functional_extensionality_dep`, `Classical_Prop.classic`
* `C188_period`: `ClassicalDedekindReals.sig_not_dec`, `ClassicalDedekindReals.sig_forall_dec`, `FunctionalExtensionality.functional_extensionality_dep`, `Classical_Prop.classic`
* `C188_step`: `ClassicalDedekindReals.sig_not_dec`, `ClassicalDedekindReals.sig_forall_dec`, `FunctionalExtensionality.functional_extensionality_dep`, `Classical_Prop.classic`
* `C188_sample`: `ClassicalDedekindReals.sig_forall_dec`, `FunctionalExtensionality.functional_extensionality_dep`
* `C188_reset`: `ClassicalDedekindReals.sig_forall_dec`
* `C188_conditioning`: `ClassicalDedekindReals.sig_forall_dec`, `FunctionalExtensionality.functional_extensionality_dep`
* `C188_conditioning_stop`: `ClassicalDedekindReals.sig_forall_dec`, `FunctionalExtensionality.functional_extensionality_dep`
* `C189_length_refuted`: `ClassicalDedekindReals.sig_not_dec`, `ClassicalDedekindReals.sig_forall_dec`, `FunctionalExtensionality.functional_extensionality_dep`
* `C189_variance_refuted`: `ClassicalDedekindReals.sig_not_dec`, `ClassicalDedekindReals.sig_forall_dec`, `FunctionalExtensionality.functional_extensionality_dep`, `Classical_Prop.classic`
* `C189_conditioning_refuted`: `ClassicalDedekindReals.sig_forall_dec`, `FunctionalExtensionality.functional_extensionality_dep`

`sig_not_dec` and `sig_forall_dec` are the axioms of the classical Dedekind real numbers (`Coq.Reals`), `functional_extensionality_dep`
that of `Coq.Logic.FunctionalExtensionality`. No axiom, parameter, `Admitted` or section-less hypothesis is added; every hypothesis
is in the statement of the theorem that needs it.

## What is modelled

The files of /repo cited by the definitions of each cluster (the comment of each definition gives the lines):

* `Algo`: eo/src/apply.h, eo/src/eoCombinedContinue.h, eo/src/eoEasyEA.h, eo/src/eoEvalContinue.h, eo/src/eoEvalCounterThrowException.h, eo/src/eoEvalFunc.h, eo/src/eoEvalFuncCounter.h, eo/src/eoEvalKeepBest.h, eo/src/eoFitContinue.h, eo/src/eoGenContinue.h, eo/src/eoPeriodicContinue.h, eo/src/eoPopEvalFunc.h, eo/src/eoSGA.h, eo/src/eoSteadyFitContinue.h
* `Arch`: eo/src/eoPop.h, moeo/src/archive/moeoArchive.h, moeo/src/archive/moeoFitDivBoundedArchive.h, moeo/src/archive/moeoImprOnlyBoundedArchive.h, moeo/src/archive/moeoUnboundedArchive.h
* `Bit`: eo/src/ga/eoBitOp.h, eo/src/ga/eoStandardBitMutation.h
* `Bits`: mo/src/problems/bitString/moBitsNeighbor.h, mo/src/problems/bitString/moBitsNeighborhood.h, mo/src/problems/bitString/moBitsWithReplNeighborhood.h, mo/src/problems/bitString/moBitsWithoutReplNeighborhood.h
* `Bounds`: eo/src/eoInt.h, eo/src/utils/eoIntBounds.h, eo/src/utils/eoRealBounds.h, eo/src/utils/eoRealVectorBounds.h
* `Box`: moeo/src/archive/moeoEpsilonHyperboxArchive.h, moeo/src/comparator/moeoParetoObjectiveVectorComparator.h, moeo/src/distance/moeoEuclideanDistance.h, moeo/src/utils/moeoObjectiveVectorNormalizer.h
* `Breed`: eo/src/EO.h, eo/src/eoBreed.h, eo/src/eoGenOp.h, eo/src/eoGeneralBreeder.h, eo/src/eoInvalidateOps.h, eo/src/eoOneToOneBreeder.h, eo/src/eoOp.h, eo/src/eoOpContainer.h, eo/src/eoPopulator.h, eo/src/eoSGATransform.h
* `Cel`: eo/src/eoCellularEasyEA.h, eo/src/eoDistribUpdater.h, eo/src/eoDistribution.h, eo/src/eoEvalFuncCounter.h, eo/src/eoEvalNanThrowException.h, eo/src/eoEvalTimeThrowException.h, eo/src/eoEvalUserTimeThrowException.h, eo/src/eoInit.h, eo/src/eoPop.h, eo/src/eoSecondsElapsedContinue.h, eo/src/eoSimpleEDA.h, eo/src/eoTimeContinue.h, eo/src/utils/eoTimeCounter.h, eo/src/utils/eoTimedMonitor.h, mo/src/continuator/moTimeContinuator.h
* `Cho`: edo/src/edoSamplerNormalMulti.h, edo/src/utils/edoCholesky.h
* `Cli`: eo/src/utils/eoParam.h, eo/src/utils/eoParser.cpp, eo/src/utils/eoParser.h
* `Cma`: eo/src/eoPop.h, eo/src/es/CMAParams.cpp, eo/src/es/CMAParams.h, eo/src/es/CMAState.cpp, eo/src/es/CMAState.h, eo/src/es/eig.cpp, eo/src/es/eoCMABreed.h, eo/src/es/eoCMAInit.h, eo/src/es/matrices.h
* `Cmd`: eo/src/eoEvalCmd.h, moeo/src/fitness/moeoReferencePointIndicatorBasedFitnessAssignment.h
* `Cust`: smp/src/bimap.cpp, smp/src/islandModel.cpp, smp/src/sharedFitContinue.cpp, smp/src/topology/customBooleanTopology.cpp, smp/src/topology/customStochasticTopology.cpp
* `Div`: moeo/src/comparator/moeoFitnessThenDiversityComparator.h, moeo/src/comparator/moeoOneObjectiveComparator.h, moeo/src/distance/moeoDistanceMatrix.h, moeo/src/diversity/moeoCrowdingDiversityAssignment.h, moeo/src/diversity/moeoFrontByFrontCrowdingDiversityAssignment.h, moeo/src/diversity/moeoFrontByFrontSharingDiversityAssignment.h, moeo/src/diversity/moeoNearestNeighborDiversityAssignment.h, moeo/src/diversity/moeoSharingDiversityAssignment.h
* `Dmls`: moeo/src/algo/moeoPLS1.h, moeo/src/algo/moeoPLS2.h, moeo/src/algo/moeoUnifiedDominanceBasedLS.h, moeo/src/explorer/moeoExhaustiveNeighborhoodExplorer.h, moeo/src/explorer/moeoFirstImprovingNeighborhoodExplorer.h, moeo/src/explorer/moeoNoDesimprovingNeighborhoodExplorer.h, moeo/src/explorer/moeoSimpleSubNeighborhoodExplorer.h, moeo/src/explorer/moeoSubNeighborhoodExplorer.h, moeo/src/hybridization/moeoDMLSMonOp.h, moeo/src/selection/moeoExhaustiveUnvisitedSelect.h, moeo/src/selection/moeoNumberUnvisitedSelect.h
* `Dom`: moeo/src/fitness/moeoDominanceCountFitnessAssignment.h, moeo/src/fitness/moeoDominanceCountRankingFitnessAssignment.h, moeo/src/fitness/moeoDominanceRankFitnessAssignment.h, moeo/src/utils/moeoDominanceMatrix.h
* `Dst`: moeo/src/distance/moeoEuclideanDistance.h, moeo/src/distance/moeoExpectedFuzzyDistance.h, moeo/src/distance/moeoManhattanDistance.h, moeo/src/distance/moeoNormalizedDistance.h, moeo/src/utils/moeoObjectiveVectorNormalizer.h
* `Dtlz`: eo/src/utils/eoRealBounds.h, eo/src/utils/eoRealVectorBounds.h, problems/DTLZ/src/DTLZ1Eval.cpp, problems/DTLZ/src/DTLZ2Eval.cpp, problems/DTLZ/src/DTLZ3Eval.cpp, problems/DTLZ/src/DTLZ4Eval.cpp, problems/DTLZ/src/DTLZ5Eval.cpp, problems/DTLZ/src/DTLZ6Eval.cpp, problems/DTLZ/src/DTLZ7Eval.cpp, problems/DTLZ/src/PolynomialMutation.h, problems/DTLZ/src/SBXCrossover.h
* `Edo`: edo/src/edoAlgoAdaptive.h, edo/src/edoBounderBound.h, edo/src/edoBounderNo.h, edo/src/edoBounderRng.h, edo/src/edoBounderUniform.h, edo/src/edoCombinedContinue.h, edo/src/edoEDASA.h, edo/src/edoEstimatorBinomial.h, edo/src/edoEstimatorCombined.h, edo/src/edoEstimatorNormalMono.h, edo/src/edoEstimatorNormalMulti.h, edo/src/edoEstimatorUniform.h, edo/src/edoNormalMonoCenter.h, edo/src/edoNormalMultiCenter.h, edo/src/edoRepairer.h, edo/src/edoRepairerApply.h, edo/src/edoRepairerDispatcher.h, edo/src/edoRepairerModulo.h, edo/src/edoRepairerRound.h, edo/src/edoSampler.h, edo/src/edoSamplerBinomial.h, edo/src/edoSamplerNormalMono.h, edo/src/edoSamplerUniform.h, edo/src/edoUniform.h, edo/src/edoUniformCenter.h, edo/src/edoVectorBounds.h, eo/src/utils/eoRNG.h
* `Eval`: mo/src/eval/moDoubleIncrEvaluation.h, mo/src/eval/moDoubleIncrNeighborhoodEval.h, mo/src/problems/eval/moMaxSATincrEval.h, mo/src/problems/eval/moNKlandscapesBitsIncrEval.h, mo/src/problems/eval/moNKlandscapesIncrEval.h, mo/src/problems/eval/moOneMaxBitsIncrEval.h, mo/src/problems/eval/moOneMaxIncrEval.h, mo/src/problems/eval/moQAPIncrEval.h, mo/src/problems/eval/moRoyalRoadIncrEval.h, mo/src/problems/eval/moUBQPBitsIncrEval.h, mo/src/problems/eval/moUBQPSimpleIncrEval.h, mo/src/problems/eval/moUBQPdoubleIncrEvaluation.h, problems/eval/maxSATeval.h, problems/eval/nkLandscapesEval.h, problems/eval/oneMaxEval.h, problems/eval/qapEval.h, problems/eval/royalRoadEval.h, problems/eval/ubqpEval.h
* `Evf`: eo/src/EO.h, eo/src/eoAlgoFoundry.h, eo/src/eoAlgoFoundryEA.h, eo/src/eoEasyEA.h, eo/src/eoEvalFoundryEA.h, eo/src/eoForge.h, eo/src/eoGenContinue.h, eo/src/eoGeneralBreeder.h, eo/src/eoPop.h
* `Fdc`: eo/src/eoScalarFitnessAssembled.h, eo/src/utils/eoAssembledFitnessStat.h, eo/src/utils/eoDistance.h, eo/src/utils/eoFDCStat.h, eo/src/utils/eoFeasibleRatioStat.h, eo/src/utils/eoMOFitnessStat.h, eo/src/utils/eoPopStat.h, eo/src/utils/eoRealBounds.h, eo/src/utils/eoScalarFitnessStat.h
* `Fit`: eo/src/eoDualFitness.h, eo/src/eoScalarFitness.h, eo/src/eoScalarFitnessAssembled.h, eo/src/utils/eoStat.h
* `Found`: eo/src/eoAlgoFoundry.h, eo/src/eoAlgoFoundryFastGA.h, eo/src/eoAlgoReset.h, eo/src/eoAlgoRestart.h, eo/src/eoFastGA.h, eo/src/eoForge.h, eo/src/eoPop.h, eo/src/eoSelectOne.h
* `Gp`: eo/src/gp/eoParseTree.h, eo/src/gp/eoParseTreeDepthInit.h, eo/src/gp/eoParseTreeOp.h, eo/src/gp/parse_tree.h
* `Hv`: moeo/src/metric/moeoHyperVolumeDifferenceMetric.h, moeo/src/metric/moeoHyperVolumeMetric.h
* `Ind`: moeo/src/fitness/moeoExpBinaryIndicatorBasedFitnessAssignment.h, moeo/src/metric/moeoHypervolumeBinaryMetric.h, moeo/src/metric/moeoNormalizedSolutionVsSolutionBinaryMetric.h
* `Isl`: smp/src/island.cpp, smp/src/islandModel.cpp
* `Json`: eo/src/serial/Entity.h, eo/src/serial/Parser.cpp, eo/src/serial/SerialArray.cpp, eo/src/serial/SerialArray.h, eo/src/serial/SerialObject.cpp, eo/src/serial/SerialObject.h, eo/src/serial/SerialString.cpp, eo/src/serial/SerialString.h
* `Ls`: eo/src/EO.h, mo/src/algo/moLocalSearch.h, mo/src/comparator/moNeighborComparator.h, mo/src/comparator/moSolNeighborComparator.h, mo/src/continuator/moContinuator.h, mo/src/eval/moFullEvalByCopy.h, mo/src/explorer/moFirstImprHCexplorer.h, mo/src/explorer/moNeighborhoodExplorer.h, mo/src/explorer/moNeutralHCexplorer.h, mo/src/explorer/moRandomBestHCexplorer.h, mo/src/explorer/moRandomNeutralWalkExplorer.h, mo/src/explorer/moRandomWalkExplorer.h, mo/src/explorer/moSimpleHCexplorer.h, mo/src/explorer/moTSexplorer.h, mo/src/neighborhood/moOrderNeighborhood.h, mo/src/neighborhood/moRndWithoutReplNeighborhood.h, mo/src/problems/permutation/moSwapNeighborhood.h, mo/src/problems/permutation/moTwoOptExNeighborhood.h
* `Mak`: eo/src/do/make_algo_scalar.h, eo/src/do/make_continue.h, eo/src/do/make_general_replacement.h, eo/src/do/make_pop.h, eo/src/eoCloneOps.h, eo/src/eoCombinedContinue.h, eo/src/eoDetTournamentSelect.h, eo/src/eoEasyEA.h, eo/src/eoGenContinue.h, eo/src/eoInit.h, eo/src/eoPop.h, eo/src/eoProportionalCombinedOp.h, eo/src/eoReduce.h, eo/src/eoSteadyFitContinue.h, eo/src/eoStochTournamentSelect.h, eo/src/es/make_op.h, eo/src/ga/make_op.h, eo/src/utils/eoState.h
* `Met`: moeo/src/metric/moeoContributionMetric.h, moeo/src/metric/moeoEntropyMetric.h, moeo/src/metric/moeoVecVsVecAdditiveEpsilonBinaryMetric.h, moeo/src/metric/moeoVecVsVecEpsilonBinaryMetric.h, moeo/src/metric/moeoVecVsVecMultiplicativeEpsilonBinaryMetric.h
* `Meta`: eo/src/utils/eoRNG.h, mo/src/acceptCrit/moAlwaysAcceptCrit.h, mo/src/acceptCrit/moBetterAcceptCrit.h, mo/src/algo/moLocalSearch.h, mo/src/coolingSchedule/moCoolingSchedule.h, mo/src/coolingSchedule/moDynSpanCoolingSchedule.h, mo/src/coolingSchedule/moSimpleCoolingSchedule.h, mo/src/explorer/moILSexplorer.h, mo/src/explorer/moMetropolisHastingExplorer.h, mo/src/explorer/moSAexplorer.h, mo/src/explorer/moVNSexplorer.h, mo/src/neighborhood/moBackwardVectorVNSelection.h, mo/src/neighborhood/moForwardVectorVNSelection.h, mo/src/neighborhood/moRndVectorVNSelection.h, mo/src/neighborhood/moVectorVNSelection.h
* `Moa`: eo/src/eoBreed.h, eo/src/eoCloneOps.h, eo/src/eoGeneralBreeder.h, eo/src/eoSGAGenOp.h, eo/src/eoSelectMany.h, moeo/src/algo/moeoASEEA.h, moeo/src/algo/moeoEasyEA.h, moeo/src/algo/moeoExtendedNSGAII.h, moeo/src/algo/moeoExtendedSPEA2.h, moeo/src/algo/moeoIBEA.h, moeo/src/algo/moeoMOGA.h, moeo/src/algo/moeoNSGA.h, moeo/src/algo/moeoNSGAII.h, moeo/src/algo/moeoSEEA.h, moeo/src/algo/moeoSPEA2.h, moeo/src/archive/moeoUnboundedArchive.h, moeo/src/comparator/moeoFitnessThenDiversityComparator.h, moeo/src/core/MOEO.h, moeo/src/diversity/moeoFrontByFrontCrowdingDiversityAssignment.h, moeo/src/fitness/moeoDominanceDepthFitnessAssignment.h, moeo/src/replacement/moeoElitistReplacement.h, moeo/src/replacement/moeoGenerationalReplacement.h, moeo/src/selection/moeoDetArchiveSelect.h, moeo/src/selection/moeoRandomSelect.h, moeo/src/selection/moeoSelectFromPopAndArch.h
* `Mon`: eo/src/eoCounter.h, eo/src/eoEvalDump.h, eo/src/utils/eoFileMonitor.cpp, eo/src/utils/eoFileMonitor.h, eo/src/utils/eoFileSnapshot.h, eo/src/utils/eoOStreamMonitor.cpp, eo/src/utils/eoOStreamMonitor.h, eo/src/utils/eoUpdatable.h, eo/src/utils/eoUpdater.cpp, eo/src/utils/eoUpdater.h
* `Mpi`: eo/src/mpi/eoMpi.h, eo/src/mpi/eoMpiAssignmentAlgorithm.cpp, eo/src/mpi/eoMpiAssignmentAlgorithm.h, eo/src/mpi/eoParallelApply.h, eo/src/mpi/eoTerminateJob.h, eo/src/mpi/implMpi.h
* `Mst`: eo/src/mpi/eoMpi.h, eo/src/mpi/eoMultiStart.h, eo/src/utils/eoTimer.h
* `Mw`: eo/src/eoEasyEA.h, eo/src/eoEasyPSO.h, eo/src/eoSyncEasyPSO.h, smp/src/MWAlgo/eoEasyEA.cpp, smp/src/MWAlgo/eoEasyPSO.cpp, smp/src/MWAlgo/eoSyncEasyPSO.cpp, smp/src/MWModel.cpp, smp/src/scheduler.cpp
* `Nad`: edo/src/edoContAdaptiveIllCovar.h, edo/src/edoDistribReset.h, edo/src/edoEstimatorAdaptive.h, edo/src/edoEstimatorAdaptiveEdit.h, edo/src/edoEstimatorAdaptiveReset.h, edo/src/edoEstimatorNormalAdaptive.h, edo/src/edoNormalAdaptive.h, edo/src/edoSamplerNormalAdaptive.h
* `Neigh`: mo/src/explorer/moSimpleHCexplorer.h, mo/src/neighborhood/moOrderNeighborhood.h, mo/src/neighborhood/moRndWithReplNeighborhood.h, mo/src/neighborhood/moRndWithoutReplNeighborhood.h, mo/src/problems/bitString/moBitNeighbor.h, mo/src/problems/permutation/moIndexedSwapNeighbor.h, mo/src/problems/permutation/moShiftNeighbor.h, mo/src/problems/permutation/moSwapNeighbor.h, mo/src/problems/permutation/moSwapNeighborhood.h, mo/src/problems/permutation/moTwoOptExNeighbor.h, mo/src/problems/permutation/moTwoOptExNeighborhood.h
* `Outcome`: eo/src/utils/eoRNG.h
* `Pareto`: moeo/src/comparator/moeoEpsilonObjectiveVectorComparator.h, moeo/src/comparator/moeoGDominanceObjectiveVectorComparator.h, moeo/src/comparator/moeoObjectiveObjectiveVectorComparator.h, moeo/src/comparator/moeoParetoDualObjectiveVectorComparator.h, moeo/src/comparator/moeoParetoObjectiveVectorComparator.h, moeo/src/comparator/moeoStrictObjectiveVectorComparator.h, moeo/src/comparator/moeoWeakObjectiveVectorComparator.h, moeo/src/core/moeoObjectiveVector.h, moeo/src/core/moeoObjectiveVectorTraits.h, moeo/src/core/moeoRealObjectiveVector.h, moeo/src/metric/moeoAdditiveEpsilonBinaryMetric.h
* `Part`: mo/src/problems/partition/moBinaryPartition.h, mo/src/problems/partition/moBinaryPartitionSwapNeighbor.h, mo/src/problems/partition/moBinaryPartitionSwapNeighborhood.h
* `Perm`: eo/src/eoInit.h, eo/src/eoOrderXover.h, eo/src/eoPartiallyMappedXover.h, eo/src/eoPop.h, eo/src/eoShiftMutation.h, eo/src/eoSwapMutation.h, eo/src/eoTwoOptMutation.h
* `Pert`: eo/src/eoEvalFuncPtr.h, mo/src/algo/moRandomSearch.h, mo/src/eval/moEvalCounter.h, mo/src/eval/moFullEvalByCopy.h, mo/src/eval/moFullEvalByModif.h, mo/src/explorer/moILSexplorer.h, mo/src/explorer/moRandomSearchExplorer.h, mo/src/memory/moCountMoveMemory.h, mo/src/perturb/moLocalSearchInit.h, mo/src/perturb/moMonOpPerturb.h, mo/src/perturb/moNeighborhoodPerturb.h, mo/src/perturb/moRestartPerturb.h, mo/src/perturb/moSolInit.h
* `Pool`: eo/src/gp/node_pool.h
* `Pop`: eo/src/EO.h, eo/src/eoG3Replacement.h, eo/src/eoMGGReplacement.h, eo/src/eoMerge.h, eo/src/eoMergeReduce.h, eo/src/eoPop.h, eo/src/eoReduce.h, eo/src/eoReduceMerge.h, eo/src/eoReduceMergeReduce.h, eo/src/eoReduceSplit.h, eo/src/eoReplacement.h, eo/src/eoSurviveAndDie.h, eo/src/utils/eoHowMany.h, eo/src/utils/selectors.h
* `Prob`: problems/eval/bbRoyalRoadEval.h, problems/eval/longKPathEval.h, problems/eval/nkLandscapesEval.h, problems/eval/nkpLandscapesEval.h, problems/eval/nkqLandscapesEval.h, problems/eval/queenEval.h
* `Pso`: eo/src/PO.h, eo/src/eoConstrictedVelocity.h, eo/src/eoEasyPSO.h, eo/src/eoEvalFunc.h, eo/src/eoExtendedVelocity.h, eo/src/eoFlight.h, eo/src/eoInitializer.h, eo/src/eoLinearTopology.h, eo/src/eoParticleBestInit.h, eo/src/eoRingTopology.h, eo/src/eoSocialNeighborhood.h, eo/src/eoStandardFlight.h, eo/src/eoStandardVelocity.h, eo/src/eoSyncEasyPSO.h, eo/src/eoVectorParticle.h, eo/src/eoVelocity.h, eo/src/utils/eoRealVectorBounds.h
* `Psv`: eo/src/PO.h, eo/src/eoConstrictedVariableWeightVelocity.h, eo/src/eoEasyPSO.h, eo/src/eoFixedInertiaWeightedVelocity.h, eo/src/eoIntegerVelocity.h, eo/src/eoLinearDecreasingWeightUp.h, eo/src/eoPop.h, eo/src/eoRandomRealWeightUp.h, eo/src/eoRealBoundModifier.h, eo/src/eoSigBinaryFlight.h, eo/src/eoStarTopology.h, eo/src/eoSyncEasyPSO.h, eo/src/eoVariableInertiaWeightedVelocity.h, eo/src/utils/eoRealBounds.cpp, eo/src/utils/eoRealBounds.h, eo/src/utils/eoRealVectorBounds.h
* `Qd`: moeo/src/scalarStuffs/archive/moeoArchiveIndex.h, moeo/src/scalarStuffs/archive/moeoIndexedArchive.h, moeo/src/scalarStuffs/archive/moeoQuadTree.h, moeo/src/scalarStuffs/archive/moeoQuadTreeArchive.h, moeo/src/scalarStuffs/archive/moeoQuickUnboundedArchiveIndex.h
* `Qix`: moeo/src/comparator/moeoParetoObjectiveVectorComparator.h, moeo/src/scalarStuffs/archive/moeoIndexedArchive.h, moeo/src/scalarStuffs/archive/moeoQuickUnboundedArchiveIndex.h
* `Rank`: moeo/src/fitness/moeoDominanceDepthFitnessAssignment.h
* `Real`: eo/src/eoRandomSelect.h, eo/src/es/eoEsChromInit.h, eo/src/es/eoEsFull.h, eo/src/es/eoEsGlobalXover.h, eo/src/es/eoEsMutate.h, eo/src/es/eoEsSimple.h, eo/src/es/eoEsStandardXover.h, eo/src/es/eoEsStdev.h, eo/src/es/eoNormalMutation.h, eo/src/es/eoRealAtomXover.h, eo/src/es/eoRealInitBounded.h, eo/src/es/eoRealOp.h, eo/src/es/eoSBXcross.h, eo/src/utils/eoRNG.h, eo/src/utils/eoRealVectorBounds.h
* `Repl`: moeo/src/comparator/moeoAggregativeComparator.h, moeo/src/comparator/moeoDiversityThenFitnessComparator.h, moeo/src/comparator/moeoFitnessThenDiversityComparator.h, moeo/src/core/MOEO.h, moeo/src/replacement/moeoElitistReplacement.h, moeo/src/replacement/moeoEnvironmentalReplacement.h, moeo/src/selection/moeoDetArchiveSelect.h, moeo/src/selection/moeoDetTournamentSelect.h, moeo/src/selection/moeoExhaustiveUnvisitedSelect.h, moeo/src/selection/moeoNumberUnvisitedSelect.h, moeo/src/selection/moeoRouletteSelect.h, moeo/src/selection/moeoSelectFromPopAndArch.h, moeo/src/selection/moeoSelectors.h
* `Rng`: eo/src/utils/eoRNG.cpp, eo/src/utils/eoRNG.h
* `Rti`: edo/src/edoContAdaptiveFinite.h, edo/src/edoNormalAdaptive.h, eo/src/eoRealToIntInit.h, eo/src/eoRealToIntMonOp.h, eo/src/eoRealToIntQuadOp.h, eo/src/utils/eoIntBounds.h, moeo/src/selection/moeoDetArchiveSelect.h
* `Samp`: eo/src/EO.h, mo/src/algo/moFirstImprHC.h, mo/src/algo/moMetropolisHasting.h, mo/src/algo/moRandomSearch.h, mo/src/algo/moRandomWalk.h, mo/src/algo/moSimpleHC.h, mo/src/continuator/moCheckpoint.h, mo/src/continuator/moCounterStat.h, mo/src/continuator/moDistanceStat.h, mo/src/continuator/moFitnessStat.h, mo/src/continuator/moIterContinuator.h, mo/src/continuator/moMinusOneCounterStat.h, mo/src/continuator/moNeighborBestStat.h, mo/src/continuator/moNeighborFitnessStat.h, mo/src/continuator/moNeighborhoodStat.h, mo/src/continuator/moNeutralDegreeNeighborStat.h, mo/src/continuator/moSolutionStat.h, mo/src/continuator/moStatBase.h, mo/src/continuator/moStatFromStat.h, mo/src/continuator/moTrueContinuator.h, mo/src/continuator/moValueStat.h, mo/src/continuator/moVectorMonitor.h, mo/src/perturb/moLocalSearchInit.h, mo/src/sampling/moAdaptiveWalkSampling.h, mo/src/sampling/moAutocorrelationSampling.h, mo/src/sampling/moDensityOfStatesSampling.h, mo/src/sampling/moFDCsampling.h, mo/src/sampling/moHillClimberSampling.h, mo/src/sampling/moMHBestFitnessCloudSampling.h, mo/src/sampling/moMHRndFitnessCloudSampling.h, mo/src/sampling/moNeutralDegreeSampling.h, mo/src/sampling/moRndBestFitnessCloudSampling.h, mo/src/sampling/moRndRndFitnessCloudSampling.h, mo/src/sampling/moSampling.h
* `Sched`: smp/src/scheduler.cpp
* `Select`: eo/src/eoDetSelect.h, eo/src/eoDetTournamentSelect.h, eo/src/eoPop.h, eo/src/eoProportionalSelect.h, eo/src/eoRandomSelect.h, eo/src/eoRanking.h, eo/src/eoRankingCached.h, eo/src/eoSelect.h, eo/src/eoSelectMany.h, eo/src/eoSelectNumber.h, eo/src/eoSelectOne.h, eo/src/eoSelectPerc.h, eo/src/eoSequentialSelect.h, eo/src/eoStochTournamentSelect.h, eo/src/eoStochasticUniversalSelect.h, eo/src/eoTruncSelect.h, eo/src/eoTruncatedSelectMany.h, eo/src/eoTruncatedSelectOne.h, eo/src/utils/eoRNG.h, eo/src/utils/selectors.h
* `Spea`: moeo/src/archive/moeoSPEA2Archive.h
* `Srv`: eo/src/eoCtrlCContinue.cpp, eo/src/eoCtrlCContinue.h, eo/src/eoFunctorStore.cpp, eo/src/eoFunctorStore.h, eo/src/eoSIGContinue.cpp, eo/src/eoSIGContinue.h, eo/src/utils/eoLogger.cpp, eo/src/utils/eoLogger.h, eo/src/utils/eoSignal.h
* `Stair`: moeo/src/archive/moeo2DMinHypervolumeArchive.h, moeo/src/core/MOEO.h
* `Stat`: mo/src/continuator/moNeighborhoodStat.h, mo/src/sampling/moStatistics.h
* `Stg`: eo/src/gp/eoStParseTreeDepthInit.h, eo/src/gp/eoStParseTreeOp.h
* `Stop`: eo/src/eoPop.h, eo/src/utils/eoCheckPoint.h, eo/src/utils/eoUpdater.cpp, eo/src/utils/eoUpdater.h, mo/src/algo/moLocalSearch.h, mo/src/continuator/moBestNoImproveContinuator.h, mo/src/continuator/moBestSoFarStat.h, mo/src/continuator/moCheckpoint.h, mo/src/continuator/moCombinedContinuator.h, mo/src/continuator/moContinuator.h, mo/src/continuator/moCounterMonitorSaver.h, mo/src/continuator/moEvalsContinuator.h, mo/src/continuator/moFitContinuator.h, mo/src/continuator/moFullEvalContinuator.h, mo/src/continuator/moIterContinuator.h, mo/src/continuator/moNeighborEvalContinuator.h, mo/src/continuator/moTrueContinuator.h
* `Stream`: eo/src/EO.h, eo/src/eoDualFitness.h, eo/src/eoObject.h, eo/src/eoPop.h, eo/src/eoVector.h, eo/src/ga/eoBit.h, eo/src/utils/eoState.cpp, eo/src/utils/eoState.h
* `Tabu`: mo/src/algo/moTS.h, mo/src/memory/moBestImprAspiration.h, mo/src/memory/moDummyDiversification.h, mo/src/memory/moDummyIntensification.h, mo/src/memory/moIndexedVectorTabuList.h, mo/src/memory/moNeighborVectorTabuList.h, mo/src/memory/moRndIndexedVectorTabuList.h, mo/src/memory/moSolVectorTabuList.h
* `Topo`: smp/src/topology/complete.cpp, smp/src/topology/hypercubic.cpp, smp/src/topology/mesh.cpp, smp/src/topology/ring.cpp, smp/src/topology/star.cpp, smp/src/topology/topology.cpp
* `Ugen`: eo/src/eoInit.h, eo/src/utils/eoRNG.h, eo/src/utils/eoRndGenerators.h, eo/src/utils/eoUniformInit.h, eo/src/utils/rnd_generators.h
* `Vel`: eo/src/eoVectorParticle.h, eo/src/eoVelocityInit.h
* `Vl`: eo/src/eoCombinedInit.h, eo/src/eoFlOrMonOp.h, eo/src/eoProportionalCombinedOp.h, eo/src/eoVariableLengthCrossover.h, eo/src/eoVariableLengthMutation.h
* `Wat`: moeo/src/continue/moeoDualHypContinue.h, moeo/src/continue/moeoHypContinue.h, moeo/src/core/moeoDualRealObjectiveVector.h, moeo/src/fitness/moeoConstraintFitnessAssignment.h, moeo/src/metric/moeoHyperVolumeDifferenceMetric.h, moeo/src/utils/moeoAverageObjVecStat.h, moeo/src/utils/moeoBestObjVecStat.h, moeo/src/utils/moeoBinaryMetricStat.h
* `Wgt`: moeo/src/fitness/moeoAggregationFitnessAssignment.h, moeo/src/metric/moeoDistanceMetric.h, moeo/src/scalarStuffs/distance/moeoAchievementScalarizingFunctionDistance.h, moeo/src/scalarStuffs/distance/moeoAugmentedAchievementScalarizingFunctionDistance.h, moeo/src/scalarStuffs/distance/moeoAugmentedWeightedChebychevDistance.h, moeo/src/scalarStuffs/distance/moeoWeightedChebychevDistance.h, moeo/src/scalarStuffs/fitness/moeoAchievementFitnessAssignment.h, moeo/src/scalarStuffs/fitness/moeoAchievementScalarizingFunctionMetricFitnessAssignment.h, moeo/src/scalarStuffs/weighting/moeoAnytimeWeightStrategy.h, moeo/src/scalarStuffs/weighting/moeoAugmentedQexploreWeightStrategy.h, moeo/src/scalarStuffs/weighting/moeoDichoWeightStrategy.h, moeo/src/scalarStuffs/weighting/moeoDummyWeightStrategy.h, moeo/src/scalarStuffs/weighting/moeoFixedTimeBothDirectionWeightStrategy.h, moeo/src/scalarStuffs/weighting/moeoFixedTimeOneDirectionWeightStrategy.h, moeo/src/scalarStuffs/weighting/moeoQexploreWeightStrategy.h, moeo/src/scalarStuffs/weighting/moeoRandWeightStrategy.h, moeo/src/utils/moeoObjectiveVectorNormalizer.h
* `Worth`: eo/src/eoLinearFitScaling.h, eo/src/eoNDSorting.h, eo/src/eoPerf2Worth.h, eo/src/eoSelectFromWorth.h, eo/src/eoSharing.h

Within these files the comments of the model say what is left out. In general: rounding of doubles, memory allocation,
printing and logging, `std::chrono`/`time` (given as inputs), dynamic dispatch (operators are arbitrary functions), and the C++ type system.

## What is not modelled

No definition cites these source files (applications, tests and tutorials aside). They are abstract interfaces, headers that only include others,
glue (`make_*`, parsers of main programs), output to files and plots, or components left for later:

* edo/src: edoAlgo.h, edoAlgoStateless.h, edoBinomial.h, edoBinomialMulti.h, edoBounder.h, edoContinue.h, edoDistrib.h, edoEstimator.h, edoEstimatorBinomialMulti.h, edoModifier.h, edoModifierDispersion.h, edoModifierMass.h, edoNormalMono.h, edoNormalMulti.h, edoSamplerBinomialMulti.h, edoTransform.h
* edo/src/utils: edoCheckPoint.h, edoFileSnapshot.cpp, edoFileSnapshot.h, edoHyperVolume.h, edoPopStat.h, edoStat.h, edoStatNormalMono.h, edoStatNormalMulti.h, edoStatUniform.h
* eo/src: eoAlgo.h, eoBinaryFlight.h, eoBitParticle.h, eoContinue.h, eoEDA.h, eoEvalFoundryFastGA.h, eoEvalNamedPipe.h, eoEvalPrint.h, eoExceptions.h, eoFactory.h, eoFitnessScalingSelect.h, eoFlOrBinOp.h, eoFlOrQuadOp.h, eoFunctor.h, eoGaussRealWeightUp.h, eoInvertedContinue.h, eoNeighborhood.h, eoOpSelMason.h, eoPSO.h, eoParticleFullInitializer.h, eoPersistent.cpp, eoPersistent.h, eoPrintable.cpp, eoPrintable.h, eoPropGAGenOp.h, eoRankMuSelect.h, eoRankingSelect.h, eoRealParticle.h, eoSTLFunctor.h, eoScalarFitnessAssembled.cpp, eoSelectFactory.h, eoSharingSelect.h, eoTopology.h, eoTransform.h, eoWeightUpdater.h, es.h, ga.h
* eo/src/do: make_algo_easea.h, make_checkpoint.h, make_checkpoint_FDC.h, make_checkpoint_assembled.h, make_run.h
* eo/src/es: eig.h, eoEsMutationInit.h, eoReal.h, make_algo_scalar_es.cpp, make_algo_scalar_real.cpp, make_checkpoint_es.cpp, make_checkpoint_real.cpp, make_continue_es.cpp, make_continue_real.cpp, make_es.h, make_genotype_es.cpp, make_genotype_real.cpp, make_genotype_real.h, make_op_es.cpp, make_op_es.h, make_op_real.cpp, make_op_real.h, make_pop_es.cpp, make_pop_real.cpp, make_real.h, make_run_es.cpp, make_run_real.cpp
* eo/src/ga: eoBitOpFactory.h, eoBoolFlip.h, make_PBILdistrib.h, make_PBILupdate.h, make_algo_scalar_ga.cpp, make_checkpoint_ga.cpp, make_continue_ga.cpp, make_ga.h, make_genotype_ga.cpp, make_genotype_ga.h, make_op_ga.cpp, make_pop_ga.cpp, make_run_ga.cpp
* eo/src/mpi: eoMpi.cpp, eoMpiNode.cpp, eoMpiNode.h, implMpi.cpp
* eo/src/other: eoExternalEO.h, eoExternalOpFunctions.h, eoString.h
* eo/src/pyeo: PyEO.cpp, PyEO.h, abstract1.cpp, algos.cpp, breeders.cpp, continuators.cpp, def_abstract_functor.h, geneticOps.cpp, mergers.cpp, monitors.cpp, perf2worth.cpp, pickle.h, random_numbers.cpp, reduce.cpp, replacement.cpp, selectOne.cpp, selectors.cpp, statistics.cpp, valueParam.cpp, valueParam.h
* eo/src/serial: Parser.h, Serializable.h, Traits.h, Utils.h, eoSerial.h
* eo/src/utils: compatibility.h, eoData.cpp, eoData.h, eoFuncPtrStat.h, eoGenCounter.h, eoGnuplot.cpp, eoGnuplot.h, eoGnuplot1DMonitor.cpp, eoGnuplot1DMonitor.h, eoGnuplot1DSnapshot.cpp, eoGnuplot1DSnapshot.h, eoIntBounds.cpp, eoLogMessage.h, eoLogMonitor.h, eoMonitor.h, eoParallel.cpp, eoParallel.h, eoSignal.cpp, eoStdoutMonitor.h, make_help.cpp, pipecom.cpp, pipecom.h
* mo/src: mo.h
* mo/src/acceptCrit: moAcceptanceCriterion.h
* mo/src/algo: eoDummyMonOp.h, moDummyLS.h, moILS.h, moNeutralHC.h, moRandomBestHC.h, moRandomNeutralWalk.h, moSA.h, moVNS.h
* mo/src/comparator: moComparator.h, moEqualNeighborComparator.h, moEqualSolComparator.h, moEqualSolNeighborComparator.h, moSolComparator.h
* mo/src/continuator: moAverageFitnessNeighborStat.h, moBestFitnessStat.h, moBooleanStat.h, moMaxNeighborStat.h, moMedianNeighborStat.h, moMinNeighborStat.h, moNbInfNeighborStat.h, moNbSupNeighborStat.h, moQ1NeighborStat.h, moQ3NeighborStat.h, moQuartilesNeighborStat.h, moSecondMomentNeighborStat.h, moSizeNeighborStat.h, moStat.h, moStdFitnessNeighborStat.h, moUnsignedStat.h, moUpdater.h, moValueParamContinuator.h
* mo/src/eval: moDummyEval.h, moEval.h, moNeighborhoodEvaluation.h
* mo/src/explorer: moDummyExplorer.h
* mo/src/memory: moAspiration.h, moDiversification.h, moDummyMemory.h, moIntensification.h, moMemory.h, moMonOpDiversification.h, moTabuList.h
* mo/src/neighborhood: moBackableNeighbor.h, moDummyNeighbor.h, moDummyNeighborhood.h, moEvaluatedNeighborhood.h, moIndexNeighbor.h, moIndexNeighborhood.h, moNeighbor.h, moNeighborhood.h, moRndNeighborhood.h, moVariableNeighborhoodSelection.h
* mo/src/perturb: moPerturbation.h
* mo/src/problems/bitString: moBitFlipNeighborhood.h
* mo/src/sampling: moFitnessCloudSampling.h, moNeutralWalkSampling.h
* moeo/src/algo: moeoAlgo.h, moeoEA.h, moeoPopAlgo.h, moeoPopLS.h
* moeo/src/archive: moeoBoundedArchive.h, moeoFixedSizeArchive.h, moeoFuzzyArchive.h
* moeo/src/comparator: moeoComparator.h, moeoFitnessComparator.h, moeoFuzzyParetoComparator.h, moeoObjectiveVectorComparator.h, moeoPtrComparator.h
* moeo/src/core: moeoBitVector.h, moeoEvalFunc.h, moeoFuzzyRealObjectiveVector.h, moeoIntVector.h, moeoObjectiveVectorTraits.cpp, moeoRealVector.h, moeoScalarObjectiveVector.h, moeoVector.h
* moeo/src/distance: moeoBertDistance.h, moeoDistance.h, moeoObjSpaceDistance.h
* moeo/src/diversity: moeoDiversityAssignment.h, moeoDummyDiversityAssignment.h, moeoFuzzyCrowdingDiversity.h, moeoFuzzyNearestNeighborDiversity.h
* moeo/src/do: make_checkpoint_moeo.h, make_continue_moeo.h, make_ea_moeo.h
* moeo/src/explorer: moeoPopNeighborhoodExplorer.h
* moeo/src/fitness: moeoBinaryIndicatorBasedFitnessAssignment.h, moeoCriterionBasedFitnessAssignment.h, moeoDominanceBasedFitnessAssignment.h, moeoDummyFitnessAssignment.h, moeoExpBinaryIndicatorBasedDualFitnessAssignment.h, moeoFitnessAssignment.h, moeoIndicatorBasedFitnessAssignment.h, moeoScalarFitnessAssignment.h, moeoSingleObjectivization.h, moeoUnaryIndicatorBasedFitnessAssignment.h
* moeo/src/hybridization: moeoDMLSGenUpdater.h
* moeo/src/metric: moeoDualHyperVolumeDifferenceMetric.h, moeoMetric.h
* moeo/src/replacement: moeoReplacement.h
* moeo/src/scalarStuffs/algo: moeoHC.h, moeoILS.h, moeoSA.h, moeoSolAlgo.h, moeoTS.h, moeoVFAS.h, moeoVNS.h
* moeo/src/scalarStuffs/explorer: moeoHCMoveLoopExpl.h, moeoTSMoveLoopExpl.h
* moeo/src/scalarStuffs/fitness: moeoAugmentedAchievementScalarizingFunctionMetricFitnessAssignment.h, moeoAugmentedWeightedChebychevMetricFitnessAssignment.h, moeoIncrEvalSingleObjectivizer.h, moeoMetricFitnessAssignment.h, moeoWeightedChebychevMetricFitnessAssignment.h
* moeo/src/scalarStuffs/weighting: moeoDummyRefPointStrategy.h, moeoVariableRefPointStrategy.h, moeoVariableWeightStrategy.h
* moeo/src/selection: moeoSelectOne.h, moeoStochTournamentSelect.h, moeoUnvisitedSelect.h
* moeo/src/utils: moeoArchiveObjectiveVectorSavingUpdater.h, moeoArchiveUpdater.h, moeoBinaryMetricSavingUpdater.h, moeoConvertPopToObjectiveVectors.h, moeoFullEvalByCopy.h, moeoFuzzyObjectiveVectorNormalizer.h, moeoObjVecStat.h
* problems/DTLZ/application: DTLZ_IBEA.cpp, DTLZ_NSGAII.cpp, DTLZ_SPEA2.cpp
* problems/DTLZ/doc: index.h
* problems/DTLZ/src: DTLZ.cpp, DTLZ.h, DTLZ1Eval.h, DTLZ2Eval.h, DTLZ3Eval.h, DTLZ4Eval.h, DTLZ5Eval.h, DTLZ6Eval.h, DTLZ7Eval.h, DTLZObjectiveVector.h
* problems/DTLZ/test: t-DTLZ.cpp, t-DTLZ1Eval.cpp, t-DTLZ2Eval.cpp, t-DTLZ3Eval.cpp, t-DTLZ4Eval.cpp, t-DTLZ5Eval.cpp, t-DTLZ6Eval.cpp, t-DTLZ7Eval.cpp
* problems/eval: eoEvalIOH.h, moPopSolEval.h, oneMaxPopEval.h
* smp/src: MWModel.h, PPExpander.h, abstractIsland.h, algoDispatching.h, bimap.h, contDispatching.h, contWrapper.cpp, contWrapper.h, intPolicy.h, island.h, islandModel.h, islandModelWrapper.h, islandNotifier.cpp, islandNotifier.h, migPolicy.h, notifier.cpp, notifier.h, policiesDispatching.h, policyElement.cpp, policyElement.h, scheduler.h, sharedFitContinue.h, smp.h
* smp/src/MWAlgo: MWAlgo.h
* smp/src/topology: abstractTopology.h, complete.h, customBooleanTopology.h, customStochasticTopology.h, hypercubic.h, mesh.h, ring.h, star.h, topology.h, topologyBuilder.h

## Findings

Statements of the documentation, or that a user would expect, that the model refutes (theorems ending in `_refuted`):

* **C10 What eoElitism really merges**: refuted: the whole population is copied, for every elite size strictly between 0 and the population size; the exact behaviour is proved.
* **C59 Elite selection returns a best individual**: refuted: the first individual is returned, whatever its fitness.
* **C60 Deterministic selection keeps the best in priority**: refuted by witness; the exact behaviour is C11_det_select.
* **C84 Migrants sent by an island reach its neighbours**: Refuted. The migrants are moved into the first delivery, so at most one island ever integrates them and the others integrate an empty population (C84_only_one_island, C84_every_neighbour_refuted). Messages still queued when the scheduler has seen all islands stopped are routed to nobody, because the nodes are isolated (C84_queued_are_lost), and even a message sent while all the islands run is lost when its sender stops before it is routed (C84_delivered_refuted).
* **C89 Documented checks and scalings of the real operators**: Refuted: the exception is built but not thrown, so a shorter second parent is read beyond its end; epsilon and sigma are scaled as e*e*range; without bounds the deterministic mutation replaces coordinates by numbers of [-epsilon, epsilon); eoNormalVecMutation(sigma) makes a vector of floor(sigma) zeros and reads beyond its end; the first variable is never rotated and the first n-1 angles are never used.
* **C90 Documented promises of operators, selection and replacement that fail**: all eight refuted: a sampling point on a slot boundary; ranking range wrong for every population; the same bit drawn twice; the maximum never drawn; a sequence none of whose operators fires; off-by-one in the saving loop; every other individual skipped; always throws.
* **C91 Folding into bounds with doubles stays inside the bounds**: refuted: folding -191723202 into [0,0.08] leaves the interval.
* **C92 Parallel code without undefined accesses**: refuted: a package is tested for emptiness without its mutex while the dispatcher writes it; the attribution vector is reserved but never resized, so every access is beyond its size.
* **C93 Documented promises of local-search components that fail**: all refuted: each adjacent exchange comes twice and the last exchange never; the loop over distances reads out of bounds; readFrom is undefined on every printed partition with something selected; the VNS never ends with one heuristic, keeps its stop flag, and its restart branch is never reached; the counter is incremented per statistic; the best is lost when diversification replaces the solution where no move is admissible.
* **C94 Incremental MaxSAT evaluation and Royal Road tails**: proved when clause 0 has no negated literal (random instances) or no clause has one (file instances); refuted otherwise: the sign of literals of clause 0 is lost (-0), and the sign of every literal of a file instance. Refuted: a Royal Road bit after the last whole block reads out of bounds.
* **C95 Documented promises of multi-objective components that fail**: all refuted by witnesses; the roulette also for every fitness vector that starts with at least the tournament size.
* **C96 Documented promises of persistence that fail**: all refuted; load changes no object for any file and any state, because the section header is never recognised.
* **C97 Documented promises of fitness types that fail**: all refuted: scalar operators modify their left operand, averages lose feasibility, the order fails with empty fitnesses, appending a new term writes out of bounds.
* **C98 Assignments within a parse tree and new trees**: refuted: ancestors keep their sizes and depths, so the tree cannot be saved and loaded; a new tree holds an extra node and stays invalid.
* **C99 Topologies kept up to date**: refuted: updateNeighborhood changes no neighborhood for any size from 2 to 2^31 (unsigned i = -size+1 starts above the bound), and with size 1 it changes the neighborhood of index k modulo the dimension; a topology already set up keeps its first neighborhoods.
* **C104 Parser promises that fail**: refuted: a short form in the file beats a long form on the command line; parameters not given by the user are printed as comments, so a value set by the program is lost; a value with a blank is cut; setORcreateParam always creates a second parameter and leaves the existing one as it is
* **C113 Pareto local search ends for every documented combination of components**: Refuted: with the default archive (which replaces equal vectors by the newer, unvisited copy) two neighbouring members of the front revive each other for ever; moeoNoDesimprovingNeighborhoodExplorer and moeoSimpleSubNeighborhoodExplorer with a neighborhood explored in order find the same neighbours again and never flag; a solution without neighbours is never flagged; moeoNumberUnvisitedSelect(0) selects nothing; moeoDMLSMonOp keeps its archive between applications. C112 has the combinations that do end.
* **C118 Documented behaviour of the forges**: Refuted: the cached instantiate_ptr tests the other pointer, so it makes a new operator each time, or returns an empty pointer once instantiate was called; the no-argument forge always returns an empty shared pointer; std::map::insert ignores a second forge of the same name; the fractional index is asserted the wrong way round and truncated; the 0 size is overwritten at the first call. Also noticed, outside the model: eoForgeMap::setup cannot be instantiated, eoForgeScalar's min/max setters assert the old bounds, eoEvalFoundryFastGA uses a missing size() and maps 1.0 to an index past the end.
* **C123 Documented behaviour of the worths**: Refuted: the single member of a front is counted as both extremes, gets the penalty -m for m objectives, and the division by max+1 turns it into a rank above the next fronts: on (0,0), (1,2), (2,1), all minimised, the dominating individual gets worth 0 and the others 1. Resizing keeps the cache in step with worths computed for a larger population. The cache takes the new fitnesses before the computation, so after an exception the old worths are used. Truncation at 0 makes the sum larger than 1, so the best gets less than pressure/n; equal fitnesses make all the worths NaN. Also noticed, outside the model: eoNoPerf2Worth cannot be compiled, eoParetoFitness.h is not in the repository, rank_to_worth reads the maximum of an empty vector, eoNDSorting_I compares a squared distance with the niche size.
* **C126 Offering to the two-objective hypervolume archive is always defined**: Refuted: with a full archive, a solution incomparable with all members whose second objective falls between the last two members makes computeTmp read the element past end(); and when all the contributions reach maxValue the search for the least one returns end(), which is then erased. Proved (C126_offer_defined_partial): with contributions below maxValue the first case is the only undefined one; C126_past_the_end: it is always undefined.
* **C128 Documented behaviour of the epsilon hyperbox archive**: Refuted: when all members share a value the scale of that objective divides by zero, its corners are NaN, no box equals another and a dominated solution is taken with answer true, or the same one twice; with three objectives (0,5,5), (5,0,5), (5,5,0) refuse (1,1,6), worse than the nadir on one objective only; offering the member (0,4,6) of {(0,4,6),(1,0,3),(4,6,0)} again removes it (same box) and is then refused because the box of (1,0,3) dominates. Also noticed, outside the model: the answer for a population starts from an uninitialised variable; the distance to the corner compares raw objective values with box numbers; moeoEuclideanDistance keeps a reference to a normalizer passed by value.
* **C130 The SPEA2 archive accepts any population, and follows the current fitness**: Refuted: copy_pop[j] is read before j is compared with the size, so that an empty population always reads outside the population of a full archive, and operator() on one individual does so exactly when the individual replaces the worst member; with capacity 1 a population of 1, allowed by the documentation, does too. Members keep the fitness they had when they were added: if all are above -1, a population of individuals at most -1 changes nothing, even if the members are now dominated. Also noticed, outside the model: matrice_it is used after erase, which invalidates it.
* **C133 moStatistics and moNeighborhoodStat on the border cases**: Refuted: with nbS = 0 phi2[1][1] is read outside the matrix for every non-empty data; on a solution without neighbors value() is false but every getter (and the m*NeighborStat built on them) keeps reporting the previous solution, or uninitialised fields at first. Outside the model: nbS >= n divides by zero or wraps n - s; constant data give NaN; samplings such as moAdaptiveWalkSampling pass references to members not yet constructed to the constructor of their base.
* **C136 Perturbations count what they are documented to count**: Refuted: moILSexplorer::updateParam calls update after add (there is no else), so that after an acceptance the counter is 1, a restart comes one turn early, nbNoMove is the number of all the turns, and the neighbor applied first after a move is the second one. The maximum of moMonOpPerturb is excluded. moRandomSearch with nbSolMax = 1 visits two solutions.
* **C141 What edo documents and does not do**: Refuted: edoEDASA accepts every candidate, since exp(|difference| / temperature) is at least 1; the bounders move the solution without invalidating it; the matrix of edoEstimatorNormalMulti is that of the products, not centred; edoUniformCenter reads temporaries through dangling references, and the normal centers assign to a copy.
* **C143 What the metrics between two sets document and do not compute**: Refuted. A vector of both sets is counted as common and as incomparable: {a,b} against {a} gives 5/8 and not 3/4. An objective that is constant over both sets is ignored after the first (the indicator is then negative although no vector is strictly better everywhere), and makes the result NaN when it is the first. On negative values the multiplicative indicator is inverted. In the entropy a parenthesis is misplaced, log((n/C)/log 2): two isolated vectors give about 0.33 and not 1.
* **C146 What the scalarizations and weight strategies document and do not do**: Refuted. Sum and maximum are exchanged in the augmented achievement function; the weighted Chebychev distance is a weighted sum for every rho; the achievement fitness ranks maximised objectives backwards; the normalizer argument of one constructor is ignored; after a pass the two-direction strategy restarts from the other end; the dichotomic strategy uses an iterator that was never set or was lost when the archive falls back to one member; halving gives 1/2 again at the 8th call; the augmented Q-explore never gives a single objective, (1/2,1/2) or (1/2,1/4,1/4).
* **C148 What the archive indexes document and do not do**: Refuted. With three objectives the removal of a node drops its last subtree; the node stores a position one too small, so the indexed archive removes a non-dominated vector and keeps the dominated one; the update of the quick index inserts a deleted vector again, which leads to a write outside of the archive; a vector less than 1e-6 better in one objective is refused although nothing dominates it; the quad tree archive keeps nothing.
* **C150 SEEA applies the transform it is given, ASEEA leaves a population**: Refuted. operator() of moeoSEEA calls genBreed, which the constructors with a transform bind to cloning operators: the transform is never called, every offspring is a copy of the initial population or archive, and the final archive represents their front alone. moeoASEEA resizes the population to 0 in every generation.
* **C152 Uniform variable-length crossovers keep the genes and report changes**: Refuted. eoVlUniformQuadOp does not clear its temporaries between trials: after an unsuccessful trial the children can contain every gene twice (C152_uniform_quad_conserves_genes_refuted; C151_uniform_quad gives the exact number of copies). eoVlUniformBinOp answers false after having replaced the chromosome by the other parent (C152_uniform_bin_unchanged_refuted), so that eoBinGenOp and eoSGATransform keep the stale fitness; the comment in the code says so too.
* **C155 Counting, firing and showing time**: Refuted. The time-limited evaluation overrides operator() of the counter without counting (C155_counts_evaluations_refuted), so eoEvalContinue on it never stops. eoTimedMonitor cuts the elapsed ticks to 32 bits: with CLOCKS_PER_SEC = 1000000 a period of 4295 s or more is never reached after the first call (C155_timed_monitor_fires_refuted). eoTimeCounter switches from processor time to wall-clock time after 2140 s and can jump back (C155_time_counter_forward_refuted).
* **C158 Sizes of small samples and neutral degrees without neighbors**: Refuted. A local search always makes one turn: a sample of one solution has two (C158_sample_size_refuted) and a walk of no step makes one (C158_walk_steps_refuted). moNeighborhoodStat leaves nb_equal as it was when there is no neighbor: the neutral degree repeats that of the former solution (C158_neutral_degree_refuted), and is uninitialised for the first one (C158_first_degree_uninitialised).
* **C161 Strongly typed genetic programming: the documented size, full trees and typing**: Refuted. The point mutation looks at the type returned and the arity only, so choose(bool, number) can become add(number, number) over the same arguments: the result is ill typed. max_length is stored and never used: two trees of 3 nodes give one of 5 for every maximum. In full mode a type that only terminals have makes generate read node[type][NONTERMINAL][0] of an empty vector (UB), although well-typed trees within the depth exist and the grow mode makes them.
* **C164 An NK instance written to a file can be read back**: Refuted: after the parameters load tests whether the word read before them, the magic word NK, NKp or NKq, begins with p, so it throws on every file whatsoever (C164_load_refuted) and on every saved one (C164_saved_refuted). A file that holds only comments is read for ever (C164_comments_outside). NKq with q = 1 divides 0 by 0 (C164_nkq_one_refuted).
* **C167 Decaying bounds, integer velocities and decreasing weights keep their documented promises**: Refuted: the modifier multiplies the maximum already reduced, and is called once per particle, so after k particles of one iteration the maximum is the k-th power of the factor times the first one (C167_maximum_shrinks_at_each_call, C167_decaying_bounds_refuted). The bounds are checked after the rounding, so a fractional bound gives a fractional velocity (C167_integer_velocity_refuted), and the bound modifier given to the integer velocity is never called. One iteration after the last one stop - counter wraps and the weight is far above the initial one (C167_linear_weight_after_the_end, C167_weight_decreases_refuted). A second setup is ignored (C167_second_setup_refuted).
* **C170 SBX works without bounds; polynomial mutation reports real changes**: Refuted. Without bounds the crossover throws as soon as the parents differ by more than 1e-14 somewhere (it asks for the minimum of an unbounded variable). A variable lying on one of its bounds is never moved by the mutation, whatever is drawn (delta_max is 0), yet true is returned.
* **C172 The hypervolume continuators go on until the given Pareto set is reached, and no longer**: Refuted. Two different fronts of equal hypervolume stop the run although no target vector is reached; an archive that is better than the target has a different hypervolume, so the run goes on. The dual continuator reads the feasibility of the first target vector, which neither its constructor nor that of the vector sets (undefined for every archive); were it set, the run stops as soon as the archive has the other feasibility.
* **C174 The best statistic gives the best individuals of the last population**: Refuted. Each call appends its individuals after those of the previous ones, so that the individuals of the first call are given for ever (and are iterators into a population that may be gone). The number of objectives itself passes the check: the read is past the end after one call.
* **C176 The memory pool works for every element type**: Refuted. Every first allocation of an element larger than a chunk (8176 bytes; three children of more than 2725 bytes each) writes out of the array; an element of 12 bytes puts links of 8 bytes at addresses that are not multiples of 8; Tree_alloc::construct with three children builds the second one twice and leaves the third one unbuilt although deallocate destroys it (construct is not called by the library).
* **C178 Custom topologies, Bimap and SharedFitContinue do what is documented**: Refuted. The number of islands is only checked by an assertion: without assertions every number is accepted and the neighbours of an island beyond the matrix are read out of bounds. A blank first line makes the file rejected. Adding a known key again leaves a stale pair in the other direction. SharedFitContinue stores "go on" as "found": after any first call that has not reached the optimum every later call answers stop, and an island that reaches the optimum does not stop the others.
* **C180 Distances and statistics are defined for every input**: Refuted. With vectors of different lengths the tail of a longer second one is ignored (distance 0 between different vectors) and a shorter second one is read out of bounds; a population with equal fitnesses has correlation 0/0; asking eoPopStat for more individuals than the population has reads beyond it; if every individual has failed the average of a term is 0/0, and an empty population is read out of bounds.
* **C182 Master-worker algorithms replace the sequential ones in every use**: Refuted. The constructors of eoEasyEA that take an eoPopEvalFunc set eval to a functor that does nothing, and the scheduler applies eval: the offspring are never evaluated. eoEasyPSO updates the neighborhoods after each particle, MWModel<eoEasyPSO> only after all of them, so that a particle no longer sees the improvements of the same turn.
* **C185 CMA-ES options and failures behave as documented**: Refuted. The cases 1 and 2 of the weighting are exchanged. The weights are never resized after the option mu is read: more parents than the default are read past the end of the weights, with fewer the used weights do not sum to 1 (all parents at x give the mean x/2). QLalgo returns maxIter-1 when its limit stops it, which updateEigenSystem takes for success; a run that finishes with exactly maxIter iterations is taken for a failure and leaves the eigenvalues in the place of their square roots. A coordinate below its minimum only causes one multiplication of sigma and can stay below.
* **C187 Defaults and bounds documented for the foundry of algorithms**: Refuted: a new foundry holds no encoding and throws when run (or when at() is used as documented); numbers in (-1,0) select the first operator and numbers of -1 or below are an undefined conversion to size_t, so neither is penalised; ceil makes the first operator reachable by 0 alone and penalises everything above n-1
* **C189 The documented constants and safeguards of the adaptive normal distribution**: Refuted: 1/(4*N) is a quotient of integers, so the reference length is above sqrt(N) in every dimension; the rank-mu learning rate is not capped, and in every dimension a large population at the mean makes all the variances negative and the scaling not a number; the criterion stops at the threshold itself and lets a covariance with a negative eigenvalue go on; the full constructor leaves the dimension uninitialised.
* **C192 The documented safeguards of the logger and of the signal continuators**: Refuted: an unknown level name selects quiet silently; after a failed open every message is lost; other streams are ignored; a file left for another target is never closed; quiet messages show at every level; two eoSignal objects share one flag and only the first called reacts; constructing one drops a waiting signal; the wrapped criterion is only asked after a signal; eoSIGContinue always returns true and loses a signal that comes during its function; eoCtrlCContinue cannot be built twice in a process.
* **C195 What the monitors document and do not do**: Refuted: from the third vector on, a snapshot writes the second one again and never looks at the others; 'if true, overwrite any existing file' keeps it and drops the header; the first name of a stream monitor is not padded, and the width left pending pads the next output of the program; without assertions a dump that cannot be opened is lost silently; with a null interval two states are saved under one name; with no parameter the first element of an empty vector is read.
* **C198 Documented behaviour of the builders that does not hold**: Refuted: EPTour, SSGADet and SSGAStoch read the argument of the selection instead of the one of the replacement (so that DetTour(2) with EPTour(10) makes an EP tournament of 2), and read past the end when the selection has no argument; the default argument put back changes the replacement when it is read again; the first individuals loaded are kept, not the best; a NaN pressure is accepted; null rates only print a warning and applying the operator then reads past the end.
* **C203 Documented guarantees of the multi-start job that do not hold**: Refuted: the multiples of an even number come again after 2^31 of them, and those of 2^31 after 2; two schedules with the same seeds give different results when the workers do not get the same numbers of runs; nothing clears the best individuals of the jobs before.
* **C205 The user and system times add up to the time spent**: Proved for intervals at the end of which the microseconds are not less than at their beginning (C205_cpu_times_partial). Refuted for the others: the borrow is added with the wrong sign, so that twice the difference is counted too much, and intervals of one microsecond each can all be reported as one second.
* **C207 Documented intervals of the generators that do not hold**: Refuted: with a negative maximum alone the numbers are in (max, 0]; equal bounds are accepted and give the maximum; the float generator of [0, 1) makes 1 for exactly the 128 last values of the random number generator; two ints more than 2^31 - 1 apart overflow in the constructor; UF_random_generator never makes its max().
* **C209 Integer wrappers of real operators that change the length**: Refuted. The wrapper never resizes the individual of ints: an operator that lengthens the vector makes it write past the end, and one that shortens it leaves the old ints at the end. It answers a change even if rounding gives back the same individual
* **C212 Stop on a mean that is not finite**: Refuted. The mean is not checked, so a distribution with a mean that is NaN goes on
* **C214 Output of a command that is not a fitness**: Refuted. The state of the stream is not checked: a command that prints only blanks gives a fitness that was never set, and one that prints something else than a number gives the fitness 0. With a buffer of one character the loop never ends, and a null character hides what follows it in the buffer
* **C216 Reference-point fitness: strictness and deletion**: Refuted. The epsilon indicator only looks at the worst objective, so a dominated solution may get the same fitness. The update does nothing, although a deletion may move the bounds and then all the fitnesses
* **C218 Archive that uses a quick index**: Refuted. Deleting the last member puts its vector back in the index, and a later insertion can then delete a solution that nothing dominates. With two deletions at once the second place may lie past the end. The part that holds, while nothing is deleted, is C217_archive_of_incomparable
* **C220 Documented range of distances between objective vectors**: Refuted. Without normalizer every value is reached; with the one of a population and its default maximum, 100, so is 100 times the number of objectives. The constructor of the Euclidean distance that takes a normalizer keeps a reference to its own parameter, passed by value. Fuzzy vectors with equal expected values have distance 0. The range that holds is C219_range
* **C222 Consistency of initialized particles**: Refuted. The initializer of a fixed length resizes the position and does not invalidate the fitness; the one of a variable length resizes only the velocities

Preconditions that the code does not check, and behaviours that a caller must know, met while modelling
(each is visible in the model as an error outcome or a hypothesis of the theorems):

* eo: eoDetSelect divides by zero on an empty source; eoRanking overflows 32-bit arithmetic above 65536
  individuals; stochastic universal sampling is undefined when all fitnesses are 0; eoInitVariableLength excludes
  its maximal length; eoOrderXover keeps its direction in an unsigned char; the permutation mutations loop forever
  on one element; eoSequentialOp can produce nobody, and eoProportionalOp inside it can skip operators;
  eoPeriodicContinue with period 0 divides by zero.
* eo/utils: eoRng::reseed does not clear the cached Gaussian; the state array is uninitialised until the first
  draw; eo::random(m) misses values for m above 2^31; eoPop::shuffle and eoInitPermutation use
  std::random_device, so a run is not reproduced by seeding eo::rng.
* mo: the indexed swap neighborhood overflows for n >= 32769; the order neighborhoods are undefined on size 0.
* moeo: crowding distances are NaN when an objective is constant; moeoEuclideanDistance keeps a dangling reference.
* edo (noted, not modelled): edoTransformAdaptive clears its population before looping over its size, and cannot
  be instantiated; edoEstimatorCombinedStateless deletes its distribution and then assigns to it;
  edoEstimatorAdaptiveReset has dimension 0 by default; edoContAdaptiveIllCovar stops at equality where its
  documentation says strictly greater; edoAlgoAdaptive does not evaluate the initial population (hypothesis of C140).
