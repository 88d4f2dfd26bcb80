{"id": "C01", "title": "random_pair yields two distinct indices in range", "statement": "For every n >= 2, random_pair(n, rng) returns (p1, p2) with p1 < n, p2 < n and p1 != p2, never panicking; for n < 2 it always panics.", "quantifier": "every n and every sequence of generator outputs", "why_tests_cant": "a test samples a few seeds; an off-by-one in the second draw shows only for particular draws", "anchors": ["src/operators.rs:random_pair"]}
{"id": "C02", "title": "random_pair is uniform over ordered distinct pairs", "statement": "For every n >= 2 each ordered pair (a, b) with a != b, both below n, is returned with probability exactly 1/(n(n-1)), assuming ideal uniform draws.", "quantifier": "every n, every pair", "why_tests_cant": "frequencies measured by a test have statistical error; exact uniformity is a statement about all draws", "anchors": ["src/operators.rs:random_pair"]}
{"id": "C03", "title": "bounded_random_range stays inside its bounds and reaches every admissible range", "statement": "For min_len <= max_len <= n every returned range start..end satisfies end <= n and min_len <= end - start <= max_len, every such range can be returned, and nothing panics; if min_len > max_len it always panics. random_range(n) returns a non-empty sub-range of 0..n for n >= 1 (every one possible) and panics for 0.", "quantifier": "every n, min_len, max_len, every draw", "why_tests_cant": "boundary draws (length = n, start = n - length) are rare under random testing", "anchors": ["src/operators.rs:bounded_random_range", "src/operators.rs:random_range"]}
{"id": "C04", "title": "Distribution of random_range", "statement": "The documentation says the range returned by random_range / bounded_random_range is uniformly distributed. The exact law is: range s..s+l has probability 1/((max_len-min_len+1)(n-l+1)); hence it is not uniform over ranges as soon as two different lengths are admissible (n >= 2).", "quantifier": "every n, min_len, max_len and every range", "why_tests_cant": "a distribution claim quantifies over all outcomes with exact probabilities", "anchors": ["src/operators.rs:bounded_random_range", "src/operators.rs:random_range"]}
{"id": "C05", "title": "common_neighbors is sound", "statement": "Every pair returned by common_neighbors(g1, g2) is a pair of genes that are cyclically adjacent in g1 and in g2 (in either direction).", "quantifier": "every two genomes", "why_tests_cant": "soundness must hold for all genomes", "anchors": ["src/operators.rs:common_neighbors"]}
{"id": "C06", "title": "common_neighbors is complete", "statement": "Every unordered pair of genes adjacent (cyclically) in both genomes is returned, smaller gene first, provided both genomes have at least 3 genes; the documented contract (any genomes) fails when genome2 has exactly 2 genes, and the answer then depends on the order of the arguments.", "quantifier": "every two genomes, every pair of genes", "why_tests_cant": "absence of a missed pair is a universal statement; the length-2 asymmetry needs the right boundary input", "anchors": ["src/operators.rs:common_neighbors"]}
{"id": "C07", "title": "common_partitions partitions the first genome into common paths", "statement": "For genomes that are permutations of the same genes: the concatenation of the returned partitions is a permutation of genome1 (each gene in exactly one partition), no partition is empty, consecutive genes of a partition are cyclic neighbours in both genomes, and no partition can be extended at its end by a gene not already used by it or an earlier partition.", "quantifier": "every two permutations", "why_tests_cant": "the loop carries a visited set whose effect depends on the whole history", "anchors": ["src/operators.rs:common_partitions"]}
{"id": "C08", "title": "Partitions are not maximal and do not follow parent order", "statement": "The documentation says the genes of a partition are in the same order as in the parent genomes; this is false (the documented example itself returns a reversed cyclic run), and a common run may be split into two partitions when iteration starts in its middle.", "quantifier": "existence of counterexamples", "why_tests_cant": "the doc-test encodes one of them as expected output without noticing", "anchors": ["src/operators.rs:common_partitions"]}
{"id": "C09", "title": "GPX2 offspring is a permutation that keeps every partition contiguous", "statement": "For parents that are permutations of the same distinct genes and for every partition selector (stateful, random) that returns a valid index, GPX2 returns a permutation of the genes, never panics, always terminates, and the offspring is a concatenation of the common partitions in some order.", "quantifier": "every pair of parents, every selector behaviour", "why_tests_cant": "the selector is an arbitrary FnMut; tests try two closures", "anchors": ["src/operators/crossover.rs:generalized_partition_2_crossover"]}
{"id": "C10", "title": "GPX2 rejects parents of different lengths", "statement": "CrossoverStrategy::crossover is documented to panic when the parents have different lengths; GPX2 does not: it returns an offspring.", "quantifier": "existence", "why_tests_cant": "no test passes parents of different lengths", "anchors": ["src/operators/crossover.rs:CrossoverStrategy::crossover", "src/operators/crossover.rs:generalized_partition_2_crossover"]}
{"id": "C11", "title": "SCX offspring is a permutation starting at the pivot", "statement": "For parents that are permutations of the same distinct genes (n >= 2) and any pivot gene among them, SCX returns a permutation of the genes whose first gene is the pivot, without panicking.", "quantifier": "every pair of parents, every pivot", "why_tests_cant": "depends on the visited set after any number of steps", "anchors": ["src/operators/crossover.rs:sequential_constructive_crossover"]}
{"id": "C12", "title": "SCX follows the documented construction rule", "statement": "Each next gene is the cyclic successor of the current gene in parent1 or parent2 whenever one of the two is not yet used (if both are unused, the one chosen by the position comparison); only if both are used is it the first unused gene of parent1. The rule determines the offspring: a list of the right length that starts with the pivot and obeys it is what the operator returns.", "quantifier": "every pair of parents, every step", "why_tests_cant": "step-wise rule over every prefix", "anchors": ["src/operators/crossover.rs:sequential_constructive_crossover"]}
{"id": "C13", "title": "ERX offspring is a permutation for every hash order", "statement": "For permutation parents (n >= 2) and a pivot among the genes, ERX returns a permutation of the genes starting at the pivot, never panicking, whatever the iteration order of its hash sets.", "quantifier": "every pair of parents, pivot and every iteration order of the hash sets", "why_tests_cant": "HashSet order is randomised per process; tests see one order per run", "anchors": ["src/operators/crossover.rs:edge_recombination_crossover"]}
{"id": "C14", "title": "ERX chooses a neighbour with fewest remaining neighbours", "statement": "Each next gene is an unused cyclic neighbour (in either parent) of the current gene with the fewest unused neighbours among such candidates; if there is no unused neighbour it is the first unused gene of parent1. Conversely every order of the genes that starts with the pivot and obeys this rule is a possible offspring, for some iteration order of the hash sets.", "quantifier": "every pair of parents, every step, every hash order", "why_tests_cant": "rule over every prefix and hash order", "anchors": ["src/operators/crossover.rs:edge_recombination_crossover"]}
{"id": "C15", "title": "PMX offspring", "statement": "For permutation parents and a range a..b inside them, PMX returns a permutation of the genes, equal to parent1 on a..b, and equal to parent2 at every other position whose parent2 gene does not occur in parent1[a..b].", "quantifier": "every pair of parents, every range", "why_tests_cant": "chains of mappings of unbounded length", "anchors": ["src/operators/crossover.rs:partially_mapped_crossover"]}
{"id": "C16", "title": "PMX terminates on permutations and can hang otherwise", "statement": "For permutation parents the inner mapping loop takes at most b-a steps; for parents with repeated genes there are inputs on which it never terminates.", "quantifier": "every pair of parents; existence of a divergent input", "why_tests_cant": "non-termination cannot be observed by a test that finishes", "anchors": ["src/operators/crossover.rs:partially_mapped_crossover"]}
{"id": "C17", "title": "OX offspring", "statement": "For permutation parents and a non-empty range a..b, OX terminates, returns a permutation of the genes equal to parent1 on a..b, and the remaining positions, read cyclically from b, hold the remaining genes in the order they have in parent2 read cyclically from b.", "quantifier": "every pair of parents, every non-empty range", "why_tests_cant": "two wrapping indices moving at different speeds", "anchors": ["src/operators/crossover.rs:order_crossover"]}
{"id": "C18", "title": "OX with an empty range", "statement": "With an empty range a..a (a < n) OX returns n copies of parent1[0] (not a permutation) and with n..n it never terminates.", "quantifier": "every pair of parents with n >= 2", "why_tests_cant": "non-termination; boundary range never used in tests", "anchors": ["src/operators/crossover.rs:order_crossover"]}
{"id": "C19", "title": "CX offspring", "statement": "For permutation parents CX terminates without panic, returns a permutation of the genes; at each position the gene comes from one of the parents at that position; positions in the same cycle take their genes from the same parent; the cycle of position 0 comes from parent1 and successive cycles alternate between the parents.", "quantifier": "every pair of parents", "why_tests_cant": "cycle structure of arbitrary permutations", "anchors": ["src/operators/crossover.rs:cycle_crossover"]}
{"id": "C20", "title": "SPX offspring", "statement": "For parents of equal length, SPX returns the genes of parent1 before point and of parent2 from point on (all of parent1 when point >= length).", "quantifier": "every pair of parents (any genes), every point", "why_tests_cant": "universal over lengths and points", "anchors": ["src/operators/crossover.rs:single_point_crossover"]}
{"id": "C21", "title": "Crossovers reject parents of different lengths", "statement": "SCX, ERX, PMX, OX, CX and SPX panic for every pair of parents of different lengths.", "quantifier": "every pair of parents of different lengths", "why_tests_cant": "universal", "anchors": ["src/operators/crossover.rs"]}
{"id": "C22", "title": "CrossoverStrategy::crossover is total on non-empty permutations", "statement": "For parents that are permutations of the same n >= 1 distinct genes, every permutation strategy returns a permutation of the genes and SinglePoint an offspring of length n, for all draws, without panicking or hanging; on empty parents SCX, ERX, PMX, OX and SPX panic.", "quantifier": "every strategy, every pair of parents, every draw", "why_tests_cant": "all strategies times all draws", "anchors": ["src/operators/crossover.rs:CrossoverStrategy::crossover"]}
{"id": "C23", "title": "Crossover of identical parents", "statement": "PMX, OX (non-empty range), CX and SPX of a genome with itself return that genome.", "quantifier": "every permutation, every range or point", "why_tests_cant": "universal", "anchors": ["src/operators/crossover.rs"]}
{"id": "C24", "title": "Permutation mutations preserve the genes", "statement": "swap, scramble, inversion and insertion mutation return a permutation of the input genome (as a multiset) of the same length for every draw, without panicking, for every genome including those with repeated or no genes.", "quantifier": "every genome, every draw", "why_tests_cant": "all draws", "anchors": ["src/operators/mutation.rs:swap_mutation", "src/operators/mutation.rs:scramble_mutation", "src/operators/mutation.rs:inversion_mutation", "src/operators/mutation.rs:insertion_mutation"]}
{"id": "C25", "title": "Exact effect of each mutation", "statement": "On n >= 2 genes: swap exchanges exactly two distinct positions; inversion reverses one contiguous run of at least two positions and changes nothing else; scramble permutes only inside one contiguous run of at least two; insertion moves one gene to another position shifting the genes between; every such choice of positions is possible for swap and inversion.", "quantifier": "every genome, every draw", "why_tests_cant": "frame conditions (what must not change) over all draws", "anchors": ["src/operators/mutation.rs"]}
{"id": "C26", "title": "Duplicate mutation", "statement": "On n >= 2 genes duplicate mutation copies the gene at one position over the gene at a different position and changes nothing else; every ordered pair of distinct positions is possible.", "quantifier": "every genome, every draw", "why_tests_cant": "all draws", "anchors": ["src/operators/mutation.rs:duplicate_mutation"]}
{"id": "C27", "title": "Mutating a genome of fewer than two genes does nothing", "statement": "Every mutation strategy returns genomes with 0 or 1 genes unchanged and consumes no randomness.", "quantifier": "every strategy", "why_tests_cant": "boundary", "anchors": ["src/operators/mutation.rs:MutationStrategy::mutate"]}
{"id": "C28", "title": "Insertion mutation can move any gene to any position", "statement": "The documentation says a randomly selected gene is moved to another position. The code always moves the gene at the larger index to the smaller index: some (source, target) moves are impossible (e.g. the first gene to the end of a 3-gene genome).", "quantifier": "existence of an unreachable move", "why_tests_cant": "showing an outcome unreachable needs all draws", "anchors": ["src/operators/mutation.rs:insertion_mutation"]}
{"id": "C29", "title": "Swap mutation is uniform over transpositions", "statement": "For a genome of n >= 2 distinct genes every transposition of two positions is produced with probability exactly 2/(n(n-1)).", "quantifier": "every genome of distinct genes, every pair of positions", "why_tests_cant": "exact probabilities", "anchors": ["src/operators/mutation.rs:swap_mutation"]}
{"id": "C30", "title": "Built-in selection returns a member of the population", "statement": "Tournament (size >= 1), RouletteWheel, Boltzmann, Rank and Elitist (ratio in [0,1)) selection on any non-empty population returns (i, x) with x the i-th individual, never panicking, whatever the fitness values (infinite, NaN, negative), prepared totals and draws.", "quantifier": "every population, every float value, every draw", "why_tests_cant": "float edge cases (NaN totals, rounding of ratio*len up to len) are invisible to typical tests", "anchors": ["src/operators/selection.rs"]}
{"id": "C31", "title": "Tournament selection law", "statement": "Tournament of size k on n individuals returns an index <= i with probability ((i+1)/n)^k.", "quantifier": "every n, k, i", "why_tests_cant": "exact probabilities", "anchors": ["src/operators/selection.rs:TournamentSelection::select"]}
{"id": "C32", "title": "Rank selection law", "statement": "Rank selection on n individuals returns index i with probability (i+1)/(n(n+1)/2), and its fall-through branch is unreachable.", "quantifier": "every n, i", "why_tests_cant": "exact probabilities", "anchors": ["src/operators/selection.rs:RankSelection::select"]}
{"id": "C33", "title": "Elitist selection only returns the top of the population", "statement": "With ratio in [0,1) the bound floor(len*ratio) computed in f64 is < len and, up to 2^53 individuals, equals the exact real floor or one more; selection is uniform over bound..len.", "quantifier": "every population length below 2^63, every ratio, every draw", "why_tests_cant": "rounding at every length and ratio", "anchors": ["src/operators/selection.rs:ElitistSelection::select"]}
{"id": "C34", "title": "Roulette selection rule", "statement": "Roulette selection returns the first index whose running f64 fitness sum reaches u*total, or the last index when none does; larger u never selects a smaller index when total is finite and non-negative; prepare sets total to a floating-point sum of the fitness values (in some bracketing).", "quantifier": "every population, total and pair of draws", "why_tests_cant": "monotonicity over all draws", "anchors": ["src/operators/selection.rs:RouletteWheelSelection::select"]}
{"id": "C35", "title": "Boltzmann temperature schedule", "statement": "After k prepares (k generations) the temperature is the initial one multiplied k times by the cooling rate; the first generation already uses a cooled temperature; prepare changes nothing else than temperature and total.", "quantifier": "every k, temperature, rate, population", "why_tests_cant": "all histories", "anchors": ["src/operators/selection.rs:BoltzmannSelection::prepare"]}
{"id": "C36", "title": "Boltzmann selection favours the fitter when cold", "statement": "Documented intent: lower temperature favours fitter individuals. When the scaled fitness of all individuals overflows to infinity (small temperature, positive fitness), every draw > 0 selects index 0, the least fit individual.", "quantifier": "every population whose scaled fitnesses overflow", "why_tests_cant": "needs the overflow regime", "anchors": ["src/operators/selection.rs:BoltzmannSelection::select"]}
{"id": "C37", "title": "Linear selection never panics", "statement": "For biases in (1, 2] linear selection should always return a valid index; in f64 the offset can round up to len and the index subtraction underflows (bias 1.1, largest draw), so the claim is false. It holds for every population size and draw for every bias in (1, 4] whose computed factor at the largest draw leaves a margin of two rounding errors, among them 1.15, 1.2, 1.25, 1.3, 1.4, 1.5, 1.6, 1.7, 1.75, 1.8, 1.9, 2 and 2.5; and for a given population it holds for every draw as soon as the largest draw does not panic.", "quantifier": "every population length, every draw, every bias with a margin", "why_tests_cant": "a panic with probability about 2^-53 per draw is never seen in tests", "anchors": ["src/operators/selection.rs:LinearSelection::select"]}
{"id": "C38", "title": "Linear selection with bias 1", "statement": "With bias exactly 1.0 (no pressure) linear selection always returns the fittest individual (0/0 = NaN casts to offset 0).", "quantifier": "every population, every draw", "why_tests_cant": "needs all draws", "anchors": ["src/operators/selection.rs:LinearSelection::select"]}
{"id": "C39", "title": "select_distinct", "statement": "select_distinct returns Some((i, x)) only with x the i-th individual and x != excluded; it returns None only after max_tries selections all equal to excluded; with max_tries = 0 it returns None.", "quantifier": "every mechanism, population, max_tries, draws", "why_tests_cant": "history of draws", "anchors": ["src/operators/selection.rs:SelectionMechanism::select_distinct"]}
{"id": "C40", "title": "Selector construction rejects exactly the invalid parameters", "statement": "create_selector (and the setters) panic exactly for tournament size 0, cooling rate +-0.0, and elitist ratio outside [0,1) or NaN; otherwise they return a selector with the given parameters.", "quantifier": "every strategy and float", "why_tests_cant": "all floats", "anchors": ["src/operators/selection.rs:SelectionStrategy::create_selector"]}
{"id": "C41", "title": "Stats min/max are exact", "statement": "For a non-empty sequence of non-NaN samples count is the length, min/max are the least and greatest sample, arg_min/arg_max are the index of their first occurrence.", "quantifier": "every sequence of samples", "why_tests_cant": "all sequences", "anchors": ["src/stats.rs:Stats::record", "src/stats.rs:FromIterator"]}
{"id": "C42", "title": "Collecting equals recording", "statement": "Collecting samples into Stats gives the same value as recording them one by one; snapshots are None exactly when empty and equal to the state at that time; PopulatedStats accessors agree with the Stats accessors.", "quantifier": "every sequence of samples (any floats)", "why_tests_cant": "two separately written loops must agree on every input", "anchors": ["src/stats.rs:FromIterator", "src/stats.rs:Stats::snapshot", "src/stats.rs:PopulatedStats"]}
{"id": "C43", "title": "Welford computes mean and sample variance", "statement": "In exact arithmetic the recorded average is the arithmetic mean and the variance is the sum of squared deviations divided by count-1 (0 for one sample).", "quantifier": "every sequence of real samples", "why_tests_cant": "algebraic identity over all lengths", "anchors": ["src/stats.rs:Stats::record"]}
{"id": "C44", "title": "Float statistics are sane", "statement": "In f64: if all samples have magnitude at most 2^1021 the average lies between min and max, and variance and standard deviation are non-negative and not NaN; without the magnitude bound the variance of finite samples can be -infinity and the standard deviation NaN.", "quantifier": "every sequence of f64 samples", "why_tests_cant": "rounding errors at every step", "anchors": ["src/stats.rs:Stats::record"]}
{"id": "C45", "title": "Accessors on empty and single-sample statistics", "statement": "On no samples every accessor returns None; on one sample min = max = avg = sample and var = std = 0.", "quantifier": "every sample", "why_tests_cant": "all floats", "anchors": ["src/stats.rs:Stats"]}
{"id": "C46", "title": "Population construction", "statement": "Population::new and replace panic exactly on an empty vector; otherwise the population is non-empty, sorted by ascending fitness (non-NaN fitness), contains only individuals of the vector and, up to equality, all of them, with statistics equal to those of its fitness values.", "quantifier": "every vector of individuals, every order an unstable parallel sort may produce", "why_tests_cant": "unstable parallel sort order is schedule dependent", "anchors": ["src/population.rs:Population::new", "src/population.rs:Population::replace"]}
{"id": "C47", "title": "Individuals in a population are unique", "statement": "The documentation says individuals are unique. Adjacent duplicates never remain; uniqueness holds when individuals with equal fitness are equal, but in general equal individuals separated by another of the same fitness both remain.", "quantifier": "every vector; existence", "why_tests_cant": "depends on the sort's order among ties", "anchors": ["src/population.rs:sort_dedup_and_collect_stats"]}
{"id": "C48", "title": "fittest is a maximum", "statement": "fittest() never panics, belongs to the population, and no individual has greater fitness; take_fittest returns the same individual.", "quantifier": "every population built through the API with non-NaN fitness", "why_tests_cant": "all populations", "anchors": ["src/population.rs:Population::fittest", "src/population.rs:Population::take_fittest"]}
{"id": "C49", "title": "Generation and stagnation counters", "statement": "Each replace increments generation by one; stagnation becomes 0 exactly if the new best fitness is greater than the previous best, else is incremented; after any sequence of replaces stagnation is the number of replaces since the last improvement.", "quantifier": "every sequence of replaces", "why_tests_cant": "all histories", "anchors": ["src/population.rs:Population::replace"]}
{"id": "C50", "title": "replace hands back the old individuals; a panic leaves a broken population", "statement": "On success the argument vector contains the old individuals. If replace panics (empty argument) and the panic is caught, the population has no individuals while its statistics are stale, so fittest() panics.", "quantifier": "every population; crash point inside replace", "why_tests_cant": "requires catching a panic mid-operation", "anchors": ["src/population.rs:Population::replace"]}
{"id": "C51", "title": "Fitness ordering", "statement": "compare_fitness and the IndividualWrapper ordering agree and are a total preorder on individuals with non-NaN fitness, consistent with wrapper equality; with NaN fitness wrapper equality is not reflexive and the ordering is not transitive (Ord contract broken).", "quantifier": "every triple of individuals", "why_tests_cant": "all floats", "anchors": ["src/operators.rs:compare_fitness", "src/individual.rs:IndividualWrapper"]}
{"id": "C52", "title": "Keep-best breeding", "statement": "With the default survival rule, breed returns an individual whose fitness is at least that of each parent used, and which is a valid offspring or a member of the population; if all of the population is valid so is the result.", "quantifier": "every model, population, rates, selector and draw", "why_tests_cant": "all draws and user operators", "anchors": ["src/model.rs:EvolutionModel::breed"]}
{"id": "C53", "title": "Crossover only between distinct individuals", "statement": "breed only calls crossover on two members of the population that differ, and never when the population has one individual or the crossover rate is 0; with mutation rate 0 it never calls mutate.", "quantifier": "every population, rates, draws", "why_tests_cant": "all draws", "anchors": ["src/model.rs:EvolutionModel::breed"]}
{"id": "C54", "title": "Initial population sizes", "statement": "extend_population appends exactly size new individuals; extend_population_with appends exactly size individuals, the first being the given one, the others mutants of it.", "quantifier": "every size, vector, draws", "why_tests_cant": "all sizes", "anchors": ["src/model.rs:extend_population", "src/model.rs:extend_population_with"]}
{"id": "C55", "title": "Interpolation stays in range", "statement": "For ratio in [0,1): interpolate_usize(0, n, ratio) < n for 0 < n < 2^63; for finite min <= max in [0,1] and ratio in [0,1] interpolate_f64 is >= min, within [0,1], and monotone in ratio.", "quantifier": "every n, ratio", "why_tests_cant": "rounding could carry up to n", "anchors": ["src/lib.rs:interpolate_usize", "src/lib.rs:interpolate_f64"]}
{"id": "C56", "title": "Parameter validation", "statement": "configure (GA, AGA) panics exactly when population_size is 0, elitism rate is outside [0,1) or NaN, a rate is outside [0,1] or NaN, or the selection strategy is invalid. The default parameters are accepted and are the documented values (the floats closest to them).", "quantifier": "every parameter set", "why_tests_cant": "all floats including NaN", "anchors": ["src/algorithms/ga.rs:GeneticAlgorithmParameters::validate", "src/algorithms/aga.rs:AdaptiveGeneticAlgorithmParameters::validate", "src/algorithms/ga.rs:configure"]}
{"id": "C57", "title": "Elites are the fittest individuals", "statement": "select_elites appends exactly min(elite_size, len) individuals, the last of the sorted population, so that no non-elite is fitter than an elite; elite_size < population_size after configure.", "quantifier": "every population and parameters", "why_tests_cant": "all populations, float rounding", "anchors": ["src/algorithms/ga.rs:select_elites", "src/algorithms/aga.rs:select_elites"]}
{"id": "C58", "title": "generate_new_population fills the population", "statement": "After generate_new_population the offspring vector should hold exactly the target size. This holds unless exactly one individual is missing: then the bred individual is discarded and the vector stays one short.", "quantifier": "every population, elites, target size", "why_tests_cant": "the missing push needs the boundary size - elites = 1", "anchors": ["src/algorithms.rs:generate_new_population"]}
{"id": "C59", "title": "A run with population_size 1", "statement": "A GA (or AGA) run with population_size 1, any valid initial population and a progress closure that asks to continue panics in its first iteration.", "quantifier": "every model and initial population", "why_tests_cant": "population_size 1 is accepted by validate; tests use 100", "anchors": ["src/algorithms.rs:generate_new_population", "src/evolution.rs:evolve_population"]}
{"id": "C60", "title": "Adaptive rates stay in range", "statement": "If the reference and current standard deviations are finite and the reference is positive, the adapted crossover and mutation rates are numbers in [0,1], at least the start of their range, crossover rate non-decreasing and mutation rate non-increasing in the diversity. A range written the other way round turns the adjustment round. If the reference is 0 and the current deviation is not, the rates are those of full diversity; if only the reference is infinite, those of no diversity. If both deviations are 0, both are infinite or one is NaN, both rates become NaN and neither crossover nor mutation ever happens.", "quantifier": "every population statistics and rate ranges", "why_tests_cant": "needs 0/0", "anchors": ["src/algorithms/aga.rs:prepare_for_next_population"]}
{"id": "C61", "title": "When the adaptive rates change", "statement": "At generation 0 the crossover rate is the end of its range and the mutation rate the start of its range; they change only at generations that are multiples of the interval; with interval 0 they never change afterwards.", "quantifier": "every history of generations", "why_tests_cant": "all histories", "anchors": ["src/algorithms/aga.rs:prepare_for_next_population"]}
{"id": "C62", "title": "Runs on one Evolution value are independent", "statement": "The outcome of evolve_population does not depend on earlier runs of the same Evolution value, except through the model value itself.", "quantifier": "every previous algorithm state", "why_tests_cant": "all histories of runs", "anchors": ["src/algorithms/ga.rs:configure", "src/algorithms/aga.rs:configure", "src/evolution.rs:evolve_population"]}
{"id": "C63", "title": "Progress protocol", "statement": "progress is first called with generation 0 and then once per generation with generations 1, 2, ...; the run stops at the first false and returns the population shown in that last call.", "quantifier": "every closure, every run", "why_tests_cant": "all closures and run lengths", "anchors": ["src/evolution.rs:evolve_population"]}
{"id": "C64", "title": "Every population shown is well formed", "statement": "In every run, each population shown to progress is non-empty, sorted by fitness, contains only valid individuals, has consistent statistics, and from generation 1 on has at most population_size individuals.", "quantifier": "every run, model, closure, draws, sort order", "why_tests_cant": "all schedules and histories", "anchors": ["src/evolution.rs:evolve_population", "src/population.rs"]}
{"id": "C65", "title": "The result is the best individual found", "statement": "run/evolve_individual document that the returned individual has the best fitness found during the execution. This holds whenever at least one elite is kept (best fitness never decreases); with elite count 0 (for example population_size below 100 with the default elitism rate) the best individual can be lost.", "quantifier": "every run; existence of a losing run", "why_tests_cant": "loss needs a specific sequence of draws", "anchors": ["src/evolution.rs:run", "src/evolution.rs:evolve_individual", "src/algorithms/ga.rs:select_elites"]}
{"id": "C66", "title": "evolve_individual never returns something worse than a valid seed when elitism keeps at least one", "statement": "With at least one elite and a seed that is valid after evaluation, the fitness of the returned individual is at least that of the evaluated seed.", "quantifier": "every run", "why_tests_cant": "all runs", "anchors": ["src/evolution.rs:evolve_individual"]}
{"id": "C67", "title": "Runs do not panic", "statement": "With population_size >= 2, a non-panicking model, a valid initial individual and any built-in selection strategy (Linear only with bias 1 or a bias with the margin of C37), a run never panics: it returns when progress returns false and otherwise goes on.", "quantifier": "every run", "why_tests_cant": "all histories", "anchors": ["src/evolution.rs:evolve_population"]}
{"id": "C68", "title": "OneMax fitness", "statement": "The OneMax fitness of a non-empty genome of at most 2^53 bits is the correctly rounded fraction of ones: in [0,1], 1.0 exactly when all bits are set, 0.0 exactly when none, and strictly increasing in the number of ones for a given length; the empty genome gets NaN and is invalid. Two individuals are equal exactly when their genomes and fitnesses are, so building or replacing a population of evaluated individuals loses no genome.", "quantifier": "every genome", "why_tests_cant": "rounding for every length; deduplication by fitness alone would also pass small tests", "anchors": ["src/lib.rs:one_max::OneMaxEvolutionModel::evaluate", "src/lib.rs:one_max::OneMax"]}
{"id": "C69", "title": "OneMax runs keep the genome length", "statement": "OneMax runs started with length >= 1 never panic in crossover and every individual ever shown has exactly that genome length and its fitness equals the evaluation of its genome; with length 0 every run panics.", "quantifier": "every run", "why_tests_cant": "all histories", "anchors": ["src/lib.rs:one_max"]}
{"id": "C70", "title": "Roulette selection is fitness-proportionate", "statement": "For finite non-negative fitness and a finite total (at least 2^-900, not below the running sum), the probability that roulette selection returns an index <= i (i not last) differs from (running f64 fitness sum up to i)/total by at most 3*2^-53, never downwards.", "quantifier": "every population, total and index", "why_tests_cant": "a sampling test cannot bound a probability for all weights", "anchors": ["src/operators/selection.rs:RouletteWheelSelection::select"]}
{"id": "C71", "title": "set_arg_min and set_arg_max", "statement": "On PopulatedStats, set_arg_min/set_arg_max panic exactly when the index is not below count; otherwise they change only that index.", "quantifier": "every statistics value and index", "why_tests_cant": "all values", "anchors": ["src/stats.rs:PopulatedStats::set_arg_min", "src/stats.rs:PopulatedStats::set_arg_max"]}
{"id": "C72", "title": "NaN samples poison the statistics", "statement": "A NaN sample makes avg NaN for good and, with at least two samples, var and std NaN; a NaN first sample also makes min and max NaN with arg 0, whatever follows.", "quantifier": "every sequence with a NaN", "why_tests_cant": "all positions of the NaN", "anchors": ["src/stats.rs:Stats::record", "src/stats.rs:Stats::from_iter"]}
{"id": "C73", "title": "Construction does not lose the best individual", "statement": "The fittest individual of a population built from a vector is at least as fit as every individual of the vector, provided equal individuals have equal fitness; if equality ignores part of the fitness the better of two equal individuals may be dropped.", "quantifier": "every vector with non-NaN fitness; existence", "why_tests_cant": "depends on the interplay of the sort's order and the user's PartialEq", "anchors": ["src/population.rs:sort_dedup_and_collect_stats", "src/population.rs:Population::fittest"]}
{"id": "C74", "title": "Rates are probabilities", "statement": "With independent uniform draws, breed mutates with probability the mutation rate (rounded up to a multiple of 2^-53) and crosses over with probability the crossover rate (rounded likewise) times the probability that a distinct second parent is found in three selections.", "quantifier": "every rate in [0,1], population, model and selection mechanism", "why_tests_cant": "a statement about probabilities", "anchors": ["src/model.rs:EvolutionModel::breed"]}
{"id": "C75", "title": "Model invariants hold throughout a run", "statement": "If a condition is kept by the model's crossover (on evaluated parents), mutate and improve, and evaluation additionally establishes a second condition, then every individual of every population shown to the progress closure and every returned individual satisfies both, for run, evolve_individual and evolve_population.", "quantifier": "every model, pair of conditions, parameters and execution", "why_tests_cant": "histories of any length over any model", "anchors": ["src/evolution.rs:Evolution::run", "src/model.rs:EvolutionModel::breed"]}
{"id": "C76", "title": "OneMax never invents a bit value", "statement": "A OneMax run never contains a bit value that no initial genome has; in particular evolve_individual on an all-ones or all-zeros seed can only return that genome.", "quantifier": "every run", "why_tests_cant": "reachability over all histories", "anchors": ["src/lib.rs:one_max::OneMaxEvolutionModel::mutate", "src/lib.rs:one_max::OneMaxEvolutionModel::crossover"]}
{"id": "C77", "title": "Scramble mutation shuffles its run uniformly", "statement": "On distinct genes scramble mutation picks the length of the run uniformly in 2..n, its start uniformly, and every order of the run's genes with equal probability; so the genome stays unchanged with probability (1/2! + ... + 1/n!)/(n-1).", "quantifier": "every genome of distinct genes and every result", "why_tests_cant": "a statement about probabilities", "anchors": ["src/operators/mutation.rs:scramble_mutation"]}
{"id": "C78", "title": "What happens in each generation", "statement": "In every run, for each population shown but the last: the rates are set (GA: left as configured; AGA: the ends of the ranges at generation 0, then at each multiple of the interval the point given by the deviation relative to that of generation 0), pre_generation is called once on the current model and parameters, the selection mechanism is prepared once on that population, and the next population consists of the elites - the fittest elite_count individuals - and of individuals bred from that population with exactly these parameters, as many as missing (none if one is missing). The first population consists of the valid initial individuals.", "quantifier": "every run, model, parameters, closure and execution", "why_tests_cant": "histories of any length; the order of the steps is not visible in results", "anchors": ["src/evolution.rs:evolve_population", "src/algorithms/ga.rs:prepare_for_next_population", "src/algorithms/aga.rs:prepare_for_next_population", "src/algorithms.rs:generate_new_population"]}
{"id": "C79", "title": "Boltzmann cools once per generation of a run", "statement": "In a run with the Boltzmann strategy the offspring of generation k are bred at temperature * cooling_rate^(k+1) (k+1 float multiplications), with weights relative to the total of generation k at that temperature; after the run the mechanism has cooled once per generation bred.", "quantifier": "every run, temperature and cooling rate", "why_tests_cant": "all histories", "anchors": ["src/operators/selection.rs:BoltzmannSelection::prepare", "src/evolution.rs:evolve_population"]}
{"id": "C80", "title": "Without variation nothing new appears", "statement": "With crossover and mutation rates 0 (GA) or ranges 0..0 (AGA), a model without local search and with repeatable evaluation, every individual of every population of a run is in its first population.", "quantifier": "every run, model, selection strategy and execution", "why_tests_cant": "all histories; a comparison with <= instead of < would mutate only when a draw is exactly 0", "anchors": ["src/model.rs:EvolutionModel::breed", "src/evolution.rs:evolve_population"]}
{"id": "C81", "title": "A run without a valid individual panics", "statement": "If no initial individual is valid after evaluation - in particular if there is none - every call of evolve_population, run and evolve_individual panics before the progress closure is called; so does every call of run and evolve_individual with population size 0.", "quantifier": "every model, parameters and closure", "why_tests_cant": "all models and parameters", "anchors": ["src/evolution.rs:evolve_population", "src/evolution.rs:run", "src/evolution.rs:evolve_individual", "src/algorithms.rs:initialize_population"]}
{"id": "C82", "title": "Wheel selection shares are accurate", "statement": "After prepare, for at most 2^49 individuals with finite non-negative weights whose total is between 2^-899 and 2^1022, roulette wheel and Boltzmann selection pick each individual with probability within n * 2^-49 of its exact share weight / total, no matter how rayon brackets the parallel sum; Boltzmann weights are the values exp returns for fitness / (temperature * coefficient).", "quantifier": "every population, index, exp function and bracketing of the sum", "why_tests_cant": "probabilities and all schedules", "anchors": ["src/operators/selection.rs:RouletteWheelSelection", "src/operators/selection.rs:BoltzmannSelection"]}
{"id": "C83", "title": "Streaming average and variance are accurate", "statement": "For n finite values bounded by M in magnitude, the reported average is within (n + 4)(2^-53 M + 2^-1075) of the exact mean (n at most 2^53, M at most 2^1021) and the reported variance is within 16 (n + 4)(2^-53 M^2 + 2^-1075 (M + 1)) of the exact sample variance (n from 2 to 2^51, M at most 2^480).", "quantifier": "every list of finite f64 values", "why_tests_cant": "rounding error over all inputs", "anchors": ["src/stats.rs:Stats"]}
{"id": "C84", "title": "Linear selection shares", "statement": "Linear selection with a bias in (1,2] over n individuals (n at most 2^53) picks the individual at index i (sorted from worst to best) with probability within 2^-47/(bias-1) of (bias*n - (bias-1)(2(n-1-i)+1))/n^2; the k best together get bias*t - (bias-1)*t^2 for t = k/n within 2^-48/(bias-1); the out-of-range panic has at most the probability 2^-48/(bias-1).", "quantifier": "every population, bias and index", "why_tests_cant": "a statement about probabilities with rounding", "anchors": ["src/operators/selection.rs:LinearSelection::select"]}
{"id": "C85", "title": "Runs can reach what improving mutations lead to", "statement": "A GA with crossover rate below 1, mutation rate above 0, at least three non-elite places and at most 2^20 individuals, a model with the default pre_generation, and a rank-based strategy (Tournament, Rank, Elitist, Linear with bias in [1+2^-10, 2]) has, for every goal reachable from each fittest valid initial individual by a chain of improving mutations, an execution that reaches the goal. For OneMax (also with roulette wheel selection) every initial population or seed with at least one set bit has an execution that finds the all-ones genome.", "quantifier": "every model, goal, initial population, parameters; every genome length up to 2^53", "why_tests_cant": "absence of a solution in sampled runs does not show unreachability, and reachability for all sizes needs induction", "anchors": ["src/evolution.rs:evolve_population", "src/model.rs:EvolutionModel::breed", "src/operators/selection.rs", "src/lib.rs:one_max"]}
{"id": "C86", "title": "Crossover of arbitrary parents", "statement": "Whatever the parents (repeated genes, different gene sets), a crossover that returns uses only genes of the parents; every strategy but GPX2 returns as many genes as each parent has; GPX2, SCX and ERX never repeat a gene; CX and single point take each gene from the same position of a parent; PMX keeps parent 1 inside the range and follows the mapping chains outside; OX fills the rest, after the range and cyclically, with parent 2's genes not in the range, over and over. SCX and ERX always panic when the parents have fewer different genes than positions.", "quantifier": "every pair of gene lists, range, pivot and execution", "why_tests_cant": "unbounded input space; the documentation only speaks of permutations", "anchors": ["src/operators/crossover.rs:crossover", "src/operators/crossover.rs:partially_mapped_crossover", "src/operators/crossover.rs:order_crossover", "src/operators/crossover.rs:sequential_constructive_crossover", "src/operators/crossover.rs:edge_recombination_crossover", "src/operators/crossover.rs:cycle_crossover", "src/operators/crossover.rs:single_point_crossover"]}
{"id": "C87", "title": "Which crossovers terminate", "statement": "GPX2 (with its random selector), SCX, ERX, CX and single point come to an end, possibly by panic, on all parents. PMX ends exactly when every mapping chain starting outside the range ends, and OX exactly when the range is everything or parent 2 has a gene outside parent 1's range; otherwise they loop forever.", "quantifier": "every pair of gene lists of equal length and range", "why_tests_cant": "a test cannot tell a slow loop from an endless one", "anchors": ["src/operators/crossover.rs:partially_mapped_crossover", "src/operators/crossover.rs:order_crossover", "src/operators/crossover.rs:cycle_crossover", "src/operators/crossover.rs:crossover"]}
{"id": "C88", "title": "A genome crossed with itself keeps the tour", "statement": "For a genome of distinct genes crossed with itself, every strategy returns the same closed tour: the genome read cyclically from some position, forwards or backwards. SCX returns it turned to the pivot, ERX turned to the pivot in one of the two directions.", "quantifier": "every genome, strategy, pivot, selector and execution", "why_tests_cant": "all genomes and all HashSet orders", "anchors": ["src/operators/crossover.rs:crossover", "src/operators/crossover.rs:sequential_constructive_crossover", "src/operators/crossover.rs:edge_recombination_crossover", "src/operators/crossover.rs:generalized_partition_2_crossover"]}
{"id": "C89", "title": "An adaptive run can freeze", "statement": "In a run of the adaptive algorithm whose first population has one fitness value only (for example a single valid individual), once an adjustment meets a population that again has one fitness value only, the run is frozen: if local search does nothing and evaluation is repeatable, no later generation holds an individual that this one did not hold, whatever the rate ranges.", "quantifier": "every run, model, rate ranges, closure and draws", "why_tests_cant": "an absorbing state is a statement about all continuations", "anchors": ["src/algorithms/aga.rs:prepare_for_next_population", "src/model.rs:EvolutionModel::breed", "src/stats.rs:PopulatedStats::std"]}
{"id": "C90", "title": "An algorithm with the default select_elites never loses its best", "statement": "For every algorithm a user writes (any configure, prepare_for_next_population and parameters) that does not override select_elites and whose selection mechanism selects members of the population, and every progress closure, the best fitness never decreases from one generation to the next; run and evolve_individual return the fittest individual shown, which is at least as fit as every valid initial individual.", "quantifier": "every algorithm, model, closure and execution", "why_tests_cant": "user-written implementations of the trait cannot be enumerated", "anchors": ["src/algorithms.rs:Algorithm::select_elites", "src/algorithms.rs:generate_new_population", "src/evolution.rs:evolve_population", "src/evolution.rs:run", "src/evolution.rs:evolve_individual"]}
{"id": "C91", "title": "A single missing individual stops evolution", "statement": "Because a single missing individual is bred and then dropped (C58), an algorithm with the default select_elites and a target size of at most 2 shows only the fittest initial individual from generation 1 on; and a GA or AGA with population_size * elitism_rate >= population_size - 1 whose first population holds at least population_size - 1 pairwise different individuals shows exactly its initial elites in every later generation.", "quantifier": "every run, model, parameters, closure and draws", "why_tests_cant": "stagnation is a statement about all continuations of all runs", "anchors": ["src/algorithms.rs:generate_new_population", "src/algorithms/ga.rs:select_elites", "src/algorithms/aga.rs:select_elites"]}
{"id": "C92", "title": "An elitist GA finds the goal with probability 1, within an explicit bound", "statement": "Take a GA with accepted parameters, crossover_rate < 1, mutation_rate > 0, 1 <= population_size * elitism_rate <= population_size - 3, sizes up to 2^20 and a tournament, rank, elitist or linear (bias >= 1 + 2^-10) selection strategy, run until a goal individual appears. If from every non-goal level mutation raises the level of an individual with probability at least eps, and levels are ordered as fitness is, then the run ends with a goal individual within g+1 generations with probability at least 1 - L * 4 * N / ((1 - crossover_rate) * mutation_rate * eps) / (g+1), L levels and N the larger of population_size and the initial size: the run finds the goal almost surely. For OneMax with n genes (also under roulette wheel selection and the default parameters) L = n - 1 and eps = 1/n; from random individuals the bound is multiplied by 1 - 2^-(n * population_size), the probability that not every initial gene is 0.", "quantifier": "every model, parameters, initial population, number of generations, state", "why_tests_cant": "a lower bound on a probability over unboundedly many random draws, for every parameter choice", "anchors": ["src/algorithms/ga.rs:select_elites", "src/evolution.rs:evolve_population", "src/model.rs:breed", "src/operators/selection.rs:SelectionStrategy", "src/lib.rs:OneMax example"]}
{"id": "C93", "title": "The crossover strategies draw their parameters uniformly", "statement": "CrossoverStrategy::crossover: single point cuts at each of the n positions with probability 1/n; PMX and OX use a range of length uniform in 1..=n and then a uniform start; SCX and ERX start from each gene of parent1 with probability 1/n, so on permutation parents each gene is the first of the offspring with probability 1/n; GPX2 arranges the k common partitions in each of their k! orders with probability 1/k!.", "quantifier": "all genomes, all strategies, every event", "why_tests_cant": "an exact distribution over all draws, for all lengths", "anchors": ["src/operators/crossover.rs:CrossoverStrategy::crossover", "src/operators.rs:random_range"]}
{"id": "C94", "title": "The possible results of breed, exactly", "statement": "An individual can be bred if and only if: a first parent can be selected; a second one, different from it, can be selected when the population has two or more individuals and the crossover rate is positive, or there is none because the population has one individual, the crossover rate is below 1 (or NaN), or the selection finds only individuals equal to the first parent; the offspring is the crossover of first and second parent in this order, or the first parent; it is mutated (only if the mutation rate is positive, always if it is 1 or more), improved and evaluated; the result is that offspring if it is valid and can_survive accepts it against the fitter parent (the first one on a tie), and that parent otherwise.", "quantifier": "every model, population, breeding parameters, individual", "why_tests_cant": "both directions over all draws and all user-provided methods", "anchors": ["src/model.rs:breed", "src/operators/selection.rs:select_distinct"]}
{"id": "C95", "title": "A run started from the progress closure takes over the run around it", "statement": "If the progress closure, shown generation g, runs evolve_population with other parameters on the same Evolution value, then the outer run continues with the configuration of the inner one: its populations have at most population_size individuals of the outer parameters up to generation g and of the inner parameters afterwards (GA and AGA), and these can be more than the outer run was configured for.", "quantifier": "every model, parameters, closures, generation g, draws", "why_tests_cant": "re-entrancy over all runs", "anchors": ["src/evolution.rs:evolve_population", "src/algorithms/ga.rs:configure", "src/algorithms/aga.rs:configure"]}
{"id": "C96", "title": "An elitist adaptive GA with a diverse start finds the goal with probability 1", "statement": "Take the adaptive algorithm with accepted parameters, ranges that start at or below their end, a crossover range ending below 1 - 2^-53, a mutation range starting above 0, 1 <= population_size * elitism_rate <= population_size - 3, sizes up to 2^20 and a tournament, rank, elitist or linear (bias >= 1 + 2^-10) strategy, run until a goal individual appears. If the rates are never adjusted, or fitness is finite and at most 2^1021 in magnitude and the first population has a positive deviation, then, with levels as in C92, the run ends with a goal individual within g+1 generations with probability at least 1 - L * 4 * N / ((1 - crossover end - 2^-53) * mutation start * eps) / (g+1). For OneMax (also with roulette wheel selection) two initial genomes with different numbers of ones are enough. Without a diverse start it is false: see C89.", "quantifier": "every model, parameters, initial population, number of generations, state", "why_tests_cant": "a lower bound on a probability over unboundedly many draws while the rates change with the population's deviation", "anchors": ["src/algorithms/aga.rs:prepare_for_next_population", "src/algorithms/aga.rs:select_elites", "src/evolution.rs:evolve_population", "src/model.rs:breed", "src/lib.rs:OneMax example"]}
{"id": "C97", "title": "Overflow checks and the width of usize", "statement": "On usize of w bits: rank selection of n individuals with n(n+1) < 2^w is the selection of C32 in every build; with n(n+1) >= 2^w it always panics in a build with overflow checks, and in a release build the total wraps: the fittest individual is never selected, individual i (from the worst) exactly if i(i+1)/2 is below the wrapped total; for 2^h individuals on 2h bits (65536 on 32 bits) exactly if i(i+1) < 2^h, so only about the 256 least fit of 65536. Linear selection behaves the same in every 64-bit build. bounded_random_range with max_len > n panics in checked builds when the drawn length exceeds n; release builds never panic and return ranges that end beyond n or before their start.", "quantifier": "all widths, populations, lengths and draws", "why_tests_cant": "a population large enough to overflow cannot be tested on the developer's machine, and debug and release differ", "anchors": ["src/operators/selection.rs:RankSelection::select", "src/operators/selection.rs:LinearSelection::select", "src/operators.rs:bounded_random_range"]}
{"id": "C98", "title": "A cooled-down Boltzmann run breeds from the least fit individual only", "statement": "In every GA or AGA run with Boltzmann(temperature, cooling_rate), 0 < cooling_rate < 1, temperature > 0 and all valid fitness values at least a >= 2^-1000: from any generation K with temperature * (cooling_rate * (1 + 2^-53))^(K+1) * 710 <= a on, the next population consists of the elites and of individuals bred from the least fit individual alone, without crossover: every event of breeding has the probability it has when that individual is the only parent, up to 2^-51. Such a K exists for all these parameters (with temperature 1000, cooling rate 1/2 and fitness at least 1 it is 20). The documentation says that low temperatures favour the fitter individuals.", "quantifier": "every run, model, parameters, closure and execution; every exp function that overflows at 710 and above", "why_tests_cant": "a statement about all runs and about probabilities; the generation where it starts depends on all parameters", "anchors": ["src/operators/selection.rs:BoltzmannSelection", "src/evolution.rs:evolve_population", "src/model.rs:breed"]}
{"id": "C99", "title": "Population to Vec and back", "statement": "Converting a population into a Vec gives its individuals in ascending order of fitness (the last one is a maximum), none lost or added. If all fitness values are different, converting the Vec back gives a population with the same individuals and statistics and with counters 0. With equal fitness values the way back may lose individuals: the order among them is open, so copies that were apart may meet.", "quantifier": "every population, all sort orders; existence of a loss", "why_tests_cant": "depends on the order an unstable sort leaves among ties", "anchors": ["src/population.rs:TryFrom<Vec<I>> for Population", "src/population.rs:From<Population> for Vec"]}
{"id": "C100", "title": "Every schedule of the worker threads and every generator is covered", "statement": "Model of the parallel loops: jobs that cut the index range, a pool of generators, generators with a hidden state, workers taking turns in any order. Whatever they do, a loop yields a result that the sequential model allows, panics only if that may, can always be finished and never runs forever. A guarantee proved for a run of the model (it returns, does not panic, its result satisfies Q) holds on any number of threads, for every schedule and every generator whose draws are in range; a result or panic on threads is one of the model's, and every result and every panic of the model, for run and evolve_individual, is that of some generator and schedule.", "quantifier": "all models, algorithms, closures, thread counts, cuts, interleavings, generators", "why_tests_cant": "interleavings cannot be enumerated by tests", "anchors": ["src/algorithms.rs:generate_new_population", "src/model.rs:extend_population", "src/model.rs:extend_population_with", "src/evolution.rs:evolve_population"]}
{"id": "C101", "title": "A seeded M::rng neither reproduces runs nor gives a diverse start", "statement": "If M::rng always returns the same generator, then in the initial filling all rayon jobs create the same individuals: the k-th individuals of any two jobs are equal, at most as many different individuals appear as the longest job has, and if every job has one index the first population has one individual. The result depends on how rayon cuts the range only, not on the interleaving; but it does depend on the cut, so two runs with the same seed may return different individuals, and breeding depends on the order in which workers take generators out of the pool.", "quantifier": "every generator, cut and schedule; existence of differing runs", "why_tests_cant": "schedules differ between test machines and load", "anchors": ["src/model.rs:EvolutionModel::rng", "src/model.rs:extend_population", "src/model.rs:extend_population_with", "src/algorithms.rs:generate_new_population", "src/evolution.rs:evolve_population"]}
{"id": "C102", "title": "Zeros in a parallel sum do not matter", "statement": "RouletteWheel and Boltzmann add up the weights with rayon's sum, which starts partial sums from 0.0 or -0.0, at any place, depending on versions and on how the work is cut. Whatever bracketing of the weights in their order and whatever zeros of either sign are put in, the total is one the model allows up to the sign of zero, and the sign of a zero total has no influence on what select and breed do.", "quantifier": "every population, bracketing, number and sign of zeros, exp function", "why_tests_cant": "versions of std and rayon and the cutting of work differ between machines", "anchors": ["src/operators/selection.rs:RouletteWheelSelection", "src/operators/selection.rs:BoltzmannSelection", "src/model.rs:breed"]}
{"id": "C103", "title": "What a rejected configuration leaves behind", "statement": "If configure panics and the panic is caught: with an invalid number (population_size 0, a rate or ratio out of range) the algorithm is unchanged. With valid numbers and a selection strategy that is rejected the algorithm keeps its old selection mechanism and model but has the new population size, elite count and rates (GA) or rate ranges and interval (AGA). Later runs do not notice. But a run in progress whose closure starts such a run and catches the panic goes on with the rejected population size, so it can show more individuals than it was configured for; with an invalid number it goes on as if nothing had happened.", "quantifier": "every state, parameters, model, closure, generation and draws; existence of an oversized population", "why_tests_cant": "panic safety over all states and all continuations", "anchors": ["src/algorithms/ga.rs:configure", "src/algorithms/aga.rs:configure", "src/operators/selection.rs:create_selector", "src/evolution.rs:evolve_population"]}
{"id": "C104", "title": "Runs within runs and the RefCell", "statement": "Evolution keeps the algorithm in a RefCell and every method takes &self. A progress closure may start runs on the same value, whose closures may again do so, at any depth, with panics caught or not: no such run ever meets a borrow error, everything happens as in the model without borrows, and no borrow is left behind, so the value stays usable after a panic. Model and individual methods, in contrast, are always called under a borrow: evolve_population started from one panics at once and without effect, run and evolve_individual panic at the latest when the initial individuals exist, and at once within configure and pre_generation. So a model whose evaluate starts a run can finish no run, and one whose pre_generation does only runs that are stopped at generation 0.", "quantifier": "all models, algorithms, closures, user code, depths of nesting, panics and draws", "why_tests_cant": "re-entrancy at every depth and after every panic cannot be enumerated", "anchors": ["src/evolution.rs:run", "src/evolution.rs:evolve_individual", "src/evolution.rs:evolve_population"]}
{"id": "C105", "title": "interpolate_usize between any two numbers", "statement": "interpolate_usize(min, max, ratio) with min <= max <= 2^53 and a ratio in [0,1] returns a number between min and max that is not less than the exact value rounded down and exceeds the exact value by at most one part in 2^51; it is min for ratio 0 and max for ratio 1. For all min <= max it never decreases when the ratio grows, and it is 0 for NaN. Beyond 2^53 it can be less than min. With min > max it panics in a build with overflow checks for every ratio; in a 64-bit build without them it returns a number that is at least min and at least 2^63 times the ratio.", "quantifier": "all numbers and all ratios in [0,1], both kinds of builds", "why_tests_cant": "rounding of all 2^62 ratios times all pairs of bounds", "anchors": ["src/lib.rs:interpolate_usize"]}
{"id": "C106", "title": "Selection favours the fitter", "statement": "For every fitness value t, an individual selected by tournament, rank or elitist selection from a population sorted by fitness reaches t at least as often as an individual taken uniformly from the population does; a larger tournament reaches t at least as often as a smaller one. Linear, roulette-wheel (fitness values not negative) and Boltzmann selection do so up to a stated rounding error. Boltzmann selection can do the opposite when the scaled fitness values overflow: it can then select an unfit individual more often than a uniform choice would.", "quantifier": "all sorted populations, all thresholds, all strategies and their parameters", "why_tests_cant": "distributions over all populations; a bias of one part in 2^48 cannot be sampled", "anchors": ["src/operators/selection.rs:Tournament::select", "src/operators/selection.rs:Rank::select", "src/operators/selection.rs:Elitist::select", "src/operators/selection.rs:Linear::select", "src/operators/selection.rs:RouletteWheel::select", "src/operators/selection.rs:Boltzmann::select"]}
{"id": "C107", "title": "New individuals are independent", "statement": "The children of a generation, the random individuals of a first population and the mutated copies of a seed are independent of each other: for any list of properties, the probability that the new individuals have them one by one is the product of the probabilities that one new individual has each; in particular all of k children have a property with the k-th power of its probability for one.", "quantifier": "all models, populations and properties, provided that breeding does not panic", "why_tests_cant": "a joint distribution over all populations cannot be sampled", "anchors": ["src/algorithms.rs:generate_new_population", "src/model.rs:extend_population", "src/model.rs:extend_population_with"]}
{"id": "C108", "title": "What repeated mutation can reach", "statement": "Applying one of the permutation mutations (swap, scramble, inversion, insertion) again and again can turn a genome into every rearrangement of its genes, with at most n - 1 mutations, and into nothing else; scramble needs one. Duplicate mutation can turn a genome into every list of its length that is made of its genes and has a gene at two positions, with at most 2n mutations, and besides the genome itself into nothing else.", "quantifier": "every genome, every target, every number of mutations", "why_tests_cant": "reachability over all sequences of mutations; a mutation that never touches one position, or never moves a gene by more than some distance, passes tests that look at single results", "anchors": ["src/operators/mutation.rs:swap_mutation", "src/operators/mutation.rs:scramble_mutation", "src/operators/mutation.rs:inversion_mutation", "src/operators/mutation.rs:insertion_mutation", "src/operators/mutation.rs:duplicate_mutation", "src/operators/mutation.rs:MutationStrategy::mutate"]}
{"id": "C109", "title": "Searching for a best tour", "statement": "A model over permutations that uses a permutation crossover strategy, scramble mutation, any score as fitness and defaults otherwise finds a tour as fit as any given tour with probability 1 when run with an elitist GA (or adaptive GA with a diverse start) with a rank-based strategy until it appears; within g generations it fails with probability at most generations/g for an explicit bound that depends on the sizes, the rates and the number of cities only. With swap, inversion or insertion mutation this is false: for some scores a run from one tour never ends and never panics although a fitter tour exists. More generally, from copies of an individual that mutation cannot leave for a valid individual that survives beside it, no run of either algorithm shows anything else.", "quantifier": "every set of cities, score, crossover strategy, parameters, closure and execution", "why_tests_cant": "a statement about probabilities and about endless runs, over all scores", "anchors": ["src/operators/mutation.rs:scramble_mutation", "src/operators/mutation.rs:MutationStrategy::mutate", "src/operators/crossover.rs:CrossoverStrategy::crossover", "src/model.rs:EvolutionModel::breed", "src/model.rs:EvolutionModel::can_survive", "src/evolution.rs:evolve_population", "src/algorithms/ga.rs:GeneticAlgorithm", "src/algorithms/aga.rs:AdaptiveGeneticAlgorithm"]}
{"id": "C110", "title": "The stagnation counter and runs that stop on it", "statement": "In a run of the GA or the adaptive GA with at least one elite, the population of generation k, whose stagnation counter is c, satisfies c <= k, and generation k - c is the first generation whose best individual is as fit as the best of generation k. A run with the closure |p| p.stagnation() < n returns a population whose counter is exactly n. With at least one elite and total operators, every run whose closure answers false at the latest when the counter reaches n ends, within n times the number of distinct fitness values; there is one such bound for all programs. Without an elite both statements fail: the counter can be 0 although an earlier generation was fitter, and no number of generations is enough for all executions.", "quantifier": "every individual type, model, closure of the stated kind, accepted parameters, initial population and execution", "why_tests_cant": "The counter compares consecutive generations only; that it measures the age of the best fitness, and that a stopping rule based on it always fires, are statements about runs of every length and about all executions.", "anchors": ["src/population.rs:Population::stagnation", "src/population.rs:Population::replace", "src/evolution.rs:Evolution::evolve_population", "src/algorithms/ga.rs:GeneticAlgorithm::select_elites", "src/algorithms/aga.rs:AdaptiveGeneticAlgorithm::select_elites"]}
{"id": "C111", "title": "What crossover keeps, and runs without mutation", "statement": "A gene that both parents have at a position is at that position in every offspring of cycle and single-point crossover (any parents) and of PMX (parent1 without repeated genes); the other strategies do not keep it, and PMX can put a gene at a position where neither parent has it. In a GA run whose mutation rate is not above 0 (an adaptive run whose mutation rate range has no end above 0) every individual keeps whatever crossover, local search and evaluation keep, whatever mutate does: a position at which all initial tours agree stays as it is with CX, SPX and PMX, a gene that no initial tour has at a position never gets there with CX and SPX, and a bit all initial OneMax genomes share stays shared. With OX the agreement can be lost and with PMX a new gene can get to the position.", "quantifier": "every model, run, closure and draws; every pair of parents, strategy and draw", "why_tests_cant": "a loss of diversity that no continuation of any run repairs cannot be sampled", "anchors": ["src/operators/crossover.rs:partially_mapped_crossover", "src/operators/crossover.rs:cycle_crossover", "src/operators/crossover.rs:single_point_crossover", "src/model.rs:EvolutionModel::breed", "src/algorithms/aga.rs:prepare_for_next_population"]}
{"id": "C112", "title": "Displayed statistics", "statement": "format! of a Stats is the empty text exactly when there are no samples, and otherwise that of its snapshot: six fields Samples, Min, Max, Average, Variance, STD in this order, separated by semicolons, the five numbers written with the precision asked for (or none). No other option (width, fill, alignment, sign) has an effect, not even padding. Equal texts come from equal counts and numbers that are written the same; without precision the text determines the count and the five numbers.", "quantifier": "every statistics value, every format option, every way of writing an f64 without semicolon (for the last claim, a lossless one)", "why_tests_cant": "all values and options; the text of one example is a test", "anchors": ["src/stats.rs:Display for Stats", "src/stats.rs:Display for PopulatedStats"]}
{"id": "C113", "title": "Runs depend on the order of fitness values only, with strategies that go by rank", "statement": "Take two models whose operations do the same on related individuals and whose fitness values compare the same (for example one fitness is a strictly increasing function of the other). With tournament, rank, linear or elitist selection a GA (also an adaptive GA with adjustment interval 0) runs alike on both: the same draws give related individuals at the same positions, the same counters, the same result; so probabilities agree. The default improve, pre_generation and can_survive meet what is asked of the operations. With roulette wheel or Boltzmann selection, or with adjusted rates, this is false. If the fitness values themselves are equal it holds for all strategies and both algorithms, statistics included.", "quantifier": "all models, relations, parameters, closures that look at the compared parts only, draws; existence for the refutations", "why_tests_cant": "a relation between two whole runs for all draws", "anchors": ["src/operators/selection.rs:SelectionMechanism", "src/algorithms/ga.rs:GeneticAlgorithm", "src/algorithms/aga.rs:AdaptiveGeneticAlgorithm", "src/evolution.rs:evolve_population"]}
{"id": "C114", "title": "The names of genes do not matter", "statement": "Renaming the genes of both parents by an injective function renames the offspring of every crossover strategy and the common partitions, draw by draw, whatever total order the old and the new genes have (the order is used by GPX2 only, to write down pairs). If the order is not total, as PartialOrd permits, common_partitions can depend on it. Mutations commute with every function on genes. Runs of GA and adaptive GA on tours commute with renaming of the cities.", "quantifier": "all gene types, renamings, orders, parents, strategies, draws", "why_tests_cant": "an equation between the results for all inputs and renamings", "anchors": ["src/operators/crossover.rs:crossover", "src/operators.rs:common_partitions", "src/operators/mutation.rs:mutate", "src/evolution.rs:evolve_population"]}
{"id": "C115", "title": "How often user code is called", "statement": "Every run of run, evolve_individual or evolve_population that returns calls evaluate exactly once for each initial individual (valid or not) and, per generation, exactly once for each place the elites leave free, population_size minus min(elites, population length); improve exactly once per such place; crossover, mutate and can_survive at most once per such place (crossover never when the population has one individual); pre_generation exactly once per generation; run calls new_random population_size times and evolve_individual mutates its seed population_size - 1 times. Elites are never evaluated again. So with g generations a GA started by run evaluates at least population_size + g * (population_size - elites) and at most population_size * (g + 1) times. One breeding calls improve and evaluate once and the others at most once.", "quantifier": "all models, selection strategies, closures that do not use the Evolution value, parameters, numbers of generations and draws that end in a normal return", "why_tests_cant": "a count over all executions of runs of every length", "anchors": ["src/model.rs:breed", "src/model.rs:extend_population", "src/model.rs:extend_population_with", "src/algorithms.rs:generate_new_population", "src/algorithms.rs:initialize_population", "src/evolution.rs:evolve_population"]}
{"id": "C116", "title": "How much of a tour a mutation keeps", "statement": "Read as a tour, a genome has one step per position (the last leads back to the first). After one mutation all but a fixed number of these steps are still between neighbours, in one direction or the other: swap breaks at most 4, insertion 3, inversion 2, duplicate 2, whatever the length and the draws and also with repeated genes; scramble can break all. No smaller number is right for any of the five.", "quantifier": "all strategies, genomes of any gene type and length, draws", "why_tests_cant": "a bound over every length of genome and every draw", "anchors": ["src/operators/mutation.rs:swap_mutation", "src/operators/mutation.rs:inversion_mutation", "src/operators/mutation.rs:insertion_mutation", "src/operators/mutation.rs:duplicate_mutation", "src/operators/mutation.rs:scramble_mutation"]}
{"id": "C117", "title": "Common neighbours measure the distance of tours", "statement": "For two orders of the same three or more different genes the length of common_neighbors is the number of steps the tours share: each pair is listed once, the order of the arguments only changes the order of the list, the length is the number of genes exactly when the tours are the same up to the starting position and the direction, it is never one less, the number of steps not shared obeys the triangle inequality, and k mutations with a permutation strategy raise it by at most k times the number of C116.", "quantifier": "all genomes of different genes of any length >= 3, all total orders, all strategies but Duplicate, all numbers of mutations and draws", "why_tests_cant": "statements about all pairs and triples of permutations", "anchors": ["src/operators.rs:common_neighbors", "src/operators/mutation.rs:mutate"]}
{"id": "C118", "title": "GPX2 keeps the steps its parents share", "statement": "Of the steps that both parents take (pairs of genes that are neighbours in both tours), a GPX2 offspring lacks at most one, whatever the partition selector does; it lacks none when the first and the last gene of parent1 are not neighbours in parent2. So the offspring has with each parent at least as many common neighbours as the parents have with each other, minus one. That all shared steps are kept is refuted (the run through the end of parent1 can be cut), and SCX, ERX, PMX, OX and CX can each lose two or more.", "quantifier": "all parents of different genes (at least 3), all total orders, all valid selectors with any state, draws", "why_tests_cant": "all permutations, selectors and draws; a sample of offspring rarely shows a lost step", "anchors": ["src/operators/crossover.rs:generalized_partition_2_crossover", "src/operators.rs:common_partitions", "src/operators.rs:common_neighbors", "src/operators/crossover.rs:crossover"]}
{"id": "C119", "title": "What repeated permutation mutation does to an order", "statement": "Mutating a genome whose order is uniform among all orders of its genes, any number of times with swap, scramble, inversion or insertion, gives a uniform order again: mutation alone prefers no order. From any fixed order, repeated scrambling, inversion (4 genes or more) and insertion (3 or more) tend to the uniform distribution over all orders, so the start is forgotten. Repeated swapping (and inversion of 2 or 3 genes, insertion of 2) never does: the parity of the number of mutations decides which half of the orders can come out, and an event exists that is certain after an even and impossible after an odd number of mutations.", "quantifier": "all genomes of any gene type (with repeated genes for the first two claims), all strategies but Duplicate, all numbers of mutations, all events", "why_tests_cant": "exact distributions over all starting orders and a limit over all numbers of mutations", "anchors": ["src/operators/mutation.rs:swap_mutation", "src/operators/mutation.rs:scramble_mutation", "src/operators/mutation.rs:inversion_mutation", "src/operators/mutation.rs:insertion_mutation"]}
{"id": "C120", "title": "Repeated duplicate mutation drifts to copies of one gene", "statement": "Duplicate mutation favours no gene: however often a genome is mutated, the expected number of its genes of any kind is what it was at the start. Still diversity is lost: after k mutations of n genes the genes are not all the same with probability at most (1 - n^-(n-1))^floor(k/(n-1)), which tends to 0. The probability that only genes of a given kind are left never exceeds the share of this kind at the start, differs from it by at most this bound and tends to it.", "quantifier": "all genomes of two or more genes of any type with equality, all kinds of genes, all numbers of mutations", "why_tests_cant": "expected values and limits over all sequences of draws", "anchors": ["src/operators/mutation.rs:duplicate_mutation"]}
{"id": "C121", "title": "Crossing the two children gives the parents back", "statement": "Cross two parents in both orders with cycle crossover, with single-point crossover at the same point, or with partially-mapped crossover on the same range, and cross the two children in the same way: the result is the parents again, so nothing of the pair is lost. With cycle and single-point crossover the two children have at every position the two genes of the parents there. Order crossover has no such way back (proved: a pair of parents and a range).", "quantifier": "all permutation parents (single point: all genomes of equal length), all points and ranges", "why_tests_cant": "it relates three calls on every pair of parents and every range", "anchors": ["src/operators/crossover.rs:cycle_crossover", "src/operators/crossover.rs:single_point_crossover", "src/operators/crossover.rs:partially_mapped_crossover", "src/operators/crossover.rs:order_crossover"]}
{"id": "C122", "title": "The share of each parent in the offspring", "statement": "Single-point crossover of n genes takes position i from parent1 with probability (n-1-i)/n (the last gene is always that of parent2) and separates positions i < j with probability (j-i)/n, always with parent1 at i and parent2 at j. The range of random_range contains position i with a probability that is the same from both ends, does not fall towards the middle and is H_n/n at the ends; on average it holds (n+1)/2 positions. So partially-mapped and order crossover leave the gene of parent1 at position i at least that often, and on average at more than half of the positions.", "quantifier": "all lengths and positions, all parents of equal length that differ at the positions concerned (single point), all permutation parents (the others)", "why_tests_cant": "exact probabilities, for every length and position", "anchors": ["src/operators/crossover.rs:CrossoverStrategy::crossover", "src/operators.rs:random_range"]}
{"id": "C123", "title": "Selection strategies ordered by pressure", "statement": "On a population sorted by fitness, for every fitness value t: rank selection reaches t at most as often as a tournament of two; linear selection with bias 2 reaches t as often as a tournament of two, within 2^-48; linear selection with a greater bias in (1,2] reaches t at least as often, up to 2^-47/(bias-1) for the smaller bias; elitist selection with a greater ratio reaches t at least as often, exactly. Elitist selection and tournaments are not ordered in general (proved: one population, both directions fail). The fittest of n individuals is selected with probability 1-((n-1)/n)^k by a tournament of k, 2/(n+1) by rank selection and 1/(n-floor(n*ratio)), with the floor as computed, by elitist selection.", "quantifier": "all sorted non-empty populations (up to 2^53 individuals for linear selection), all fitness values, all admissible parameters", "why_tests_cant": "inequalities between probabilities for every population and threshold", "anchors": ["src/operators/selection.rs:TournamentSelection", "src/operators/selection.rs:RankSelection", "src/operators/selection.rs:LinearSelection", "src/operators/selection.rs:ElitistSelection"]}
{"id": "C124", "title": "Where mutations act", "statement": "For n distinct genes, n >= 2, the probability that one mutation changes what stands at position i is: swap 2/n, duplicate 1/n, insertion 2((i+1)(n-i)-1)/(n(n-1)), inversion and scramble a mean over the lengths 2..n of the share of runs that contain i (for inversion not as their middle, for scramble of length L times 1-1/L). On average swap changes 2 positions, duplicate 1, insertion (n+4)/3, scramble n/2 and inversion the mean of 2*floor(L/2). So swap and duplicate treat all positions alike while insertion and scramble change inner positions more often than outer ones. After a shuffle every position holds every gene equally often.", "quantifier": "all genomes of distinct genes, all positions, all random draws; shuffle: all lists", "why_tests_cant": "A test sees some outcomes of a seeded generator. That ends and middle are treated differently, and how large a mutation is on average, are statements about the distribution for every length and position.", "anchors": ["src/operators/mutation.rs:swap_mutation", "src/operators/mutation.rs:inversion_mutation", "src/operators/mutation.rs:insertion_mutation", "src/operators/mutation.rs:duplicate_mutation", "src/operators/mutation.rs:scramble_mutation"]}
{"id": "C125", "title": "ERX reads its parents as tours", "statement": "Starting parent2 at another gene or writing it down backwards does not change which offspring edge recombination can give for a pivot. For offspring that take only steps of the parents the same holds for parent1, and the parents can be exchanged. If a dead end is met the offspring goes on with the first unused gene of parent1, so there it matters where parent1 starts (proved on eight genes). Sequential constructive crossover goes by positions: starting parent2 elsewhere can change the offspring (proved on three genes).", "quantifier": "all permutation parents, pivots, offspring, hash orders", "why_tests_cant": "equality of sets of possible results over all parents and iteration orders", "anchors": ["src/operators/crossover.rs:edge_recombination_crossover", "src/operators/crossover.rs:sequential_constructive_crossover"]}
{"id": "C126", "title": "Statistics of equal, negated and reordered samples", "statement": "In f64: finite samples that are all equal have variance and standard deviation exactly 0 and the common value as average, whatever the value and the count; but variance 0 does not mean that they are equal. Negating all samples (a cost used as negative fitness) exchanges minimum and maximum and the positions of their first occurrences, negates the average and leaves variance and deviation as they are, infinities and NaN included. The order of the samples does not matter in exact arithmetic; in f64 it does (0, 1, 3 against 0, 3, 1).", "quantifier": "every list of f64 samples that fits in usize", "why_tests_cant": "rounding at every step of every sample list", "anchors": ["src/stats.rs:Stats::record", "src/stats.rs:Stats::from_iter", "src/stats.rs:Stats::std"]}
{"id": "C127", "title": "Turning or rearranging both parents", "statement": "Order crossover and partially-mapped crossover on permutations: start both parents k positions further on and move the range along, and the offspring is turned the same way, so neither has a preferred first position beyond its range. Partially-mapped crossover commutes with every common rearrangement of the positions of both parents that takes one range to another. Order crossover does not commute with reversing (it fills in one direction), cycle crossover not with turning (the first position decides which cycles come from parent1): both proved on three genes.", "quantifier": "all permutation parents, ranges, shifts and rearrangements", "why_tests_cant": "relations between calls on all transformed inputs", "anchors": ["src/operators/crossover.rs:order_crossover", "src/operators/crossover.rs:partially_mapped_crossover", "src/operators/crossover.rs:cycle_crossover"]}
{"id": "C128", "title": "Fitness in other units", "statement": "With fitness values that are 0 or between 2^-800 and 2^900 and at most 2^53 individuals, roulette wheel selection makes the same choices, draw for draw and for every bracketing of the parallel sum, when every fitness is multiplied by the same power of two; Boltzmann selection does when the temperature is multiplied too (rates from 2^-100 to 1, temperatures far from under- and overflow). Whole GA runs with any strategy but Boltzmann are the same on both scales, and so are adaptive runs that never adjust their rates (interval 0). Refuted: adaptive runs that adjust them (squares of small differences underflow), Boltzmann selection with the temperature unchanged, and roulette selection with 1 added to every fitness.", "quantifier": "every population, power of two, draw, schedule, model and run", "why_tests_cant": "relation between two runs for all inputs; a single rounding that does not scale would break it", "anchors": ["src/operators/selection.rs:RouletteWheelSelection", "src/operators/selection.rs:BoltzmannSelection", "src/algorithms/aga.rs:prepare_for_next_population", "src/evolution.rs:evolve_population"]}
{"id": "C129", "title": "Mutations and the direction of a route", "statement": "Swap, scramble, inversion and duplicate mutation treat both directions of a genome alike: written backwards, a genome of distinct genes becomes the backwards written result with the same probability. Insertion mutation does not (it always moves a gene towards the front; on three genes 1/3 against 0). Swap and duplicate mutation do not even depend on which positions are neighbours: any common rearrangement of the positions of genome and result keeps the probability, repeated genes included. Inversion, insertion and scramble do: starting a round tour elsewhere changes the probabilities (proved on three genes).", "quantifier": "all genomes, results and rearrangements of positions; distinct genes for the first claim", "why_tests_cant": "equality of exact probabilities for every genome, result and length", "anchors": ["src/operators/mutation.rs:swap_mutation", "src/operators/mutation.rs:scramble_mutation", "src/operators/mutation.rs:inversion_mutation", "src/operators/mutation.rs:insertion_mutation", "src/operators/mutation.rs:duplicate_mutation"]}
{"id": "C130", "title": "Statistics and adjusted rates in other units", "statement": "For up to 2^53 samples between 2^-300 and 2^400, multiplying all of them by a power of two (with the products in that range too) leaves count, arg_min and arg_max alone and multiplies min, max, avg and std by exactly that power and var by its square. So whole runs of the adaptive genetic algorithm, through any of its entry points, with any adjustment interval, any strategy but Boltzmann and whatever state an earlier run left behind, make the same choices draw for draw in either unit of fitness. Both limits matter: with samples near 2^-600 the deviation is 0 in one unit and positive in the other, and with the factor 3 the mean of 1, 1, 2 is not exactly scaled.", "quantifier": "all lists of samples in range, all powers of two, individuals, models, closures that do not look at the statistics, parameters, states and random choices", "why_tests_cant": "exact float identities for all samples and whole randomized runs compared draw for draw", "anchors": ["src/stats.rs:Stats::from_iter", "src/stats.rs:Stats::record", "src/stats.rs:Stats::var", "src/stats.rs:Stats::std", "src/algorithms/aga.rs:prepare_for_next_population", "src/evolution.rs:evolve_population"]}
{"id": "C131", "title": "What GPX2 sees of its second parent", "statement": "GPX2 uses of parent2 (at least as long as parent1) only which steps of parent1's tour it also takes: two second parents of the same length that agree on these give exactly the same computation, whatever the partition selector. So parent2 may start at any gene and be written in either direction. With parents that share no step the offspring is a uniformly random order of the genes (each of the n! orders with probability 1/n!): nothing of the parents' tours is left. Where parent1 starts does matter, and for SCX, PMX, OX, CX and single point crossover it matters where parent2 starts (three cities).", "quantifier": "all genomes, selectors and random choices; distinct genes for the last law", "why_tests_cant": "equality of whole random computations and exact probabilities for all parents", "anchors": ["src/operators/crossover.rs:generalized_partition_2_crossover", "src/operators/crossover.rs:CrossoverStrategy::crossover", "src/operators.rs:common_partitions", "src/operators.rs:common_neighbors"]}
{"id": "C132", "title": "Which parents are crossed, and in which order", "statement": "With a built-in selection, select_distinct returns each individual that differs from the excluded one in proportion to how often a selection returns it: with its share times 1 + q + q^2 + ... (one term per try), where q is the chance to meet the excluded one. In breed the crossover is called on individuals i and j of a population without equal individuals, in this order, with probability (crossover rate) * s_i * s_j * (1 + s_i + s_i^2), so of two individuals the one that is selected more often is the first parent more often. No second parent is found with probability sum of s_i^4 (at most the cube of the largest share, with equal individuals too); elitist selection that leaves one individual never crosses. Two individuals and a tournament of two: 82 of 256 offspring have one parent although the crossover rate is 1, and the fitter one is first in 111 of 174 crossings.", "quantifier": "all individuals, populations, built-in selectors, models and rates", "why_tests_cant": "exact probabilities over all draws for all populations", "anchors": ["src/operators/selection.rs:SelectionMechanism::select_distinct", "src/model.rs:EvolutionModel::breed"]}
{"id": "C133", "title": "What selection alone does to a population", "statement": "With crossover and mutation rates 0 (GA) or ranges 0..0 (AGA), a model without local search and with repeatable evaluation, every population of a run holds only individuals of the population before it. If valid individuals are equal exactly when they are equally fit, no population is larger than the one before it, so population_size is not kept; without that condition this is refuted (the same individual can stay more than once). A bred individual is then a selected one with the same probabilities, and with k >= 2 places besides the elites the individuals with some property are absent from the offspring with probability (1 - s)^k, where s is the chance that one selection returns one of them.", "quantifier": "all models, individuals, populations, parameters, closures and random choices; built-in selectors for the laws", "why_tests_cant": "all executions of whole runs, exact probabilities", "anchors": ["src/algorithms/ga.rs:GeneticAlgorithm", "src/algorithms/aga.rs:AdaptiveGeneticAlgorithm", "src/model.rs:EvolutionModel::breed", "src/algorithms.rs:EvolutionAlgorithm::generate_new_population", "src/population.rs:Population::replace"]}
{"id": "C134", "title": "Adaptive runs can reach what improving mutations lead to", "statement": "An adaptive GA with ranges that start at or below their end, a crossover range ending below 1 - 2^-53, a mutation range starting above 0, at least three non-elite places (elites are not needed) and sizes up to 2^20, a model with the default pre_generation, and a rank-based strategy (Tournament, Rank, Elitist, Linear with bias in [1+2^-10, 2]) has, for every goal reachable from each fittest valid initial individual by a chain of improving mutations, an execution that reaches the goal, provided that the rates are never adjusted or that fitness is finite and at most 2^1021 in magnitude and the first population has a positive deviation (without that the run may freeze, C89). For OneMax it can find the all-ones genome from every initial population of genomes of one length, two of which differ in their number of set bits, genome length times number of genomes at most 2^20.", "quantifier": "every model, goal, initial population and parameters; every genome length", "why_tests_cant": "absence of a solution in tested runs says nothing about whether one is reachable", "anchors": ["src/algorithms/aga.rs:prepare_for_next_population", "src/evolution.rs:evolve_population", "src/model.rs:EvolutionModel::breed"]}
{"id": "C135", "title": "How many new individuals have some property", "statement": "If breeding always succeeds and depends on the drawn numbers only (so it does for every strategy of the library with a model whose methods do), then of the k >= 2 individuals bred for a generation the number of those with a given property is binomially distributed with parameters k and the probability s that one bred individual has it: exactly j have it with probability C(k,j) s^j (1-s)^(k-j), the mean is k s and the variance k s (1-s). The same holds for the random individuals of an initial population. In a random OneMax genome of length n exactly j bits are set with probability C(n,j) / 2^n.", "quantifier": "every model, population, strategy, property, k and j", "why_tests_cant": "an exact law over all draws for all sizes; a sample can only be compatible with it", "anchors": ["src/algorithms.rs:generate_new_population", "src/model.rs:EvolutionModel::breed", "src/model.rs:extend_population", "src/lib.rs:OneMax"]}
