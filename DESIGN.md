# DESIGN

Machine-checked model of the crate `rusty_genes` (sources in /repo/src) in Coq 8.16.1.

## Layout

| file | content |
| --- | --- |
| `Rnd.v` | the execution monad `M`, its predicates, the std/rand library functions used |
| `Prob.v` | exact probability of an event of a random execution |
| `F64.v` | IEEE binary64 (Flocq's executable floats), casts, `rng.gen::<f64>()` |
| `MOperators.v` `MCrossover.v` `MMutation.v` `MSelection.v` | src/operators.rs and its submodules |
| `MStats.v` `MPopulation.v` `MModel.v` `MAlgorithms.v` `MOneMax.v` | the other source files |
| `MWord.v` | the functions whose behaviour depends on the width of usize and on overflow checks |
| `MUnwind.v` | `configure` statement by statement: the state a caught panic leaves |
| `MBorrow.v` | the RefCell of `Evolution`: borrows, re-entry from closures and from user code, caught panics |
| `MDisplay.v` | the `Display` implementations of `src/stats.rs` |
| `MSchedule.v` | parallel loops as jobs run by workers in any order, the object pool, generators with a state |
| `DocExamples.v` | the doc-test examples of the repository, replayed on the model |
| `Spec.v`, `SpecF.v`, `SpecA.v`, `SpecK.v`, `SpecH.v`, `SpecR.v`, `SpecC.v`, `SpecG.v`, `SpecL.v`, `SpecB.v`, `SpecW.v`, `SpecE.v`, `SpecS.v`, `SpecZ.v`, `SpecU.v`, `SpecV.v`, `SpecQ.v`, `SpecI.v`, `SpecM.v`, `SpecT.v`, `SpecX.v`, `SpecY.v`, `SpecN.v`, `SpecO.v`, `SpecP.v`, `SpecD.v`, `SpecJ.v`, `SpecBack.v`, `SpecCompare.v`, `SpecWhere.v`, `SpecSame.v`, `SpecScale.v`, `SpecPairs.v`, `SpecShrink.v`, `SpecCount.v` | the small vocabulary used in the theorem statements (cyclic neighbours, first occurrence, sortedness, ...) |
| `ExF.v`, `ExM.v`, `ExR.v`, `ExH.v`, `ExG.v`, `ExY.v`, `ExO.v`, `ExP.v` | concrete individuals, models and runs used in examples and witnesses |
| `L*.v`, `P*.v` | lemmas and proofs |
| `Properties_*.v` | property theorems only, each `exact lemma`, with `Print Assumptions` and examples |

The model files contain no proofs. Each definition cites the lines it models.

## How executions are modelled

`M A` is a finite tree: `Ret`, `Fail Panic`, `Fail NoFuel`, `Draw n k` (ideal uniform
draw from `0..n`), `Pick n k` (a choice the language leaves open: order among ties in
an unstable sort, HashSet iteration order, bracketing of a parallel sum).

- `must m P`: every resolution of draws and picks returns normally with a value in `P`
  (no panic, no divergence); not vacuous because every draw and pick must have an alternative.
- `may m v`, `may_fail m e`: some resolution does. `must_fail m e`: all of them do.
- `prob m P`: exact probability (draws uniform and independent, picks adversarial).

Loops whose termination is not obvious take fuel; running out is `Fail NoFuel`, an error
that `must` excludes. Non-termination is stated as: `NoFuel` for every amount of fuel.
`&mut` arguments become returned values. A user-supplied closure or trait method is an
arbitrary function into `M` (it may draw, panic, and carry its own state).

## Properties: what is modelled and how it is proved

| id | property | how |
| --- | --- | --- |
| C01 | random_pair yields two distinct indices in range | direct case analysis on the two draws |
| C02 | random_pair is uniform over ordered distinct pairs | `prob` of `random_pair` computed as a double sum |
| C03 | bounded_random_range stays inside its bounds and reaches every admissible range | case analysis; reachability by exhibiting the draws |
| C04 | Distribution of random_range | exact law via `prob`; refutation of uniformity with two ranges of different probability |
| C05 | common_neighbors is sound | `Spec.cyc_neighbors` on both genomes, by induction over the windows |
| C06 | common_neighbors is complete | converse inclusion; refutation by computation for a 2-gene genome |
| C07 | common_partitions partitions the first genome into common paths | loop invariant over (visited, partitions); `grow` never exhausts its fuel |
| C08 | Partitions are not maximal and do not follow parent order | witnesses by computation |
| C09 | GPX2 offspring is a permutation that keeps every partition contiguous | invariant of the selection loop: remaining partitions are a sub-multiset, disjoint |
| C10 | GPX2 rejects parents of different lengths | witness by computation |
| C11 | SCX offspring is a permutation starting at the pivot | invariant: visited = genes placed so far, duplicate free |
| C12 | SCX follows the documented construction rule | step relation in Spec.v, shown for every position of the offspring |
| C13 | ERX offspring is a permutation for every hash order | invariant on the neighbour map (keys, contents) for every pick of iteration order |
| C14 | ERX chooses a neighbour with fewest remaining neighbours | step relation in Spec.v: minimal remaining degree |
| C15 | PMX offspring | chains of the mapping are injective; pigeonhole for termination |
| C16 | PMX terminates on permutations and can hang otherwise | bound from C15's measure; divergence for every fuel by induction |
| C17 | OX offspring | invariant relating the two cyclic indices: number of genes placed = number of non-segment genes passed |
| C18 | OX with an empty range | direct execution for all parents; NoFuel for every fuel |
| C19 | CX offspring | cycle = orbit of the position permutation; invariant: visited positions closed under it |
| C20 | SPX offspring | list computation |
| C21 | Crossovers reject parents of different lengths | first assertion fails; all inputs |
| C22 | CrossoverStrategy::crossover is total on non-empty permutations | combination of C09-C20 |
| C23 | Crossover of identical parents | corollaries or direct |
| C24 | Permutation mutations preserve the genes | permutation lemmas for swap, shuffle, slice replacement |
| C25 | Exact effect of each mutation | exact positionwise description |
| C26 | Duplicate mutation | exact positionwise description + reachability |
| C27 | Mutating a genome of fewer than two genes does nothing | computation |
| C28 | Insertion mutation can move any gene to any position | all outcomes for n=3 enumerated through C25; general impossibility lemma |
| C29 | Swap mutation is uniform over transpositions | `prob` double sum |
| C30 | Built-in selection returns a member of the population | per mechanism; elitist needs rounding: floor(n*r) < n in f64 |
| C31 | Tournament selection law | `prob` of the maximum of k draws by induction on k |
| C32 | Rank selection law | counting targets per rank |
| C33 | Elitist selection only returns the top of the population | Flocq error bound: n*r rounded, floor < n; uniform law by `prob` |
| C34 | Roulette selection rule | loop characterisation + monotonicity of rounding |
| C35 | Boltzmann temperature schedule | induction over prepares |
| C36 | Boltzmann selection favours the fitter when cold | computation on infinities for every population |
| C37 | Linear selection never panics | witness by vm_compute; error analysis for every bias with a margin; monotonicity in the draw |
| C38 | Linear selection with bias 1 | NaN propagation |
| C39 | select_distinct | induction on tries |
| C40 | Selector construction rejects exactly the invalid parameters | case analysis |
| C41 | Stats min/max are exact | fold invariant |
| C42 | Collecting equals recording | loop equality by induction |
| C43 | Welford computes mean and sample variance | field identities by induction over R |
| C44 | Float statistics are sane | monotonicity of rounding keeps avg within [min,max]; equal signs of delta and sample-avg; refuted by computation without bound |
| C45 | Accessors on empty and single-sample statistics | case analysis |
| C46 | Population construction | every sorted permutation then dedup |
| C47 | Individuals in a population are unique | witness + proof under hypothesis |
| C48 | fittest is a maximum | arg_max of stats over the list |
| C49 | Generation and stagnation counters | induction over a list of replacements |
| C50 | replace hands back the old individuals; a panic leaves a broken population | the panic-state variant of replace |
| C51 | Fitness ordering | Bcompare on non-NaN floats is the order on extended reals; witnesses with NaN |
| C52 | Keep-best breeding | must-style Hoare proof over breed |
| C53 | Crossover only between distinct individuals | instrumented call predicate: crossover only reached on distinct members |
| C54 | Initial population sizes | lengths of repeatM |
| C55 | Interpolation stays in range | Flocq rounding monotonicity |
| C56 | Parameter validation | case analysis on the assertions |
| C57 | Elites are the fittest individuals | suffix of a sorted list |
| C58 | generate_new_population fills the population | case analysis on the missing count; witness |
| C59 | A run with population_size 1 | direct, using C58 |
| C60 | Adaptive rates stay in range | rounding monotonicity; NaN propagation |
| C61 | When the adaptive rates change | case analysis / induction over generations |
| C62 | Runs on one Evolution value are independent | equality of configured states |
| C63 | Progress protocol | induction over the loop |
| C64 | Every population shown is well formed | loop invariant |
| C65 | The result is the best individual found | loop invariant on the best fitness; losing run as a witness |
| C66 | evolve_individual never returns something worse than a valid seed when elitism keeps at least one | C65 plus initial population |
| C67 | Runs do not panic | Hoare proof of the loop with `must` up to fuel |
| C68 | OneMax fitness | Flocq division correctness |
| C69 | OneMax runs keep the genome length | instance of the run invariant for one_max; totality from C67; empty genomes score 0/0 |
| C70 | Roulette selection is fitness-proportionate | running sums are monotone; the draw compared to a threshold has at most one ulp of slack |
| C71 | set_arg_min and set_arg_max | case analysis |
| C72 | NaN samples poison the statistics | NaN propagation by induction |
| C73 | Construction does not lose the best individual | sorted list + dedup keep one of each run of equals; witness with a PartialEq that ignores fitness |
| C74 | Rates are probabilities | `prob` of the two coin flips |
| C75 | Model invariants hold throughout a run | loop invariant over populations |
| C76 | OneMax never invents a bit value | instance of C75 |
| C77 | Scramble mutation shuffles its run uniformly | `prob` of the Fisher-Yates loop by induction: one continuation per order |
| C78 | What happens in each generation | induction over the loop into an inductive description of histories |
| C79 | Boltzmann cools once per generation of a run | induction over the history of C78 |
| C80 | Without variation nothing new appears | induction over the history of C78; zero rates are a fixed point of the adaptation |
| C81 | A run without a valid individual panics | configure is deterministic; the filtered vector is empty |
| C82 | Wheel selection shares are accurate | relative error of a bracketed float sum; P(running sum crosses the draw) compared with the exact share |
| C83 | Streaming average and variance are accurate | error recurrence of the running mean and of the sum of squared deviations |
| C84 | Linear selection shares | the index is a monotone function of the draw; each threshold is located within the rounding error of the square root formula |
| C85 | Runs can reach what improving mutations lead to | positive selection probability of the last individual (C32, C82, C84) turned into an execution; one generation puts the improved mutant last; induction over the chain |
| C86 | Crossover of arbitrary parents | inversion of every execution that returns (no assumption on the parents); a pigeonhole argument for the panics of SCX and ERX |
| C87 | Which crossovers terminate | loop measures (unvisited positions, remaining places); chains longer than the range repeat a gene |
| C88 | A genome crossed with itself keeps the tour | a path without repetition along a cycle goes in one direction; the rules of SCX, ERX and GPX2 always offer the next gene of the tour |
| C89 | An adaptive run can freeze | the deviation of equal values is exactly 0 (LF64), 0/0 is NaN, and a NaN rate never fires; induction over the suffix of the history (C78) |
| C90 | An algorithm with the default select_elites never loses its best | invariant of the loop for any progress closure (loop_inv_any): the fittest is the default elite, and deduplication keeps the best (C73) |
| C91 | A single missing individual stops evolution | with one individual missing the offspring are exactly the elites; induction over the run, replacing a population by all its elites is a permutation |
| C92 | An elitist GA finds the goal with probability 1, within an explicit bound | the level of the fittest never falls (default survival, one elite); each generation it rises with probability at least (1-cr)*mr*eps/(4N): the first bred offspring selects the fittest with probability >= 1/(2N); a potential argument over the levels bounds the probability of not having arrived by levels/(p*generations) |
| C93 | The crossover strategies draw their parameters uniformly | expectations of bind over uniform draws; GPX2 by induction on the number of partitions: the common partitions are disjoint, so the first piece identifies the draw |
| C94 | The possible results of breed, exactly | inversion of every bind; a draw in [0,1) is below r for some draw iff r > 0 and not below r for some draw iff r < 1 |
| C95 | A run started from the progress closure takes over the run around it | two-state invariant of the loop, the state before and after the closure; witness by execution on a tape |
| C96 | An elitist adaptive GA with a diverse start finds the goal with probability 1 | the climbing argument of C92 for any algorithm whose rates stay within bounds at each generation; the interpolated rates stay in their ranges when the first deviation is positive |
| C97 | Overflow checks and the width of usize | MWord.v models the affected functions for any width and both kinds of builds; equality of execution trees, arithmetic modulo 2^w |
| C98 | A cooled-down Boltzmann run breeds from the least fit individual only | rounding error of repeated cooling, then C36 and C79; closeness of probabilities through draws |
| C99 | Population to Vec and back | sorting and deduplication of a sorted list; a population with ties |
| C100 | Every schedule of the worker threads and every generator is covered | step relation of workers (`MSchedule.v`), invariant and measure; simulation of runs in both directions |
| C101 | A seeded M::rng neither reproduces runs nor gives a diverse start | determinism of settled computations; two concrete schedules with different results |
| C102 | Zeros in a parallel sum do not matter | induction over the bracketing; the wheel compares with the total only |
| C103 | What a rejected configuration leaves behind | configure statement by statement (`MUnwind.v`); invariant of the population size through the loop |
| C104 | Runs within runs and the RefCell | the RefCell with its flag (`MBorrow.v`): every piece of code restores the flag; simulation of the model by code on a free cell |
| C105 | interpolate_usize between any two numbers | rounding is monotone and integers up to 2^53 are floats; the wrapped difference is at least 2^63 |
| C106 | Selection favours the fitter | the suffix of a sorted list above a threshold has at least its share of weight when the weights do not decrease along the list; exact sums for tournament and rank, the error bounds for linear and roulette-wheel selection for the others |
| C107 | New individuals are independent | expectation of a scaled function, by induction over the execution tree; then induction over the list of properties |
| C108 | What repeated mutation can reach | bring one gene after the other to its place, by induction over the number of places that are right; for duplicate mutation first make room, then write the target position by position |
| C109 | Searching for a best tour | one level of C92/C96: a scramble of the whole tour yields the best tour with probability 1/((n-1) n!); local optima by an invariant of the run using C94; a score on four cities with a trap |
| C110 | The stagnation counter and runs that stop on it | step invariant: the best never gets worse with an elite and the counter restarts exactly at a strict improvement, then induction over the trace; termination by the measure n * (fitness values above the best) + (n - counter); all f64 values listed through Flocq's B2SF; two-generation cycles without elite for the refutations |
| C111 | What crossover keeps, and runs without mutation | for PMX a shared gene outside the range is not in the range of parent1, so its chain stops at once; CX and SPX by C86; runs by induction over the history of C78 with a mutation rate that stays at zero; computed runs on four cities for the refutations |
| C112 | Displayed statistics | splitting at a character that occurs in no part, and decimal numerals of different numbers differ |
| C113 | Runs depend on the order of fitness values only, with strategies that go by rank | a relation between two execution trees, kept by every function of the model; the refutations are computed runs on one tape of draws |
| C114 | The names of genes do not matter | the same relation between the operators on two gene types; pairs of neighbours are related up to their order |
| C115 | How often user code is called | a watched method leaves a draw from an empty range, which the crate never makes, as a mark; the marks on a returning path are counted compositionally, together with a proof that erasing them gives the runs of the unwatched model |
| C116 | How much of a tour a mutation keeps | index arithmetic on the exact effects of C25 and C26; the bounds are attained on eight genes |
| C117 | Common neighbours measure the distance of tours | the list of pairs is indexed by the positions of the tour, so its length counts the steps that stay; a path along neighbours goes in one direction; inclusion and exclusion for the triangle inequality |
| C118 | GPX2 keeps the steps its parents share | from C07: every partition but the first is a run of parent1 read forward that ends where the common run ends; the first one runs forward or backward from the first gene, so only one of the two steps at the first gene can be cut; computed offspring for the refutations |
| C119 | What repeated permutation mutation does to an order | each draw outcome acts on positions (C114), hence permutes the list of all orders; contraction of the oscillation of expected values once every order leads to every order in the same number of steps (C108 plus return walks of 2 and 3 or 5 steps); parity of the number of inversions for swaps |
| C120 | Repeated duplicate mutation drifts to copies of one gene | exact expectation of the number of copies over the uniform pair of positions; chance of at least 1/n to gain a copy, n - 1 times in a row; all-equal genomes are absorbing |
| C121 | Crossing the two children gives the parents back | from C19: which parent CX takes at a position is determined by the cycles and their first positions, and swapped parents or complementary children have the same cycles; PMX (C15): the chain of replacements run backwards ends at the gene it started from; OX by a computed pair |
| C122 | The share of each parent in the offspring | from the laws of C93: counting points and starts; the number of ranges of a given length over a position is min(i+1, n-i, len, n-len+1) |
| C123 | Selection strategies ordered by pressure | the individuals reaching t are the last k of the sorted population (as in C106); then the probabilities of the last k under each strategy (C31, C32, C33, C84) are compared as functions of k |
| C124 | Where mutations act | the event depends on the drawn pair or range only (C25), so its probability is a count of pairs or ranges; for scramble the marginal law of the shuffle loop by induction on the loop; the sums over positions by exchanging sums |
| C125 | ERX reads its parents as tours | C14_erx_exact: the possible offspring are exactly the orders that obey the rule; the rule depends on the neighbours only, except for the dead ends; witnesses by computation |
| C126 | Statistics of equal, negated and reordered samples | Equality up to the sign of zeros and its mirror image are kept by every operation of Welford; invariant by recording one sample after the other; witnesses by computation |
| C127 | Turning or rearranging both parents | C15 and C17 determine the offspring; both descriptions are moved along the rearrangement; witnesses by computation |
| C128 | Fitness in other units | rounding commutes with powers of two away from underflow, so all sums, products and comparisons of the wheel do; the runs then are compared step by step as for C113; witnesses by computation |
| C129 | Mutations and the direction of a route | the laws of pairs and ranges of C124 and of the shuffle of C77, with the sums over positions run through backwards or in another order; witnesses by computation |
| C130 | Statistics and adjusted rates in other units | floats above 2^-300 lie on a grid, so differences are 0 or far from underflow and every rounding of the loop commutes with the power of two; the mean stays between the samples; the diversity is a quotient of scaled deviations; witnesses by computation |
| C131 | What GPX2 sees of its second parent | the filter of common_neighbors runs over the steps of parent1 and asks only for membership; without common steps every partition is one gene and the law of C93 applies; witnesses by enumeration of all draws |
| C132 | Which parents are crossed, and in which order | induction over the tries with expectations (no adversarial pick in built-in selections); conditioning on the index of the first parent; the share of an equal individual is the share of its index when all differ |
| C133 | What selection alone does to a population | induction over the history of a run (C78); uniqueness from sortedness and the absence of equal neighbours in every population; the law of breed by conditioning on the selected parent; independence of the offspring (C107); runs by computation |
| C134 | Adaptive runs can reach what improving mutations lead to | the execution built for C85, with an invariant that keeps both rates within bounds at each generation (C60, C96) |
| C135 | How many new individuals have some property | the first of the repeated calls has the property or not; induction with Pascal's rule of the standard library; the mean and variance by linearity |

## Trusted base

- Coq 8.16.1's kernel (and `vm_compute`, used for concrete examples and witnesses).
- The reading of the Rust code into the model (cited line by line), and the semantics
  given to the library functions listed below.
- Axioms: what `Print Assumptions` shows beneath each theorem. Theorems about genomes
  (operators, crossover, mutation; not their probabilities) are closed under the global
  context. Theorems using real numbers or floats use the standard library's axioms for the
  reals: `ClassicalDedekindReals.sig_forall_dec`, `ClassicalDedekindReals.sig_not_dec`,
  `FunctionalExtensionality.functional_extensionality_dep`, and, where Flocq's lemmas or
  real-number case analysis need it, `Classical_Prop.classic`. No axiom is added by this
  development and none comes from another library (Flocq 4.1.0 is axiom-free itself).

## What is modelled

All executable code of src/: operators.rs, operators/{crossover,mutation,selection}.rs,
stats.rs, population.rs, individual.rs, model.rs, algorithms.rs, algorithms/{ga,aga}.rs,
evolution.rs, lib.rs (interpolation and one_max).

Library semantics assumed: rand 0.8.5 `gen_range`, `Uniform`, `choose`, `shuffle` (Fisher-Yates
from the end), `gen::<f64>()` = k/2^53 with k uniform below 2^53, all ideal; `HashSet`/`HashMap`
as sets and maps with unspecified iteration order; `Vec::dedup`, `swap_remove`, `windows`,
`min_by_key` (first minimum), `copy_from_slice`, `rotate_right`; rayon `par_sort_unstable_by` =
some sorted permutation (any permutation when a fitness is NaN), rayon `sum` = some bracketing,
rayon `map_init`/`par_extend` keep order; f64 arithmetic = IEEE 754 round-to-nearest-even;
`as usize` saturating with NaN -> 0; `f64::exp` is an unconstrained function parameter.

A `progress` closure may re-enter the `Evolution` (it gets the shared algorithm, so it may run a
nested evolution or change parameters): `evolve_population` hands it the algorithm state and takes
back a new one. Theorems about ordinary closures are stated with `quiet f`, which leaves it alone.

## What is not modelled

- Inside the run theorems, thread scheduling and the object pool: each parallel call is given
  arbitrary independent draws. `MSchedule.v` models the scheduling itself and C100 shows that this
  covers every schedule and every generator. Assumed: one call of a model method or generator is
  one step (user code shares no mutable state between threads), rayon hands each index to one job,
  keeps the order of results and passes on one of the panics.
- Memory allocation and its failure, capacities, panics inside user `Clone`/`PartialEq`.
- `usize` overflow outside `MWord.v`: lengths and counters are natural numbers, and a subtraction
  that underflows is a panic (build with overflow checks). `MWord.v` gives rank selection, linear
  selection and bounded_random_range for every width and both kinds of builds (C97); elsewhere an
  overflow would need more than 2^53 samples, generations or genes. `interpolate_usize` is
  given for 64 bits and both kinds of builds (C105).
- How std writes an `f64` (a parameter of `MDisplay.v`), sinks that fail while text is written to them, `Deref` of wrappers (identity), benches.
- The state a panic leaves behind, if it is caught: modelled for `configure` (`MUnwind.v`, C103);
  C104 holds for every state `prepare_for_next_population` may leave. The run theorems quantify
  over every prior state of the algorithm.
- Borrows of the RefCell in the run theorems: `MBorrow.v` and C104 show that they do not matter
  unless user code other than the closure starts runs on the same value. There, what user code does
  with the value within a call happens at the start of the call and on the calling thread
  (`Evolution` is not `Sync`).
- Float sums of the model start from 0.0; std and rayon may start from -0.0. C102 shows that
  selection does not depend on it.
- Quality of the random generator; performance.

## Axioms per theorem

What `Print Assumptions` lists, for every property theorem (full names above).

- none (closed under the global context): C01_random_pair_distinct, C01_random_pair_panics, C03_bounded_range_in_bounds, C03_bounded_range_inverted_panics, C03_bounded_range_reaches_all, C03_bounded_range_too_long_may_panic, C03_random_range_in_bounds, C03_random_range_reaches_all, C03_random_range_zero_panics, C05_common_neighbors_sound, C06_common_neighbors_exact, C06_short_genome_refuted, C07_common_partitions, C07_common_partitions_order, C08_maximal_refuted, C08_order_refuted, C09_gpx2_bad_selector_panics, C09_gpx2_concatenates_partitions, C09_gpx2_follows_selector, C09_gpx2_permutation, C100_loop_covered, C100_loop_finishes, C100_no_endless_loop, C101_few_distinct, C101_jobs_repeat, C101_only_the_split_matters, C104_user_code, C108_duplicate, C108_only_duplicate, C108_only_permutations, C108_permutations, C108_scramble_once, C10_gpx2_length_check_refuted, C111_agreement_kept, C111_agreement_refuted, C111_pmx_positional_refuted, C113_default_methods, C114_crossover, C114_gpx2, C114_mutation, C114_partial_order_refuted, C114_partitions, C116_steps_attained, C116_steps_kept, C117_counts_steps, C117_listed_once, C117_mutations, C117_no_single, C117_same_tour, C117_symmetric, C117_triangle, C118_gpx2_distance, C118_gpx2_keeps_all, C118_gpx2_keeps_all_refuted, C118_gpx2_loses_one, C118_other_crossovers_refuted, C119_all_orders, C119_parity, C11_scx_bad_pivot_panics, C11_scx_permutation, C121_cycle_back, C121_order_back_refuted, C121_partially_mapped_back, C121_single_point_back, C125_erx_exchange, C125_erx_first, C125_erx_first_any_refuted, C125_erx_second, C125_scx_second_refuted, C127_cx_turned_refuted, C127_ox_reversed_refuted, C127_ox_turned, C127_pmx_rearranged, C127_pmx_turned, C12_scx_exact, C12_scx_rule, C131_example, C131_gpx2_first_refuted, C131_gpx2_second, C131_gpx2_shared_steps, C131_others_refuted, C13_erx_bad_pivot_panics, C13_erx_permutation, C14_erx_exact, C14_erx_rule, C15_pmx_bad_range_panics, C15_pmx_offspring, C16_pmx_terminates, C16_pmx_termination_refuted, C17_ox_bad_range_panics, C17_ox_offspring, C18_ox_empty_range, C18_ox_end_range_diverges, C18_ox_every_range_refuted, C18_ox_termination_refuted, C19_cx_offspring, C20_spx_offspring, C21_length_mismatch_panics, C22_crossover_empty_parents, C22_crossover_permutation, C22_crossover_single_point, C22_crossover_single_point_reaches_all, C23_same_parents, C24_mutation_permutation, C25_insertion_effect, C25_insertion_reaches_all_backward, C25_inversion_effect, C25_inversion_reaches_all, C25_scramble_effect, C25_scramble_reaches_all, C25_swap_effect, C25_swap_reaches_all, C26_duplicate_effect, C26_duplicate_reaches_all, C27_short_genome_unchanged, C28_insertion_any_move_refuted, C28_insertion_never_forward, C32_rank_no_fall_through, C42_accessors_agree, C42_collect_is_record, C42_snapshot, C45_empty, C51_nan, C51_wrapper_agrees, C54_extend_population, C54_extend_population_with, C57_select_elites, C68_onemax_equality, C86_any_parents, C86_ox_any_parents, C86_pmx_any_parents, C86_too_few_genes_panic, C87_operators_end, C87_ox_ends_iff, C87_ox_fuel, C87_ox_hangs, C87_pmx_ends_iff, C87_pmx_fuel, C87_pmx_hangs, C87_strategies_end, C88_erx_same, C88_gpx2_same, C88_same_tour, C88_scx_same, C97_range_checked, C97_range_wrapping, C97_rank_half_word, C97_rank_large_population_checked, C97_rank_large_population_wrapping.

- `sig_forall_dec`, `functional_extensionality_dep`: C02_random_pair_uniform, C04_bounded_range_law, C04_random_range_law, C04_uniform_refuted, C107_initial, C107_variants, C113_alike, C119_alternates, C119_forgets_start, C119_keeps_uniform, C120_falls, C120_fixes, C120_mean, C120_takeover, C120_takeover_limit, C122_coverage_ends, C122_coverage_middle, C122_coverage_mirror, C122_coverage_total, C122_kept_half, C122_kept_position, C122_range_coverage, C122_single_point_linkage, C122_single_point_share, C124_change, C124_mean, C124_middle, C124_shuffle, C129_example, C129_insertion_numbers, C129_insertion_refuted, C129_positions, C129_positions_example, C129_turned_refuted, C131_gpx2_strangers, C135_initial, C135_onemax, C29_duplicate_law, C29_insertion_law, C29_inversion_law, C29_swap_uniform, C31_tournament_law, C32_rank_law, C77_scramble_law, C77_scramble_unchanged, C77_shuffle_uniform, C93_edge_recombination_law, C93_first_gene_uniform, C93_order_law, C93_partially_mapped_law, C93_partition_orders_uniform, C93_sequential_constructive_law, C93_single_point_law.

- `sig_forall_dec`, `sig_not_dec`, `functional_extensionality_dep`: C126_reordered_exact, C43_welford_exact.

- `sig_forall_dec`, `classic`, `functional_extensionality_dep`: C129_direction.

- `sig_forall_dec`, `sig_not_dec`, `classic`, `functional_extensionality_dep`: C100_individual_covered, C100_individual_guarantee, C100_individual_realised, C100_onemax_on_threads, C100_run_covered, C100_run_guarantee, C100_run_realised, C101_pool_order_refuted, C101_population_of_one, C101_reproducible_refuted, C102_breed_same, C102_prepare_covered, C102_selection_same, C102_sum_covered, C103_aga_caught, C103_aga_left, C103_aga_next_run, C103_aga_statements, C103_aga_unchanged, C103_ga_caught, C103_ga_left, C103_ga_next_run, C103_ga_statements, C103_ga_unchanged, C103_without_effect_refuted, C104_closure_may_run, C104_methods, C104_no_borrow_left, C104_reentry_panics, C104_reentry_stops, C104_rejected_left, C104_runs_under_a_borrow, C104_runs_under_a_writer, C104_still_usable, C104_under_a_borrow, C104_who_runs_under_a_borrow, C105_between, C105_between_refuted, C105_builds, C105_monotone, C105_nan, C105_wrapped, C106_boltzmann, C106_boltzmann_refuted, C106_elitist, C106_larger_tournament, C106_linear, C106_rank, C106_roulette, C106_tournament, C107_all, C107_offspring, C109_aga_finds_best, C109_aga_local_optimum, C109_ga_finds_best, C109_ga_finds_best_almost_surely, C109_ga_local_optimum, C109_other_mutations_refuted, C110_aga_counter, C110_aga_ends, C110_always_ends, C110_counter_refuted, C110_ends_refuted, C110_ga_counter, C110_ga_ends, C110_patience, C111_aga_onemax_shared_bit, C111_aga_tour_agreement, C111_aga_tour_lost_gene, C111_aga_without_mutation, C111_ga_onemax_shared_bit, C111_ga_tour_agreement, C111_ga_tour_lost_gene, C111_ga_without_mutation, C111_tour_agreement_refuted, C111_tour_lost_gene_refuted, C112_empty, C112_fields, C112_options, C112_snapshot, C112_text_determines, C112_text_exact, C113_aga_order, C113_aga_order_individual, C113_aga_order_refuted, C113_aga_order_run, C113_aga_same_fitness, C113_aga_same_fitness_individual, C113_aga_same_fitness_run, C113_boltzmann_order_refuted, C113_ga_order, C113_ga_order_individual, C113_ga_order_run, C113_ga_same_fitness, C113_order_refuted, C114_aga_tours, C114_ga_tours, C114_ga_tours_run, C115_aga_calls, C115_breed, C115_budget, C115_evaluations, C115_ga_calls, C115_same_runs, C123_elitist_ratio, C123_elitist_tournament_refuted, C123_fittest, C123_linear_bias, C123_linear_tournament, C123_rank_tournament, C126_equal_samples, C126_negated_samples, C126_reordered_refuted, C126_zero_variance_refuted, C128_aga, C128_aga_example, C128_aga_individual, C128_aga_refuted, C128_aga_run, C128_boltzmann, C128_boltzmann_refuted, C128_ga, C128_ga_individual, C128_ga_run, C128_roulette, C128_shift_refuted, C130_aga, C130_aga_example, C130_aga_individual, C130_aga_run, C130_factor_refuted, C130_stats, C130_stats_example, C130_underflow_refuted, C132_alone, C132_alone_at_most, C132_breed, C132_breed_example, C132_elitist_alone, C132_elitist_example, C132_example, C132_pair, C132_second_parent, C132_stronger_first, C133_aga_never_grows, C133_aga_sheds, C133_breed, C133_ga_never_grows, C133_ga_sheds, C133_lost, C133_never_grows_refuted, C134_aga_reaches, C134_onemax_reaches_optimum, C135_breed, C135_offspring, C135_offspring_mean, C135_offspring_variance, C30_selection_empty_population_panics, C30_selection_returns_member, C33_elitist_bound, C33_elitist_only_top, C33_elitist_uniform, C34_roulette_monotone, C34_roulette_prepare, C34_roulette_rule, C34_roulette_rule_deterministic, C35_boltzmann_prepare, C35_boltzmann_rule, C35_boltzmann_schedule, C35_others_unchanged, C36_cold_boltzmann_selects_least_fit, C37_linear_largest_draw_decides, C37_linear_never_panics_refuted, C37_linear_safe_biases, C37_linear_safe_with_margin, C38_linear_bias_one_returns_last, C39_select_distinct_none, C39_select_distinct_none_probability, C39_select_distinct_panics, C39_select_distinct_some, C40_create_selector_invalid, C40_create_selector_valid, C40_setters, C41_min_max_exact, C44_float_stats_sane, C44_unbounded_refuted, C45_single, C46_new, C46_replace, C46_try_from, C47_no_adjacent_duplicates, C47_unique_refuted, C47_unique_when_fitness_decides, C48_fittest, C49_history, C49_step, C50_catch_is_replace, C50_caught_panic, C50_old_returned, C51_total_preorder, C51_transitive_refuted, C52_at_least_the_parents, C52_at_least_the_selected, C52_member_or_valid, C53_calls, C55_end_refuted, C55_interpolate_f64, C55_interpolate_monotone, C55_interpolate_usize, C56_aga_configure, C56_default_values, C56_defaults, C56_ga_configure, C57_default_select_elites, C58_fills_refuted, C58_generate_new_population, C58_generate_returns, C59_aga_no_result, C59_aga_panics, C59_ga_no_result, C59_ga_panics, C60_adapted_rates, C60_both_zero, C60_from_infinity, C60_from_nan, C60_from_zero, C60_monotone, C60_nan_rates, C60_reversed_ranges, C61_interval_zero, C61_rate_history, C62_aga_independent, C62_aga_independent_runs, C62_ga_independent, C63_answers, C63_fuel, C63_generations, C64_aga_populations, C64_ga_populations, C65_aga_best, C65_best_refuted, C65_ga_best, C66_aga_seed, C66_ga_seed, C67_aga_total, C67_aga_total_runs, C67_ga_total, C67_ga_total_runs, C68_new_keeps_genomes, C68_onemax_empty, C68_onemax_fitness, C68_onemax_order, C68_replace_keeps_genomes, C69_aga_onemax_empty, C69_aga_onemax_lengths, C69_aga_onemax_runs, C69_ga_onemax_empty, C69_ga_onemax_lengths, C69_ga_onemax_runs, C70_roulette_proportional, C71_set_arg_min_max, C72_nan_samples, C73_best_survives, C73_best_survives_refuted, C74_crossover_frequency, C74_mutation_frequency, C74_rate_probability, C75_aga_individual_keeps, C75_aga_population_keeps, C75_aga_run_keeps, C75_ga_individual_keeps, C75_ga_population_keeps, C75_ga_run_keeps, C76_aga_no_new_bits, C76_aga_uniform_seed, C76_ga_no_new_bits, C76_ga_uniform_seed, C78_aga_history, C78_ga_history, C79_aga_cools, C79_ga_cools, C80_aga_nothing_new, C80_ga_nothing_new, C81_aga_no_result, C81_aga_no_valid, C81_aga_no_valid_random, C81_aga_no_valid_seed, C81_aga_size_zero, C81_ga_no_result, C81_ga_no_valid, C81_ga_no_valid_random, C81_ga_no_valid_seed, C81_ga_size_zero, C82_boltzmann_shares, C82_roulette_shares, C83_average_accuracy, C83_variance_accuracy, C84_linear_cumulative, C84_linear_panic_rare, C84_linear_shares, C85_ga_reaches, C85_onemax_reaches_optimum, C85_onemax_seed_reaches_optimum, C89_aga_freezes, C90_never_worse, C90_run_best, C90_seed_best, C91_aga_stuck, C91_default_elites_stuck, C91_ga_stuck, C92_finds_goal, C92_finds_goal_almost_surely, C92_onemax_run, C92_onemax_seed, C94_breed_outcomes, C95_aga_nested_run, C95_ga_nested_run, C95_own_size_refuted, C96_aga_finds_goal, C96_aga_finds_goal_almost_surely, C96_onemax_finds_optimum, C97_linear_same_in_every_build, C97_rank_small_population, C98_aga_bred_from_worst, C98_cold_in_the_end, C98_ga_bred_from_worst, C99_into, C99_round_trip, C99_round_trip_refuted.
