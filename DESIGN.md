# Formal model of rustfst in Rocq (Coq 8.16.1)

## Layout

* `properties.jsonl` – the claims C01.. in API terms.
* `rocq/theories/Base`   – list / option utilities and the independent specifications
  (semirings, abstract weighted machines, path weights, meaning of every property bit).
* `rocq/theories/Model`  – the code, function by function. Every definition cites file and lines.
* `rocq/theories/Proofs` – lemmas.
* `rocq/theories/Props`  – the property theorems, `Print Assumptions`, and non-vacuity examples.
* `MANIFEST.json` – property -> theorem names; `seeded/LOG.jsonl` – mutation log.

## Trusted base

* Coq's kernel (8.16.1), including `vm_compute` conversions used in examples and refutations.
* `Print Assumptions` is run in the source after every theorem. It answers *Closed under the global
  context* for all theorems except those of C69 (log weights), which are about the standard library's
  real numbers and rest on the axioms that library declares: `ClassicalDedekindReals.sig_not_dec`,
  `ClassicalDedekindReals.sig_forall_dec`, `FunctionalExtensionality.functional_extensionality_dep`
  and `Classical_Prop.classic`. There are no axioms of our own. (`coqchk -o` on the whole library also
  lists the abstract parameters of `Coq.ssr.ssrunder`, which the standard library's `ssreflect` files
  declare and which get loaded through `Lia`; no theorem uses them.)
* The reading of the Rust source into the definitions of `Model/`. Nothing was executed: the
  correspondence is by citation, file and lines beside every definition.
* Behaviour of library code the crate calls, modelled from its documentation:
  - `slice::sort_by` – stable insertion sort; `sort_unstable_by` used only where keys are distinct or
    order does not matter (as stated at the use);
  - `BinaryHeap` – a bag with removal of a maximal element;
  - `HashMap`/`HashSet`/`BiHashMap` – association lists; iteration order is a universally
    quantified permutation wherever the code iterates over a hash map;
  - `superslice::lower_bound` – its binary search;
  - `nom` parsers – recursive descent on byte lists;
  - `bitflags` – `N` masks.

## Modelling conventions

* Label, StateId: `nat` (the code uses u32/usize; machines with more than 2^32-1 states or labels
  are out of scope, casts are modelled where serialisation makes them visible).
  `NO_LABEL` is a separate constructor where the code uses it as a value.
* Property sets: `N` bit masks, same constants as the code.
* Weights: an arbitrary carrier with operations (`Semiring` trait) and a decidable equality that
  coincides with Leibniz equality. **f32 rounding and the KDELTA-approximate equality are not
  modelled**; concrete numeric weights use exact rationals/integers with infinity, log weights the reals. Each theorem states
  the laws it uses (`lsr_laws` left semiring, `sr_laws` semiring, commutativity, idempotency, path
  property, division). `quantize` is a parameter.
* `Result` and panics are explicit: `Ok v | Err | Panic`. usize underflow, out-of-range indexing and
  `unwrap` on `None` are `Panic`; `unsafe` unchecked accessors panic out of range.
* `&mut self` methods return the new value; loops are structural recursion/folds, or carry explicit
  fuel. Fuel running out is a distinguished value: `Panic` where the fuel is proved sufficient,
  `None` (`option (res _)`) where the code may really not terminate; the statements then say when
  it does terminate.
* Queue disciplines and the one cache of lazy machines are quantified over (every provided kind).

## Not modelled

* Threads, mutexes, atomics (`Arc`, `Mutex`, atomic property cells): one thread.
* File system and I/O errors (byte lists instead), logging, `Display` of DOT drawings.
* f32 arithmetic (rounding, NaN, overflow). `PowerWeight` (its `Semiring` impl is commented out) and
  `MultiEpsFilter` (no constructor).
* Label pushing on top of TrLookAheadMatcher (looking ahead with it is C71 to C73 and C76 to C78), label look-ahead on the input side (SMatchInput) beyond the model of the filters, and composition with sigma matchers on both machines (on one of them it is C74 and C75).
* `rustfst-ffi`, `rustfst-cli`, Python bindings.

## Specification

A machine is viewed as start / transitions / finals. `wt m n s x y` is the semiring sum over all
paths of exactly `n` transitions from `s` to a final state reading `x` and writing `y` (labels 0
are dropped). It is proved equal to the sum over the explicit list of paths. Two machines are
equivalent when these sums agree for all n, x, y (or up to a fixed number of extra epsilon steps).
Nothing in the specification refers to model helpers.

## Per-property table

Every theorem named in MANIFEST.json is for all inputs meeting the written hypotheses (no bounds); `_refuted` theorems
show a concrete witness on the faithful model where the obvious claim is false. Limits and findings are in the last column.

| id | title | modelled in | proof method | notes |
|---|---|---|---|---|
| C01 (proved) | Cached property bits are sound over every mutation history | Model/Props.v, VectorFst.v, History.v (mutate_properties.rs, mutable_fst.rs, data_structure.rs) | invariant `fsound` over histories; one preservation lemma per call | All 32 bits, every history of covered calls, every left semiring; the set_trs_unchecked exception is shown by a witness. |
| C02 (proved) | Epsilon counters always equal the true counts | VectorFst.v, TrOps.v, History.v | invariant: counters equal counts, over histories | All calls including the raw per-state ones; a panic implies out-of-range arguments. |
| C03 (proved) | Deleting states keeps exactly the surviving sub-machine | VectorFst.v del_states/del_state | explicit renaming of survivors; permutation of remaining transitions |  |
| C04 (proved) | connect keeps the weighted relation and leaves only useful states | Dfs.v, Visitors.v (connect visitor), TrOps.v connect | DFS invariant (white/grey/black), then C03; path bijection | connect built on the modelled DFS and connect visitor; any closed machine |
| C05 (proved) | reverse reverses the weighted relation | Rational.v reverse | path reversal bijection, weight of reversed product | weights whose reverse lands in a left semiring |
| C06 (proved) | union computes the sum of the two relations | Rational.v union, AlgoProps.v | path decomposition from the new start; exact epsilon offset | sum of relations, with the exact number of extra epsilon steps; the start shift bug is the _refuted theorem |
| C07 (proved) | concat computes the Cauchy product of the two relations | Rational.v concat | path splitting at the bridge transition | exact Cauchy product, per path length |
| C08 (proved) | closure computes the Kleene star / plus | Rational.v closure | induction on the number of loops through the start | exact powers, per path length |
| C09 (proved) | invert and project act on the relation as advertised | Rational.v invert/project | path-wise label map | Machines built by any history of mutating calls; symbol tables are not swapped or copied by the code and the theorems say so. |
| C10 (proved) | Transition sorting permutes and sorts | TrOps.v tr_sort | permutation + sortedness of a stable insertion sort (Rust's sort_by is stable) | Any machine; the relation, counters, stability and all bits. |
| C11 (proved) | tr_sum merges parallel transitions and keeps the relation | TrOps.v tr_sum | grouping of equal keys inside ksum | Any machine built by a history of calls, right and left distributive semiring. |
| C12 (proved) | tr_unique removes only duplicated transitions and keeps idempotent relations | TrOps.v tr_unique | idempotent sums over equal supports | Same transition set; same relation for idempotent plus; duplicate-freeness is false in general (witness). |
| C13 (proved) | state_sort and top_sort only rename states | TrOps.v state_sort, Visitors.v top_order visitor | cycle-following permutation loop; DFS finishing order | every permutation; top_sort on a non-empty machine without start is an error |
| C14 (proved) | Super-final and final-epsilon normalisation keep the relation | TrOps.v add_super_final_state, rm_final_epsilon | path-wise accounting of the final epsilon steps | rm_final_epsilon for commutative zero-sum-free weights; the cancelling-weights case is the _refuted theorem |
| C15 (proved) | relabel_pairs rewrites labels simultaneously | Relabel.v | map over labels; association-list lookups | Hash maps as association lists with unique keys. |
| C16 (proved) | Generic shortest distance is correct for every queue discipline | ShortestDistance.v, Queues.v | Mohri's invariant for an arbitrary queue; potential argument for termination | The main loop with retained and fresh vectors, any queue meeting an abstract discipline, AutoQueue, forward and reversed. approx_equal is exact equality (no KDELTA), weights exact. The enqueued[state] bug is refuted by a witness; theorems assume self-loops w with 1+w=1 and idempotent plus or acyclicity. |
| C17 (proved) | All-pairs shortest distance solves the path equation | AllPairs.v | Gauss-Jordan invariant; unrolling of path sums | Gauss-Jordan elimination proved to solve both path equations under the star law; sums over all paths for acyclic machines and for idempotent semirings; the tropical closure is shown to give wrong distances. |
| C18 (proved) | Reweighting and weight pushing keep the relation | Reweight.v | telescoping potentials along paths | reweight and push_weights with division as a parameter; exact weights. C18_dead_successor_refuted: normalisation fails when a successor cannot reach a final state. Label pushing (push with PUSH_LABELS) is not part of this entry. |
| C19 (proved) | Composition pairs every two matching paths exactly once | Compose.v, Lazy.v, Matchers.v | filter state machines as unique-interleaving automata; table refinement | sequence, alternate sequence and match filters, commutative weights; the composed weight over paths of k transitions is the sum over matching pairs whose composed path has k transitions, so each pair counts exactly once. Lookahead and sigma composition are not modelled. The refuted theorem shows the multiplicity of the trivial and no-match filters. |
| C20 (proved) | Matchers return exactly the matching transitions | Matchers.v | binary search invariant; cursor loops | superslice lower_bound modelled from its published algorithm |
| C21 (proved) | Lazy FSTs answer the same whatever the query history | Lazy.v, BiMap.v | cache invariant over query histories; refinement to the pure operation | all provided caches (vector, hash map, one-entry in front), any query history; operations without state and table-driven ones. num_trs before expansion is an error (refuted witness), as the statement says. |
| C22 (proved) | State tables are bijections over every history | BiMap.v | bijection invariant over histories | Any type of tuples with decidable equality; every history of find_id calls. Mutex and hash-map order not modelled. The binary form of a state table is C26-style codec work, not covered here. |
| C23 (proved) | Binary FST serialisation round-trips | Codec.v, BinFst.v | parser/printer inversion | vector FST binary store/load for any weight codec that round-trips; truncation rejected; file system not modelled |
| C24 (proved) | Const FST conversion and serialisation agree with the vector FST | BinFst.v const part | prefix-sum layout invariant | conversion and const-file round trip for fewer than 2^31 transitions; to_trs_vec claim of the list is a bug shown by the refuted theorem; version-1 aligned reading is modelled but only the writer's version 2 is round-tripped |
| C25 (proved) | Text form round-trips up to what it can express | TextFst.v | printer/parser inversion over lines | any weight printer that round-trips; exact start condition; malformed rows silently end the file |
| C26 (proved) | Symbol table is a bijection with dense labels | SymbolTable.v, Codec.v | bijection invariant; UTF-8 codec | Byte-level model of both formats including UTF-8 validation, casts and truncation. Tables of more than 2^32 symbols out of scope. |
| C27 (proved) | Weights satisfy the laws they promise | Weights.v | algebra over exact carriers | exact arithmetic: integers for i32 and for the finite floats of tropical weights, rationals for probabilities; log weights are C69 |
| C28 (proved) | Queues return every enqueued state and only those | Queues.v | bag invariant over histories per queue kind | All queue kinds incl. SccQueue, every history of calls; the refuted theorems show the guards are needed and record the real findings. |
| C29 (proved) | Partition refinement structure stays a partition | Partition.v | linked-list representation invariant | Doubly linked lists modelled as in the code; i32 overflow of links not modelled. Moving a marked element makes finalize panic (refuted). |
| C30 (proved) | Encode then decode restores the relation | Encode.v | encode table bijection; path-wise decoding | round trip for all three encode types; with weights encoded the relation is kept per path length in every semiring, with labels only it is kept up to the epsilon folding that decode performs (C14); refuted in a ring where sums cancel |
| C31 (proved) | tr_map applies a mapper to every transition and final weight once | TrMap.v | fold invariant of the stateful mapper | tr_map and weight_convert for every stateful mapper: call order, placement of results, super-final state, errors; library mappers; refuted: zero answer under required super-final state, epsilon mapper bits on empty machines, UNWEIGHTED after conversion, inversion of zero |
| C32 (proved) | Path enumeration is complete and duplicate free | Paths.v, FstPath.v | BFS invariant of the queue of partial paths | paths_iter lists exactly the accepting paths, shortest first, each as often as it occurs, and finds each of them; it terminates when there are finitely many paths. acceptor/transducer/epsilon_machine have one accepting path; decode_linear_fst returns it. Refuted: decode of a machine accepting nothing returns the empty path with weight one; a non-accepting loop makes next run for ever. |
| C33 (proved) | check_path agrees with the set of accepting paths only without one-sided epsilons | FstPath.v check_path | BFS over (state, positions) | correct exactly on machines with no transition having epsilon on one side only; refutations outside |
| C34 (proved) | Interval sets represent unions of ranges | IntervalSet.v | set denotation of interval lists | usize overflow not modelled; superslice's lower_bound modelled by its specification on sorted slices. |
| C35 (proved) | isomorphic: what a yes means, and when a yes is given | Isomorphic.v | bisimulation invariant of the pairing | weight order and approximate equality are parameters |
| C36 (proved) | Depth-first visit and SCC decomposition are correct | Dfs.v, Visitors.v | DFS invariant, lowlink invariant | any transition filter; the access vector and the no-start case are refuted as the statement says |
| C37 (proved) | Epsilon removal keeps the relation | RmEpsilon.v | epsilon-closure sums; limits of partial sums | Sums compared as limits of sums over paths of at most k transitions. Findings: an epsilon transition of weight zero followed by another epsilon makes expand index past the distances (panic) or use a distance from an earlier expansion (wrong weight); a machine without start state is returned with its epsilon transitions. |
| C38 (proved) | Determinisation produces an equivalent deterministic acceptor | Determinize.v, Lazy.v | subset invariant: weighted residues reproduce the sum over paths | Determinization of acceptors: for every hash order and every semiring with exact division the result is deterministic and gives every word the same weight; the distance variant returns the distances of the subsets; acyclic machines terminate. Transducers (through the gallic semiring) are not part of this statement. |
| C39 (proved) | Weight factoring keeps weights | FactorWeight.v, Lazy.v | each split weight is re-read along a chain; exact offsets | For every machine, factor iterator meeting its contract and cache history; path lengths are related exactly. Termination for fading factors without cyclic growth. The ACCEPTOR bit claim is refuted for unequal final labels. |
| C40 (proved) | Replace performs recursive substitution | Replace.v, Lazy.v | stack-table refinement to an inductive grammar expansion | Every grammar of machines built through the API (recursive or not), every option and cache; per number of steps the weight of (x, y) is the sum over the expansions. Termination for non-recursive grammars. The I_LABEL_SORTED bit is refuted. |
| C41 (proved) | Shortest path returns a best accepting path | ShortestPath.v | generic relaxation invariant; parent links form a path | guards: closed machine, ACYCLIC bit sound, no cycle improves a path; nshortest > 1 is not covered by this claim |
| C42 (proved) | Compact label set answers membership | CompactSet.v | history invariant | contains answers yes exactly for the smallest inserted label (insert-only histories) and never for a label that is not live (all histories); exact membership is refuted by a witness. |
| C43 (proved) | compute_fst_properties decides every property bit it is asked for | ComputeProps.v, Dfs.v | DFS facts transported to each bit | guards: start state present, closed, no explicit zero final weight; the refuted theorems show each guard is needed |
| C44 (proved) | The gallic weight is a semiring of weighted strings | UnionWeight.v, Weights.v | semantic map to finitely supported functions | GallicWeight on well-formed values is the convolution semiring of weighted strings; division by one string and reversal characterised; the infinite string breaks commutativity. |
| C45 (proved) | Minimization of deterministic unweighted acceptors | Model/Minimize.v, Model/Partition.v | Hopcroft invariant (every pending splitter is queued) proved for any heap order; acyclic variant by induction on heights; then a quotient argument and a pigeonhole for minimality | Unweighted deterministic acceptors, any semiring with 1 <> 0. Minimality needs commutative times and either an acyclic machine or sorted transitions; the three refutations show the limits of the code. The heap's tie order is an arbitrary oracle. Weighted machines and transducers are not covered here. |
| C46 (proved) | Minimization of deterministic weighted acceptors | Model/Minimize.v, Model/Reweight.v, Model/Encode.v | weight pushing shown to normalise states (C18), encoding shown injective on normalised states, the unweighted theorem applied to the codes, then proportional residuals give equal codes (pigeonhole) | Weighted deterministic acceptors. Quantization is taken as the identity (f32 rounding is not modelled). Hypotheses on weights are those of C18 (met by min-plus, C18_weights); minimality additionally needs an acyclic machine, commutative cancellative times and nonzero transition weights. Final states must not have epsilon transitions. Refutations: a cyclic start adds a state; unsorted cyclic machines may not be minimal. |
| C47 (proved) | The n shortest paths are n best accepting paths | Model/NShortest.v, Model/ShortestPath.v | invariant of the best-first search: heap order, tree of partial paths, permutation between all completions and the open/skipped/done nodes; a skipped node is dominated by n expanded ones, which a pigeonhole turns into n better paths; reversal relates completions to accepting paths | Option unique is C68. approx_equal on weights is taken as equality. Commutative cancellative path weights with rb (rv w) = w and rb 1 = 1 (min-plus meets all; Example). Path comparison is by the natural order x + y = x. |
| C48 (proved) | Condensation keeps exactly what runs between components | Model/Visitors.v condense | loop invariant over states and transitions on top of the SCC theorem C36 | Built on the modelled SCC visitor (C36). A machine with states but no start panics in the code (start().unwrap()), as the second theorem says. |
| C49 (proved) | State reachability index answers exactly which final states can be reached | Model/Reachable.v, Model/IntervalSet.v | invariant of the depth-first visitor (finished states hold exactly the numbers of the final states below them, as a normal interval set); the cyclic case by transport along the condensation theorem C48 | acyclic visitor, cyclic construction through condensation, and the public constructor; counter exhaustion (usize::MAX final states) is not modelled |
| C50 (proved) | Label reachability index says exactly which labels can be read next | Model/LabelReach.v | loop invariants of the transformation (one new final state per label, in-degrees, super-start), then the state-reachability theorem C49 on the transformed machine and a translation of paths | covers conversion, transformation, property computation and interval construction; guards are those under which the constructor is meaningful |
| C51 (proved) | Scanning sorted transitions against the label index finds every readable transition | Model/LabelReach.v | binary search specified by its bounds; both strategies shown equal to a filter over positions | the interval-set hypotheses are those C50 proves of every set in the index |
| C52 (proved) | Renumbering labels for lookahead is injective and changes nothing else | Model/LabelReach.v | prefix/suffix loop invariant over transitions and states, then the sorting theorem C10 | hash map order is insertion order; the pairs are characterised up to order |
| C53 (proved) | Converting a machine copies all of it | Model/LabelReach.v | loop invariant over states; counter-example by computation | the refuted theorem shows the start state is needed for right property bits |
| C54 (proved) | The look-ahead answer names exactly the transitions that can be followed | Model/LookAhead.v | the scan theorem C51 as a filter over transitions, the index theorem C50, case analysis on the selected list | output side (the matcher of the first machine looks into the second); input side of the data is C50/C51 |
| C55 (proved) | Look-ahead, weight pushing and label pushing change no weight of a composition | Model/LookAhead.v | layer by layer: look-ahead drops only pairs of weight zero (a pending-label decomposition of the plain composition); weight pushing keeps 'pending weight times value = plain value'; label pushing keeps 'value with a pending label = sum over paths that write it first'; finiteness of the tuples reached bounds the search | selector SMatchOutput; hypotheses ready/complete_index are met by the preparation of C56 |
| C56 (proved) | Look-ahead composition of two machines equals plain composition | Model/LookAhead.v | renumbering relates paths one to one (C52), so sums over pairs agree; the index of the original machine is complete for the renumbered one; then C55 | exact weights; NO_LABEL/NO_STATE_ID as separate constructors |
| C57 (proved) | Pushing labels towards the start keeps every successful path | Model/Gallic.v (on ShortestDistance, Reweight, TrMap, FactorWeight) | Distances over the product of strings and weights settle (C16 over left semirings); potentials divide; reweighting and removal carry paths to paths (Proofs/PushPath.v, LabelPush.v); the factored, converted machine is summed path by path (Proofs/GallicPath.v); termination by a bound on the pending output. | ReweightToInitial in full; ToFinal is modelled, not proved. Quantization and KDELTA are exact equality. Self-loops must write nothing and be idle: C57_self_loop_refuted is a machine on which a writing self-loop leaves a stale distance and push changes the outputs. C57_no_path_refuted: with no successful path one removal flag alone panics or errs. A machine without a start becomes an empty machine without symbol tables. |
| C58 (proved) | Minimizing a deterministic transducer keeps every successful path | Model/MinTransducer.v (on Gallic, Minimize, Encode, Reweight, FactorWeight) | Pushing as in C57; encoding, acceptor minimization and decoding keep the spelled words and follow the pushed machine state by state (Proofs/EncMin.v, PeelSpell.v); deterministic machines with the same words have the same paths (Proofs/MinTrans.v); then the path sums of C57. | Deterministic transducers without epsilons at final states; exact weights (quantization is the identity). C58_more_states_refuted: factoring long strings can leave more states than the input had. The allow_nondet route for idempotent weights is modelled but only its dispatch is proved. |
| C59 (proved) | Random generation returns exactly the paths it drew | Model/RandGen.v (on Lazy, Dfs) | Invariant of the breadth-first expansion: a tree whose nodes record the choices made (Proofs/RandFacts.v); its leaves are the draws, shares telescope (RandTree.v); the visitor lists them in order (RandVisit.v, by the rule for depth-first visits) and writes one chain per draw (RandChain.v); a stream that steers to a given path (RandOne.v). | Random numbers are an arbitrary stream; -ln(a/b) is an arbitrary weight function that multiplies (floating-point rounding is outside). Two documented expectations are refuted by witnesses: paths of length max_length, and the sorted bits of the unweighted delayed machine. |
| C60 (proved) | Determinizing a transducer keeps its relation and refuses ambiguous outputs | Model/DetTransducer.v (on Determinize, Gallic, FactorWeight, TrMap) | A weight with a string acts on functions of what is still to be written; subset construction as in C38 for that action (Proofs/DetTrans.v, the sum is restricted to the pairs that occur); the factored and converted machine denotes the same as in C57 (GallicPath.v). | Functional variant only. Hypotheses: no zero final weight (shown to be refused otherwise), exact division as in C38. Termination is not claimed. |
| C61 (proved) | Determinization of acceptors reports only true property bits and reaches every state | Model/Determinize.v, Model/AlgoProps.v | States are subsets met from the first one (Proofs/TableReach.v: ids are numbered after the subset they were met from, every id is reachable); transitions of subsets are seen as sets of transitions of states (Proofs/DetBits.v), giving path lifting in both directions and one lemma per bit. | All bits of determinize_properties for acceptors; coaccessible and string need zero-free weights without zeros (refuted otherwise). |
| C62 (proved) | optimize returns the smallest deterministic form of an acyclic acceptor | Model/Optimize.v | Composition of C11 (tr_sum), C38 and C61 (determinization, its bits) and C45/C46/C58 (minimization), with what each step leaves for the next: nonzero weights, no epsilons, no cycles, a start state, true bits; more fuel never changes an answer. Routes by computation of the branches; refutations by evaluation. | All of optimize is modelled. The optimality theorem covers acyclic epsilon-free acceptors with known bits (the direct route); the transducer routes and the routes through rm_epsilon are modelled, but only their dispatch is stated. Quantization is the identity (f32 rounding not modelled); the panic is the subtraction tuple_id - 1, which in release builds wraps and yields an error instead. |
| C63 (proved) | Delayed union, concatenation and closure denote the rational operations | Model/RationalFst.v | the expansions of C40 for the small root machine, unfolded into Cauchy products; the loops by strong induction on the path length; termination from C40_terminates with the root ranked above the arguments | The three delayed constructions over the replacement model; for every semiring (both distributivities). The claim is proved for machines whose output labels avoid the reserved labels; the refuted theorem shows what happens otherwise. The property words answered by properties() are not covered. |
| C64 (proved) | String paths spell the labels of the accepting paths | Model/StringPath.v | the listing from C32; splitting at spaces inverts joining by induction on the symbols; the table bijection from C26 | The tables are separate arguments of the model (the tables stored in a machine are opaque there). |
| C65 (proved) | The property bits of a composition are true | Model/Compose.v, Model/AlgoProps.v | every state met by the traversal is accessible; cycles and labels projected onto the two machines; distinctness of labels by the shape of the list of moves | Sorted matchers; the look-ahead composition keeps a subset of the same word (C55) and is not covered here. |
| C66 (proved) | Delayed epsilon removal, computed in full, keeps the relation | Model/RmEpsilonFst.v (over Model/RandGen.v's LazyFst2 and Model/RmEpsilon.v) | Proofs/Lazy2Facts.v: an invariant of LazyFst2's compute for any operation (seen, queue, done states) with termination; each answer is an epsilon closure with exactly the labels behind epsilons (ExpandFacts, RmEpsFacts); closures of unreached states are filled in by finite choice and the relation follows from Proofs/RmEpsLazy.v. | The conditions on weights are those of C37 (removable) plus termination of the distances (no endless growth, or no epsilon cycle). An out-of-fuel distance counts as an error of the operation; enough fuel exists by the first part of the theorem. |
| C67 (proved) | optimize minimizes sorted acyclic acceptors with epsilons | Model/Optimize.v, Model/RmEpsilon.v | Proofs/RmEpsBits.v: the bits ACCEPTOR, TOP_SORTED, ACYCLIC and the absence of weight zero are invariants of the loop over states (closure labels, positive sums); the result meets C62's hypotheses; for epsilon-free acceptors the totals determine the language, so C62's minimality carries over. | For sorted acyclic acceptors with any epsilons, over commutative zero-free cancellative weakly divisible semirings with exact division (tropical integers as instance); fuel is existential with monotonicity. C67_unsorted_refuted: the same machine with its states renumbered (ACYCLIC still known) is returned nondeterministic. A machine that accepts nothing is outside the theorem (C67_empty_test shows one). |
| C68 (proved) | shortest_path with unique returns the n best distinct strings | Model/UniquePaths.v (and Model/NShortest.v, Model/Determinize.v) | Proofs/DetDistance.v: the distances determinize_with_distance hands over are the sums of the words still to be read (induction on the runs of the deterministic machine), so C47's search invariant applies to the determinized reverse; words of a deterministic machine have one path, which turns best paths into best strings. Termination from C38's bound on subsets. | shortest_path_with_config with unique = true and n >= 2 on acceptors without epsilons. Commutative cancellative path weights with exact division whose reverse is the identity (min-plus meets all; Example); approx_equal and quantization taken as exact. With epsilons the claim is refuted by a witness: epsilon is a label like any other for the determinization, so one string can come twice. Transducers are refused (Example C68_transducer_test). Without unique the function is C47's. |
| C69 (proved) | Log weights are nonnegative numbers; their closure is not the star | Model/LogWeight.v | exp(-x) carries the operations to sums and products of nonnegative reals and is injective; every law is an identity of reals. The determinization theorem instantiates C38. | Over the reals of the standard library (its axioms are listed in DESIGN.md): f32 rounding is not modelled, negative infinity and NaN are outside the carrier. StarSemiring::closure computes ln(1 - x) where the star is ln(1 - exp(-x)): the star claim is refuted, with an exact characterization of where it holds. |
| C70 (proved) | For which weights closure is the star | Model/Weights.v closures, Model/AllPairs.v | case analysis and field identities; all-pairs by instantiating C17_acyclic with the laws of C27. | Exact arithmetic as in C27 (-0.0 is not a value, i32 overflow not modelled). The star equation c = 1 + x c holds for booleans always, tropical weights except zero, probabilities except one, integers only at zero; log weights are C69_closure. all_pairs_shortest_distance sums all paths of machines without cycles for the weights whose closure takes zero to one; for tropical weights see C17_tropical_refuted. |
| C71 (proved) | Looking one transition ahead rules out exactly the pairs of states with no way on | Model/TrLookAhead.v | invariant of the loop over the other machine's transitions (counter, weight, first prefix) with the matcher's items given by C20; soundness by inverting the two successful paths. | TrLookAheadMatcher over SortedMatcher, whose transitions are known to be sorted on the matched side. None is returned exactly when there is no way on, and then no two successful paths agree. The reported weight starts from one, so it is one plus the weight of the ways (refuted as the weight of the ways); with only one of LOOKAHEAD_WEIGHT and LOOKAHEAD_PREFIX the data are the defaults. Composition through this matcher is not modelled. TrivialLookAheadMatcher answers a constant and has no statement. |
| C72 (proved) | Looking one transition ahead changes no weight of a composition | Model/TrLookAhead.v (tla_cf), Model/LookAhead.v | a pair of states without a way on has no pairs of transitions to try and no final weight, so its weight is zero under every filter; induction on the number of transitions against the plain composition (C19), and totality by the bound on the tuples. | In the source only AltSequenceComposeFilter implements the trait that an inner filter needs; the theorems cover all six filters of the model. C72_prunes speaks of the transitions computed for a tuple. Label pushing on top of this matcher is not covered. |
| C73 (proved) | Pushing the weights found one transition ahead changes no weight of a composition | Model/TrLookAhead.v (tla_cf), Model/LookAhead.v (pushw_cf) | induction on the number of transitions with the pending weight as factor (pending weight times the pushed value is the plain value); the pending weights come from a finite list, which bounds the tuples. | Exact arithmetic (no rounding). In the source only AltSequenceComposeFilter can be the inner filter. |
| C74 (proved) | Composing with a sigma matcher is composing with the sigma transitions spelled out | Model/SigmaCompose.v over Model/Matchers.v (sigma matcher), Model/LookAhead.v (generic expansion) and Model/Lazy.v | the items of the sigma matcher for every label; per state the pairs are a permutation of those of the spelled machine; induction on path length; totality of the table; refuted without the condition on the written labels | Sigma on the second machine only; NO_LABEL as sigma label (which switches the matcher off) is not modelled. |
| C75 (proved) | Composing with a sigma matcher on the first machine spells its sigma transitions out | Model/SigmaCompose.v, second half | as C74, with the sides exchanged | Sigma on the first machine only; with sigma on both sides a pair of states that both have sigma is an error in the code, which is not modelled. |
| C76 (proved) | Letting the look-ahead filter choose its side is safe; forcing the side is not | Model/LookSelect.v | case analysis of the choice, then C72; the refutation by computing both compositions on a witness | C76_forced_refuted: a forced side over an unsorted machine loses a path silently |
| C77 (proved) | The trivial look-ahead matcher changes nothing | Model/LookSelect.v, second half | expanding two operations that answer alike gives the same machine (bfs_ext); then C76 | machine equality over any inner filter; weights through C76 |
| C78 (proved) | Pushing weights over the side the look-ahead filter chooses changes no weight | Model/LookSelect.v, end | the chosen side is sorted (auto_side), then C73 | exact weights; f32 rounding and quantization are outside the model |
